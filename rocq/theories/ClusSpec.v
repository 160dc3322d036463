(** Specification vocabulary for the clustering estimators; independent of the model
    (except for the four metric names). *)
From Verif Require Import Prelude CircleSpec HypMultiSpec.
From Verif Require Import DescModel.

(** The mean direction of a group of angles, in [0, 2 pi); NaN when the mean resultant
    length is at most 1e-12. *)
Definition centre (g : list R) (x : fl) : Prop :=
  (resultant g <= / 1000000000000 * INR (length g) /\ x = NaN) \/
  (/ 1000000000000 * INR (length g) < resultant g /\
   exists c, x = Fin c /\ 0 <= c < 2 * PI /\
     Rsum (map cos g) = resultant g * cos c /\ Rsum (map sin g) = resultant g * sin c).
(** What each metric reports for two directions at arc distance d. *)
Definition measured (m : metric) (d : R) : R :=
  match m with
  | Center | Geodesic => d
  | AngSep => 1 - cos d
  | Chord => 2 * sin (d / 2)
  end.
(** The angles at the given positions; the angles carrying a given label. *)
Definition angles_at (alpha : list R) (idx : list nat) : list R := map (fun i => nth i alpha 0) idx.
Definition labelled {A} (alpha : list A) (labels : list nat) (c : nat) : list A :=
  map fst (filter (fun p => Nat.eqb (snd p) c) (combine alpha labels)).

(** Clusters under way: an id and the positions of the members. *)
Definition forest := list (nat * list nat).
(** A row of merges_: the two ids, the distance, the size. *)
Definition mrow := (nat * nat * fl * nat)%type.
(** [history good next st rows st']: replaying the rows from st, where each row joins two
    current clusters into one that gets the next id, records its size, and is
    [good], ends in st'.  The order of the current clusters does not matter. *)
Inductive history (good : forest -> list nat -> list nat -> fl -> Prop) : nat -> forest -> list mrow -> forest -> Prop :=
| h_none next st st' : Permutation st st' -> history good next st [] st'
| h_join next st a A b B d rest rows st' :
    Permutation st ((a, A) :: (b, B) :: rest) ->
    good st A B d ->
    history good (S next) ((next, A ++ B) :: rest) rows st' ->
    history good next st ((a, b, d, length (A ++ B)) :: rows) st'.
(** The recorded distance is that of the two centres. *)
Definition distance_of_centres (m : metric) (alpha : list R) (st : forest) (A B : list nat) (d : fl) : Prop :=
  exists x y e, centre (angles_at alpha A) (Fin x) /\ centre (angles_at alpha B) (Fin y) /\
    is_arc_dist x y e /\ d = Fin (measured m e).
(** The two clusters have centres, and no two current clusters with centres are closer. *)
Definition closest_pair (alpha : list R) (st : forest) (A B : list nat) (d : fl) : Prop :=
  exists x y e, centre (angles_at alpha A) (Fin x) /\ centre (angles_at alpha B) (Fin y) /\ is_arc_dist x y e /\
    forall C D rest u v e', Permutation st (C :: D :: rest) ->
      centre (angles_at alpha (snd C)) (Fin u) -> centre (angles_at alpha (snd D)) (Fin v) -> is_arc_dist u v e' ->
      e <= e'.
(** The clusters are non-empty, have different ids below next, and split the n positions. *)
Definition splits (n next : nat) (st : forest) : Prop :=
  Forall (fun c => snd c <> [] /\ (fst c < next)%nat) st /\ NoDup (map fst st) /\
  Permutation (concat (map snd st)) (seq 0 n).
(** Label l is given to exactly the members of the l-th cluster. *)
Definition labels_of (st : forest) (n : nat) (labels : list nat) : Prop :=
  length labels = n /\
  forall i l, (i < n)%nat -> (nth_error labels i = Some l <-> exists c, nth_error st l = Some c /\ In i (snd c)).

(** One step of Lloyd's algorithm: every angle is labelled with a nearest centre
    (when all centres are defined), then each centre moves to the mean direction of its
    angles, or stays if it has none. *)
Definition nearest (alpha : list R) (cs : list fl) (labels : list nat) : Prop :=
  Forall2 (fun a l => exists c, nth_error cs l = Some (Fin c) /\
             forall c' e e', In (Fin c') cs -> is_arc_dist a c e -> is_arc_dist a c' e' -> e <= e') alpha labels.
Definition defined (cs : list fl) : Prop := Forall (fun c => exists x, c = Fin x) cs.
Definition recentred (alpha : list R) (labels : list nat) (cs cs' : list fl) : Prop :=
  length cs' = length cs /\
  forall c x x', nth_error cs c = Some x -> nth_error cs' c = Some x' ->
    (In c labels -> centre (labelled alpha labels c) x') /\ (~ In c labels -> x' = x).
Definition lloyd_step (alpha : list R) (cs : list fl) (labels : list nat) (cs' : list fl) : Prop :=
  (defined cs -> nearest alpha cs labels) /\
  Forall (fun l => l < length cs)%nat labels /\ length labels = length alpha /\
  recentred alpha labels cs cs'.
(** The sum of the arcs by which the centres moved is below tol. *)
Definition settled (tol : R) (cs cs' : list fl) : Prop :=
  exists ds, Forall2 (fun p d => exists x y, p = (Fin x, Fin y) /\ is_arc_dist x y d) (combine cs cs') ds /\ Rsum ds < tol.
(** [lloyd alpha tol p cs prev labels cs']: p steps from cs, none but possibly the last
    one settled; the last one went from prev to cs' and assigned the labels. *)
Inductive lloyd (alpha : list R) (tol : R) : nat -> list fl -> list fl -> list nat -> list fl -> Prop :=
| ll_last cs labels cs' : lloyd_step alpha cs labels cs' -> lloyd alpha tol 1 cs cs labels cs'
| ll_more p cs labels0 mid prev labels cs' :
    lloyd_step alpha cs labels0 mid -> ~ settled tol cs mid ->
    lloyd alpha tol p mid prev labels cs' -> lloyd alpha tol (S p) cs prev labels cs'.
(** Positions drawn without replacement. *)
Definition draw (n k : nat) (idx : list nat) : Prop :=
  length idx = k /\ NoDup idx /\ Forall (fun i => i < n)%nat idx.
(** All angles within one turn starting at 0. *)
Definition one_turn (alpha : list R) : Prop := Forall (fun a => 0 <= a < 2 * PI) alpha.
(** The data in radians: as given, or x of full_cycle units turned into 2 pi x / full_cycle. *)
Definition in_radians (is_radian : bool) (full_cycle : R) (X : list R) : list R :=
  if is_radian then X else map (fun x => 2 * PI * x / full_cycle) X.
(** The silhouette of observation i (Rousseeuw 1987): a is the average distance to the
    other members of its cluster, b the least average distance to another cluster;
    0 for the only member of a cluster. *)
Definition silhouette_at (dist : R -> R -> R) (alpha : list R) (labels : list nat) (i : nat) (s : R) : Prop :=
  exists x l, nth_error alpha i = Some x /\ nth_error labels i = Some l /\
    let own := labelled alpha labels l in
    (length own = 1%nat /\ s = 0) \/
    ((2 <= length own)%nat /\ exists a b l', Rsum (map (dist x) own) = a * (INR (length own) - 1) /\
       l' <> l /\ In l' labels /\ Rsum (map (dist x) (labelled alpha labels l')) = b * INR (length (labelled alpha labels l')) /\
       (forall l'' b', l'' <> l -> In l'' labels ->
          Rsum (map (dist x) (labelled alpha labels l'')) = b' * INR (length (labelled alpha labels l'')) -> b <= b') /\
       s * Rmax a b = b - a).
(** No two of the current clusters both have a centre. *)
Definition stuck (alpha : list R) (cl : forest) : Prop :=
  forall C D rest, Permutation cl (C :: D :: rest) ->
    centre (angles_at alpha (snd C)) NaN \/ centre (angles_at alpha (snd D)) NaN.
(** Two centres, the second being the first turned by t; or both undefined. *)
Definition turned_fl (t : R) (x x' : fl) : Prop :=
  (x = NaN /\ x' = NaN) \/ exists c c', x = Fin c /\ x' = Fin c' /\ same_dir (c + t) c'.
(** The starting positions for the optional K-means initialisation. *)
Definition seed_ok (n : nat) (n_init : option nat) (seed : list nat) : Prop :=
  match n_init with Some k => (k < n)%nat -> draw n k seed | None => True end.
