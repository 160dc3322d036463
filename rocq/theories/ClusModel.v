(** Model of the two hard-clustering estimators of pycircstat2/clustering.py:
    CircHAC (1267-1579) and CircKMeans (1582-1756).  Angles are one-dimensional arrays. *)
From Verif Require Import Prelude NpModel UtilsModel DescModel HypMultiModel HypMulti2Model.

(** circ_dist (descriptive.py:1411-1471) of two floats: NaN when one of them is NaN. *)
Definition fdist (m : metric) (x y : fl) : fl :=
  match x, y with Fin a, Fin b => Fin (circ_dist m a b) | _, _ => NaN end.
(** abs and the comparison < of floats. *)
Definition flabs (x : fl) : fl :=
  match x with Fin a => Fin (Rabs a) | NaN => NaN | _ => PInf end.
Definition fllt (x y : fl) : bool :=
  match x, y with
  | Fin a, Fin b => Rltb a b
  | Fin _, PInf | NInf, Fin _ | NInf, PInf => true
  | _, _ => false
  end.
(** np.argmin of a non-empty float array: the first NaN if there is one. *)
Definition fargmin (l : list fl) : nat :=
  match first_nan 0 l with Some i => i | None => argmin (map fval l) end.
(** alpha[indices] for a list of positions.  Every list of positions that the code uses
    holds positions of alpha, so the default 0 is never read (proved: hac_fit_ok). *)
Definition at_ (alpha : list R) (i : nat) : R := nth i alpha 0.
Definition take (alpha : list R) (idx : list nat) : list R := map (at_ alpha) idx.
(** np.where(labels == c)[0]. *)
Definition where_label (labels : list nat) (c : nat) : list nat :=
  filter (fun i => Nat.eqb (nth i labels 0%nat) c) (seq 0 (length labels)).

(** The conversion to radians: clustering.py:1392 / 1465 (CircHAC; the constructor admits
    only "degree" and "radian") and 1665-1668 / 1747-1750 (CircKMeans; every string other
    than "degree" means radians).  [is_radian] is the outcome of that comparison. *)
Definition to_rad (is_radian : bool) (full_cycle : R) (X : list R) : list R :=
  if is_radian then X else map (fun x => data2rad x full_cycle) X.

(** ** CircKMeans *)

(** clustering.py:1687-1692, 1753-1756: the assignment of one point. *)
Definition km_dists (m : metric) (centers : list fl) (a : R) : list fl :=
  map (fun c => flabs (fdist m (Fin a) c)) centers.
Definition km_assign (m : metric) (alpha : list R) (centers : list fl) : list nat :=
  map (fun a => fargmin (km_dists m centers a)) alpha.
(** clustering.py:1695-1704: the mean of the assigned points, or the old centre. *)
Definition km_update (alpha : list R) (centers : list fl) (labels : list nat) : list fl :=
  map (fun c : nat * fl =>
         match where_label labels (fst c) with
         | [] => snd c
         | idx => fst (circ_mean_and_r (take alpha idx) None)
         end)
      (combine (seq 0 (length centers)) centers).
(** clustering.py:1707: sum of |angle(exp(i c) / exp(i c'))|; |exp| = 1, and the
    quotient is the 'center' metric of descriptive.py:1457. *)
Definition km_shift (old new : list fl) : fl :=
  fsum (map (fun p : fl * fl => flabs (fdist Center (fst p) (snd p))) (combine old new)).
(** clustering.py:1684-1715: the loop. *)
Fixpoint km_loop (m : metric) (tol : R) (alpha : list R) (iters : nat)
    (centers : list fl) (labels : list nat) : list fl * list nat :=
  match iters with
  | O => (centers, labels)
  | S k =>
      let labels' := km_assign m alpha centers in
      let centers' := km_update alpha centers labels' in
      if fllt (km_shift centers centers') (Fin tol) then (centers', labels')
      else km_loop m tol alpha k centers' labels'
  end.
(** clustering.py:1721-1728. *)
Definition km_inertia (m : metric) (alpha : list R) (centers : list fl) (labels : list nat) : fl :=
  fsum (map (fun c : nat * fl =>
         fsum (map (fun i => flabs (fdist m (Fin (at_ alpha i)) (snd c)))
                   (where_label labels (fst c))))
      (combine (seq 0 (length centers)) centers)).

Record kmeans := { km_centers : list fl; km_labels : list nat; km_inert : fl }.
(** clustering.py:1651-1729 [CircKMeans.fit].  [init] is the array init_indices drawn by
    rng.choice(n_samples, size=n_clusters, replace=False) (1681): n_clusters different
    positions.  n_clusters = 0: argmin of an empty axis raises ValueError (1692), unless
    the loop is not entered; a negative n_clusters raises in 1681 and is not modelled.
    An unknown metric name raises ValueError in circ_dist (see metric_of_name). *)
Definition km_fit (m : metric) (is_radian : bool) (full_cycle : R) (n_clusters max_iter : nat)
    (tol : R) (init : list nat) (X : list R) : res kmeans :=
  let alpha := to_rad is_radian full_cycle X in
  let n := length alpha in
  if Nat.ltb n n_clusters then
    Ok {| km_centers := map Fin alpha; km_labels := seq 0 n; km_inert := Fin 0 |}
  else if Nat.eqb n_clusters 0 && negb (Nat.eqb max_iter 0) then Err ValueError
  else
    let (cs, ls) := km_loop m tol alpha max_iter (map (fun i => Fin (at_ alpha i)) init)
                            (repeat 0%nat n) in
    Ok {| km_centers := cs; km_labels := ls; km_inert := km_inertia m alpha cs ls |}.
(** clustering.py:1731-1756 [CircKMeans.predict]: self.centers_[c] for c in
    range(self.n_clusters) raises IndexError when there are fewer centres (1755).
    [None] is the unfitted estimator. *)
Definition km_predict (m : metric) (is_radian : bool) (full_cycle : R) (n_clusters : nat)
    (model : option kmeans) (X : list R) : res (list nat) :=
  match model with
  | None => Err ValueError
  | Some k =>
      let alpha := to_rad is_radian full_cycle X in
      if Nat.ltb (length (km_centers k)) n_clusters then Err IndexError
      else if Nat.eqb n_clusters 0 then Err ValueError
      else Ok (km_assign m alpha (firstn n_clusters (km_centers k)))
  end.

(** ** CircHAC *)

(** A Python dict from cluster ids to lists of positions, in insertion order. *)
Definition clusters := list (nat * list nat).
Definition lookup (cl : clusters) (c : nat) : list nat :=
  match find (fun p => Nat.eqb (fst p) c) cl with Some p => snd p | None => [] end.
Definition del (c : nat) (cl : clusters) : clusters :=
  filter (fun p => negb (Nat.eqb (fst p) c)) cl.
Definition singletons (n : nat) : clusters := map (fun i => (i, [i])) (seq 0 n).
(** clustering.py:1347-1373 [_initialize_clusters].  [kseed] is the array init_indices of
    the inner CircKMeans, whose generator is seeded from self._rng (1356); it runs with
    the defaults max_iter=100, tol=1e-6 (1631, 1636). *)
Definition hac_init (m : metric) (n_init : option nat) (kseed : list nat) (alpha : list R) : res clusters :=
  let n := length alpha in
  match n_init with
  | None => Ok (singletons n)
  | Some k =>
      if Nat.leb n k then Ok (singletons n)
      else
        do km <- km_fit m true 360 k 100 (/ 1000000) kseed alpha;
        let cl := filter (fun p => negb (Nat.eqb (length (snd p)) 0))
                         (map (fun c => (c, where_label (km_labels km) c)) (seq 0 k)) in
        match cl with [] => Ok (singletons n) | _ => Ok cl end
  end.

(** clustering.py:1408: the means of the current clusters. *)
Definition hac_means (alpha : list R) (cl : clusters) : list (nat * fl) :=
  map (fun p => (fst p, fst (circ_mean_and_r (take alpha (snd p)) None))) cl.
(** clustering.py:1411-1418: the double loop over pairs; [best] is (best_dist, best_pair). *)
Definition best_t := (fl * option (nat * nat))%type.
Fixpoint scan_row (m : metric) (ci : nat) (mi : fl) (rest : list (nat * fl)) (best : best_t) : best_t :=
  match rest with
  | [] => best
  | (cj, mj) :: t =>
      let d := fdist m mi mj in
      scan_row m ci mi t (if fllt d (fst best) then (d, Some (ci, cj)) else best)
  end.
Fixpoint scan (m : metric) (means : list (nat * fl)) (best : best_t) : best_t :=
  match means with
  | [] => best
  | (ci, mi) :: t => scan m t (scan_row m ci mi t best)
  end.
(** A row of merges_: cid_i, cid_j, abs(best_dist), len(merged_indices) (1425). *)
Record merge := { mg_a : nat; mg_b : nat; mg_dist : fl; mg_size : nat }.
(** clustering.py:1407-1430.  Each round removes one cluster, so [fuel] = the initial
    number of clusters never runs out. *)
Fixpoint hac_loop (m : metric) (alpha : list R) (n_clusters fuel : nat) (cl : clusters) (next : nat)
    : clusters * list merge :=
  match fuel with
  | O => (cl, [])
  | S f =>
      if Nat.leb (length cl) n_clusters then (cl, [])
      else
        match scan m (hac_means alpha cl) (PInf, None) with
        | (_, None) => (cl, [])
        | (d, Some (ci, cj)) =>
            let merged := lookup cl ci ++ lookup cl cj in
            let (cl', ms) := hac_loop m alpha n_clusters f (del cj (del ci cl) ++ [(next, merged)]) (S next) in
            (cl', {| mg_a := ci; mg_b := cj; mg_dist := flabs d; mg_size := length merged |} :: ms)
        end
  end.
(** clustering.py:1436-1438: labels[indices] = new_label, cluster after cluster.  np.empty
    starts with arbitrary integers, here 0; every entry is overwritten (hac_fit_ok). *)
Definition set_labels (labels : list nat) (idx : list nat) (v : nat) : list nat :=
  map (fun p : nat * nat => if existsb (Nat.eqb (fst p)) idx then v else snd p)
      (combine (seq 0 (length labels)) labels).
Definition hac_labels (n : nat) (cl : clusters) : list nat :=
  fold_left (fun ls p => set_labels ls (snd (snd p)) (fst p)) (combine (seq 0 (length cl)) cl) (repeat 0%nat n).

Record hac := { h_labels : list nat; h_centers : list fl; h_r : list R; h_merges : list merge; h_alpha : list R }.
(** clustering.py:1375-1447 [CircHAC.fit].  max(clusters.keys()) + 1 is the first new id. *)
Definition hac_fit (m : metric) (is_radian : bool) (full_cycle : R) (n_clusters : nat)
    (n_init : option nat) (kseed : list nat) (X : list R) : res hac :=
  match X with
  | [] => Err ValueError
  | _ =>
      let alpha := to_rad is_radian full_cycle X in
      let n := length alpha in
      if Nat.leb n n_clusters then
        Ok {| h_labels := seq 0 n; h_centers := map Fin alpha; h_r := map (fun _ => 1) alpha;
              h_merges := []; h_alpha := alpha |}
      else
        do cl0 <- hac_init m n_init kseed alpha;
        let next := S (list_max (map fst cl0)) in
        let (cl, ms) := hac_loop m alpha n_clusters (length cl0) cl0 next in
        let mr := map (fun p => circ_mean_and_r (take alpha (snd p)) None) cl in
        Ok {| h_labels := hac_labels n cl; h_centers := map fst mr; h_r := map snd mr;
              h_merges := ms; h_alpha := alpha |}
  end.
(** clustering.py:1322-1331 [CircHAC.__init__]: n_clusters and n_init_clusters are positive. *)
Definition hac_args_ok (n_clusters : nat) (n_init : option nat) : Prop :=
  (1 <= n_clusters)%nat /\ match n_init with Some k => (1 <= k)%nat | None => True end.
(** clustering.py:1449-1472 [CircHAC.predict]. *)
Definition hac_predict (m : metric) (is_radian : bool) (full_cycle : R) (model : option hac) (X : list R)
    : res (list nat) :=
  match model with
  | None => Err ValueError
  | Some h => Ok (km_assign m (to_rad is_radian full_cycle X) (h_centers h))
  end.

(** clustering.py:1532-1579 [CircHAC.silhouette_score].  pairwise[i, mask].mean(): *)
Definition avg_dist (m : metric) (alpha : list R) (labels : list nat) (x : R) (c : nat) : R :=
  mean (map (fun i => Rabs (circ_dist m x (at_ alpha i))) (where_label labels c)).
(** 1562-1565. *)
Definition sil_a (m : metric) (alpha : list R) (labels : list nat) (x : R) (c : nat) : R :=
  if Nat.ltb 1 (length (where_label labels c)) then avg_dist m alpha labels x c else 0.
(** np.unique of the labels. *)
Definition nuniq (labels : list nat) : list nat :=
  filter (fun c => existsb (Nat.eqb c) labels) (seq 0 (S (list_max labels))).
(** 1568-1575. *)
Definition sil_b (m : metric) (alpha : list R) (labels : list nat) (x : R) (c : nat) : fl :=
  fold_left (fun b c' => if Nat.eqb c' c then b
                         else let d := Fin (avg_dist m alpha labels x c') in if fllt d b then d else b)
            (nuniq labels) PInf.
(** 1577: (inf - a) / inf is NaN. *)
Definition sil_value (a : R) (b : fl) : fl :=
  match b with
  | Fin b => if Rltb 0 (Rmax a b) then Fin ((b - a) / Rmax a b) else Fin 0
  | _ => NaN
  end.
Definition silhouette_score (m : metric) (h : hac) : fl :=
  let alpha := h_alpha h in
  let labels := h_labels h in
  if Nat.ltb (length alpha) 2 then Fin 0
  else fmean (map (fun p : R * nat => sil_value (sil_a m alpha labels (fst p) (snd p))
                                               (sil_b m alpha labels (fst p) (snd p)))
                  (combine alpha labels)).
