(** Specification vocabulary for the multi-sample tests; independent of the model. *)
From Verif Require Import Prelude CircleSpec DescSpec.

(** The individual observations behind a frequency table. *)
Fixpoint spelled_out (alpha : list R) (freq : list nat) : list R :=
  match alpha, freq with
  | a :: alpha, k :: freq => repeat a k ++ spelled_out alpha freq
  | _, _ => []
  end.
(** The sample argument (angles, optional weights) stands for these observations: weights
    are whole-number frequencies and there is at least one observation. *)
Definition tabulates (g : list R * option (list R)) (obs : list R) : Prop :=
  obs <> [] /\ exists freq, length freq = length (fst g) /\
    eff_weights (fst g) (snd g) = map INR freq /\ obs = spelled_out (fst g) freq.

(** Length of the vector sum of unit vectors. *)
Definition resultant (obs : list R) : R :=
  sqrt (Rsum (map cos obs) ^ 2 + Rsum (map sin obs) ^ 2).
(** The vector sums of all groups point in one common direction. *)
Definition aligned (groups : list (list R)) : Prop :=
  exists t, Forall (fun g => Rsum (map cos g) = resultant g * cos t /\
                             Rsum (map sin g) = resultant g * sin t) groups.
(** All observations name one direction. *)
Definition one_direction (obs : list R) : Prop := forall a b, In a obs -> In b obs -> same_dir a b.
(** The same observations turned by t, possibly listed in another order. *)
Definition turned_obs (t : R) (a b : list R) : Prop :=
  exists l, Permutation a l /\ Forall2 (fun x y => same_dir y (x + t)) l b.
(** The same groups, turned by t, in another order. *)
Definition turned_groups (t : R) (a b : list (list R)) : Prop :=
  exists l, Permutation a l /\ Forall2 (turned_obs t) l b.

(** Mann-Whitney count of pairs (x of the first, y of the second sample) with x < y, a tie
    counting one half. *)
Definition mw_pair (x y : R) : R := if Rlt_dec x y then 1 else if Req_EM_T x y then 1/2 else 0.
Definition mw_count (a b : list R) : R :=
  Rsum (map (fun x => Rsum (map (mw_pair x) b)) a).

(** Pearson's chi-square statistic of the 2 x k table with m_i out of n_i in the first row. *)
Definition pearson (rows : list (R * R)) : R :=
  let N := Rsum (map snd rows) in
  let M := Rsum (map fst rows) in
  Rsum (map (fun r => let e1 := snd r * M / N in
                      let e2 := snd r * (N - M) / N in
                      (fst r - e1) ^ 2 / e1 + ((snd r - fst r) - e2) ^ 2 / e2) rows).

(** A sample argument that stands for no observations: empty, weights of another shape,
    negative or non-integer weights (up to the tolerance 1e-8 + 1e-5 |k|), zero total. *)
Definition unusable (g : list R * option (list R)) : Prop :=
  let w := eff_weights (fst g) (snd g) in
  fst g = [] \/ length w <> length (fst g) \/ (exists x, In x w /\ x < 0) \/
  (exists x, In x w /\ forall k : Z, / 100000000 + / 100000 * Rabs (IZR k) < Rabs (x - IZR k)) \/
  Rsum w = 0.

(** Different observations differ by more than the tolerance of np.isclose. *)
Definition separated (atol : R) (l : list R) : Prop :=
  forall a b, In a l -> In b l -> a <> b -> atol + / 100000 * Rabs b < Rabs (a - b).
(** Listed in ascending order. *)
Inductive ascending : list R -> Prop :=
| asc_nil : ascending []
| asc_one a : ascending [a]
| asc_more a b l : a <= b -> ascending (b :: l) -> ascending (a :: b :: l).
(** Number of listed values that are at most x. *)
Fixpoint at_most (x : R) (l : list R) : nat :=
  match l with [] => 0%nat | a :: l => if Rle_dec a x then S (at_most x l) else at_most x l end.
(** Empirical distribution function. *)
Definition ecdf (l : list R) (x : R) : R := INR (at_most x l) / INR (length l).
(** Watson's two-sample statistic. *)
Definition two_sample_U2 (a b : list R) : R :=
  let N := INR (length a + length b) in
  let d x := ecdf a x - ecdf b x in
  INR (length a) * INR (length b) / N ^ 2 *
  (Rsum (map (fun x => d x ^ 2) (a ++ b)) - Rsum (map d (a ++ b)) ^ 2 / N).
(** All values lie in [0, 2 pi). *)
Definition on_turn (l : list R) : Prop := Forall (fun a => 0 <= a < 2 * PI) l.
(** Length of the sum of the unit vectors at 2 pi r / N, r the ranks among the pooled values. *)
Definition rank_vector (pooled obs : list R) : R :=
  resultant (map (fun x => 2 * PI / INR (length pooled) * INR (at_most x pooled)) obs).

(** All listed values agree. *)
Definition all_equal (l : list R) : Prop := forall x y, In x l -> In y l -> x = y.
(** Gain in summed resultant length from splitting the series after its first k values. *)
Definition split_gain (alpha : list R) (k : nat) : R :=
  resultant (firstn k alpha) + resultant (skipn k alpha) - resultant alpha.
(** Mean vector length. *)
Definition mean_length (obs : list R) : R := resultant obs / INR (length obs).
(** The vector sums of the two samples lie on one line through the origin. *)
Definition same_line (a b : list R) : Prop :=
  Rsum (map sin a) * Rsum (map cos b) = Rsum (map sin b) * Rsum (map cos a).

(** Standardised Mann-Whitney statistic with continuity correction. *)
Definition wallraff_z (n m : nat) (U : R) : R :=
  (U - INR n * INR m / 2 + 1/2) / sqrt (INR n * INR m * (INR n + INR m + 1) / 12).
(** The two absolute tolerances in use. *)
Definition tol10 := / 10000000000.
Definition tol8 := / 100000000.
(** The uniform-scores statistic of Wheeler, Watson and Mardia. *)
Definition wheeler_W (os : list (list R)) : R :=
  let p := concat os in
  match os with
  | [a; b] => 2 * (INR (length p) - 1) * rank_vector p a ^ 2 / (INR (length a) * INR (length b))
  | _ => 2 * Rsum (map (fun g => rank_vector p g ^ 2 / INR (length g)) os)
  end.
(** At least one sample (two groups), each with at least two observations. *)
Definition sized (samples : list (list R)) : Prop := samples <> [] /\ Forall (fun s => (2 <= length s)%nat) samples.
Definition two_each (groups : list (list R)) : Prop :=
  (2 <= length groups)%nat /\ Forall (fun g => (2 <= length g)%nat) groups.
(** Dispersion estimates (n - R) / (n - 1). *)
Definition spread (g : list R) : R := (INR (length g) - resultant g) / (INR (length g) - 1).
Definition disp (g : list R) : R := (INR (length g) - resultant g) / INR (length g - 1).
(** A positive concentration is given or can be estimated, or no correction is asked for. *)
Definition kappa_usable (groups : list (list R)) (kappa : option R) (f_mod : bool) : Prop :=
  f_mod = false \/ match kappa with Some x => 0 < x | None => 0 < resultant (concat groups) end.
(** The F ratio of the circular analysis of variance with correction factor c. *)
Definition F_value (c : R) (groups : list (list R)) : R :=
  c * ((Rsum (map resultant groups) - resultant (concat groups)) / (INR (length groups) - 1)) /
      ((INR (length (concat groups)) - Rsum (map resultant groups)) / (INR (length (concat groups)) - INR (length groups))).
(** The corrected likelihood ratio statistic at concentration kap. *)
Definition lrt_value (kap : R) (groups : list (list R)) : R :=
  (1 - 1 / (4 * kap) * (Rsum (map (fun g => 1 / INR (length g)) groups) - 1 / INR (length (concat groups)))) *
  (2 * kap * (Rsum (map resultant groups) - resultant (concat groups))).

(** Log-likelihood gain of a split after k values: weighted mean of
    phi(x) = x A^-1(x) - log I0(A^-1(x)) over the two segments. *)
Definition split_profile (Ainv logI0 : R -> R) (alpha : list R) (k : nat) : R :=
  let phi x := x * Ainv x - logI0 (Ainv x) in
  let n := INR (length alpha) in
  INR k / n * phi (mean_length (firstn k alpha)) + (n - INR k) / n * phi (mean_length (skipn k alpha)).

(** Two-way tables: an observation is (angle, (level of A, level of B)). *)
Definition lvA (o : R * (nat * nat)) : nat := fst (snd o).
Definition lvB (o : R * (nat * nat)) : nat := snd (snd o).
(** The angles observed at one level of a factor, and in one cell. *)
Definition at_level (lv : R * (nat * nat) -> nat) (d : list (R * (nat * nat))) (i : nat) : list R :=
  map fst (filter (fun o => Nat.eqb (lv o) i) d).
Definition at_cell (d : list (R * (nat * nat))) (i j : nat) : list R :=
  map fst (filter (fun o => Nat.eqb (lvA o) i && Nat.eqb (lvB o) j) d).
(** p is the number of levels of the factor that occur. *)
Definition level_count (lv : R * (nat * nat) -> nat) (d : list (R * (nat * nat))) (p : nat) : Prop :=
  exists l, NoDup l /\ (forall i, In i l <-> In i (map lv d)) /\ length l = p.
(** Every cell has m observations. *)
Definition cells_of_size (m : nat) (d : list (R * (nat * nat))) : Prop :=
  forall i j, In i (map lvA d) -> In j (map lvB d) -> length (at_cell d i j) = m.
(** Every cell is observed. *)
Definition cells_filled (d : list (R * (nat * nat))) : Prop :=
  forall i j, In i (map lvA d) -> In j (map lvB d) -> at_cell d i j <> [].
(** The mean vectors at all levels of a factor agree. *)
Definition same_mean_vectors (lv : R * (nat * nat) -> nat) (d : list (R * (nat * nat))) : Prop :=
  let mv h i := Rsum (map h (at_level lv d i)) / INR (length (at_level lv d i)) in
  forall i j, In i (map lv d) -> In j (map lv d) -> mv cos i = mv cos j /\ mv sin i = mv sin j.
