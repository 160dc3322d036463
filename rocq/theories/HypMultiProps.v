(** Property theorems for the multi-sample tests of hypothesis.py
    (C32, C33, C38-C44, C87-C92).  Distribution functions of scipy are arguments
    (fsf, fcdf, ccdf, csf, nsf, cppf), as are Bessel functions (logI0, A1): the theorems hold for
    every such function. *)
From Verif Require Import Prelude NpModel CircleSpec UtilsModel DescModel
  DescSpec DescApi Desc2Model HypProofs HypSpec HypGofSpec HypGofModel
  HypMultiModel HypMulti2Model HypMultiSpec HypMultiProofs HypMulti2Proofs HypMulti3Proofs HypMulti4Proofs
  HypMulti5Proofs HypMulti6Proofs HypMulti7Proofs HypMulti8Proofs HypMulti9Proofs HypMulti10Proofs HypMultiEx.

(** C32 *)
Theorem C32_resultants : forall groups, Forall (fun g => g <> []) groups ->
  resultant (concat groups) <= Rsum (map resultant groups) <= INR (length (concat groups)) /\
  (resultant (concat groups) = Rsum (map resultant groups) <-> aligned groups) /\
  (Rsum (map resultant groups) = INR (length (concat groups)) <-> Forall one_direction groups).
Proof.
  intros groups H. split; [split; [exact (triangle groups)|exact (sum_resultants_le groups)]|].
  split; [exact (triangle_eq groups)|exact (sum_resultants_full groups H)].
Qed.
Print Assumptions C32_resultants.
Theorem C32_watson_williams : forall fsf gs os, Forall2 tabulates gs os -> (2 <= length os)%nat ->
  (length os < length (concat os))%nat ->
  exists t, watson_williams_test fsf gs = Ok t /\
    ww_k t = length os /\ ww_N t = length (concat os) /\
    ww_dfb t = (length os - 1)%nat /\ ww_dfw t = (length (concat os) - length os)%nat /\
    ww_pval t = fsf (ww_F t) (ww_dfb t) (ww_dfw t) /\
    resultant (concat os) <= Rsum (map resultant os) <= INR (length (concat os)) /\
    (Forall one_direction os -> (aligned os -> ww_F t = NaN) /\ (~ aligned os -> ww_F t = PInf)) /\
    (~ Forall one_direction os -> exists kappa F,
       circ_kappa (Rsum (map resultant os) / INR (length (concat os))) None = Ok kappa /\
       ww_F t = Fin F /\
       (0 < kappa -> F = (1 + 3 / (8 * kappa)) *
          ((Rsum (map resultant os) - resultant (concat os)) / (INR (length os) - 1)) /
          ((INR (length (concat os)) - Rsum (map resultant os)) / (INR (length (concat os)) - INR (length os)))) /\
       0 <= F /\ (F = 0 <-> aligned os)).
Proof. exact ww_spec. Qed.
Print Assumptions C32_watson_williams.
Theorem C32_watson_williams_errors : forall fsf gs os, Forall2 tabulates gs os ->
  (length os < 2)%nat \/ (length (concat os) <= length os)%nat -> watson_williams_test fsf gs = Err ValueError.
Proof. exact ww_errors. Qed.
Print Assumptions C32_watson_williams_errors.
Theorem C32_anova : forall fcdf ccdf groups kappa f_mod, Forall (fun g => g <> []) groups -> (2 <= length groups)%nat ->
  kappa_usable groups kappa f_mod ->
  exists t kap, circ_anova fcdf ccdf groups "F-test" kappa f_mod = Ok t /\
    an_R t = map resultant groups /\ an_R_all t = resultant (concat groups) /\
    match kappa with Some x => kap = x
    | None => circ_kappa (resultant (concat groups) / INR (length (concat groups))) None = Ok kap end /\
    an_kappa t = kap /\
    (exists b w, an_SS t = Some (b, w, b + w)%R /\
       b = Rsum (map resultant groups) - resultant (concat groups) /\
       w = INR (length (concat groups)) - Rsum (map resultant groups) /\
       0 <= b /\ 0 <= w /\ (b = 0 <-> aligned groups) /\ (w = 0 <-> Forall one_direction groups)) /\
    (exists d1 d2, an_df t = DfF d1 d2 (d1 + d2) /\ d1 = (Z.of_nat (length groups) - 1)%Z /\
       d2 = (Z.of_nat (length (concat groups)) - Z.of_nat (length groups))%Z /\
       an_pval t = one_minus (fcdf (an_stat t) d1 d2)) /\
    ((length groups < length (concat groups))%nat -> ~ Forall one_direction groups ->
       exists F, an_stat t = Fin F /\
         F = F_value (if f_mod then 1 + 3 / (8 * kap) else 1) groups /\
         0 <= F /\ (F = 0 <-> aligned groups)).
Proof. exact anova_F_spec. Qed.
Print Assumptions C32_anova.
Theorem C32_anova_errors : forall fcdf ccdf groups method kappa f_mod,
  ((length groups < 2)%nat -> circ_anova fcdf ccdf groups method kappa f_mod = Err ValueError) /\
  ((2 <= length groups)%nat -> method <> "F-test"%string -> method <> "LRT"%string ->
     circ_anova fcdf ccdf groups method kappa f_mod = Err ValueError).
Proof. exact anova_errors. Qed.
Print Assumptions C32_anova_errors.
Example C32_example : Forall2 tabulates [([0; PI], Some [2; 1]); ([PI / 2], None)] [[0; 0; PI]; [PI / 2]] /\
  ~ Forall one_direction [[0; 0; PI]; [PI / 2]] /\ ~ aligned [[0; 0; PI]; [PI / 2]].
Proof. exact ex32. Qed.

(** C33 *)
Theorem C33_watson_williams_turned : forall fsf gs gs' os os' t, Forall2 tabulates gs os -> Forall2 tabulates gs' os' ->
  turned_groups t os os' -> watson_williams_test fsf gs' = watson_williams_test fsf gs.
Proof. exact ww_invariant. Qed.
Print Assumptions C33_watson_williams_turned.
(** Everything reported agrees, except the mean directions and the order of the group
    resultants. *)
Theorem C33_anova_turned : forall fcdf ccdf a b t kappa f_mod, Forall (fun g => g <> []) a -> turned_groups t a b ->
  match circ_anova fcdf ccdf a "F-test" kappa f_mod, circ_anova fcdf ccdf b "F-test" kappa f_mod with
  | Ok x, Ok y => an_stat y = an_stat x /\ an_pval y = an_pval x /\ an_df y = an_df x /\ an_SS y = an_SS x /\
      an_MS y = an_MS x /\ an_kappa y = an_kappa x /\ an_R_all y = an_R_all x /\ Permutation (an_R x) (an_R y)
  | Err e, Err f => e = f
  | _, _ => False
  end.
Proof. exact anova_F_invariant. Qed.
Print Assumptions C33_anova_turned.
Example C33_example : turned_groups (PI / 2) [[0]; [0; PI]] [[3 * PI / 2; PI / 2]; [5 * PI / 2]].
Proof. exact ex33. Qed.

(** C38.  Full statement: swapping the samples inverts F, swaps the degrees of freedom and
    keeps the p-value.  Proved unless F = 1 with samples of different sizes; false there. *)
Theorem C38_concentration_value : forall fsf a b, (2 <= length a)%nat -> (2 <= length b)%nat ->
  ~ one_direction a -> ~ one_direction b -> let F := disp a / disp b in
  exists t, concentration_test fsf a b = Ok t /\ co_f t = F /\
    co_pval t = Rmin (if Rle_dec 1 F then 2 * fsf F (length a - 1)%nat (length b - 1)%nat
                      else 2 * fsf (/ F) (length b - 1)%nat (length a - 1)%nat) 1 /\
    co_df1 t = (length a - 1)%nat /\ co_df2 t = (length b - 1)%nat.
Proof. exact conc_value. Qed.
Print Assumptions C38_concentration_value.
Theorem C38_concentration_errors : forall fsf a b,
  (length a < 2)%nat \/ (length b < 2)%nat \/ one_direction a \/ one_direction b ->
  concentration_test fsf a b = Err ValueError.
Proof. exact conc_errors. Qed.
Print Assumptions C38_concentration_errors.
Theorem C38_concentration_range : forall fsf a b t, (forall x d1 d2, 0 < x -> 0 <= fsf x d1 d2) ->
  concentration_test fsf a b = Ok t -> 0 < co_f t /\ 0 <= co_pval t <= 1.
Proof. exact conc_range. Qed.
Print Assumptions C38_concentration_range.
Theorem C38_concentration_swap_partial : forall fsf a b t, concentration_test fsf a b = Ok t ->
  co_f t <> 1 \/ length a = length b ->
  exists t', concentration_test fsf b a = Ok t' /\ co_f t' = / co_f t /\ co_pval t' = co_pval t /\
    co_df1 t' = co_df2 t /\ co_df2 t' = co_df1 t.
Proof. exact conc_swap. Qed.
Print Assumptions C38_concentration_swap_partial.
(** The hypothesis holds of the F distribution: sf(1; 1, 2) = 1 - sqrt(1/3) = 0.42...,
    sf(1; 2, 1) = sqrt(1/3) = 0.57... *)
Theorem C38_concentration_swap_refuted : forall fsf, fsf 1 1%nat 2%nat < 1/2 < fsf 1 2%nat 1%nat ->
  exists a b t t', concentration_test fsf a b = Ok t /\ concentration_test fsf b a = Ok t' /\
    co_pval t < 1 /\ co_pval t' = 1.
Proof. exact conc_swap_refuted. Qed.
Print Assumptions C38_concentration_swap_refuted.
Example C38_example : forall fsf, exists t, concentration_test fsf [0; PI / 2] [0; PI] = Ok t /\
  co_f t = (2 - sqrt 2) / 2 /\ co_f t <> 1.
Proof. exact ex38. Qed.

(** C39 *)
Theorem C39_rao_dispersion : forall ccdf cppf alpha samples H,
  rh_disp (rao_homogeneity_test ccdf cppf alpha samples) = Fin H ->
  0 <= H /\ (H = 0 <-> all_equal (map mean_length samples)) /\ sized samples.
Proof. exact rao_disp_spec. Qed.
Print Assumptions C39_rao_dispersion.
Theorem C39_rao_polar : forall ccdf cppf alpha samples H,
  rh_polar (rao_homogeneity_test ccdf cppf alpha samples) = Fin H ->
  0 <= H /\ (H = 0 <-> forall a b, In a samples -> In b samples -> same_line a b) /\ sized samples.
Proof. exact rao_polar_spec. Qed.
Print Assumptions C39_rao_polar.
Theorem C39_rao_variance_terms : forall s, (2 <= length s)%nat ->
  0 <= s_disp s /\ (Rsum (map cos s) <> 0 -> 0 <= s_polar s).
Proof. exact rao_terms. Qed.
Print Assumptions C39_rao_variance_terms.
Example C39_example : forall ccdf cppf alpha,
  (exists H, rh_disp (rao_homogeneity_test ccdf cppf alpha [[0; 0; PI / 2]; [0; PI / 2; PI / 2]]) = Fin H) /\
  rh_polar (rao_homogeneity_test ccdf cppf alpha [[0 - PI / 3; 0 + PI / 3]; [PI / 4 - PI / 3; PI / 4 + PI / 3]]) = Fin (/ 15).
Proof. intros. split; [exact (ex39 ccdf cppf alpha)|exact (ex39p ccdf cppf alpha)]. Qed.

(** C40.  The reported k_r and k_t are the maximising split minus one. *)
Theorem C40_gain_bounds : forall alpha k, (k <= length alpha)%nat ->
  0 <= split_gain alpha k <= 2 * INR (Nat.min k (length alpha - k)).
Proof. exact gains. Qed.
Print Assumptions C40_gain_bounds.
Theorem C40_change_point_R : forall logI0 alpha, (4 <= length alpha)%nat ->
  exists t, change_point_test logI0 alpha = Ok t /\ cp_n t = length alpha /\ cp_rho t = mean_length alpha /\
    (S (cp_kr t) <= length alpha - 1)%nat /\ cp_rmax t = split_gain alpha (S (cp_kr t)) /\
    (forall k, (1 <= k <= length alpha - 1)%nat -> split_gain alpha k <= cp_rmax t) /\
    (forall k, (1 <= k <= cp_kr t)%nat -> split_gain alpha k < cp_rmax t) /\
    0 <= cp_rave t <= cp_rmax t.
Proof. exact change_R. Qed.
Print Assumptions C40_change_point_R.
Theorem C40_change_point_T : forall logI0 alpha t, change_point_test logI0 alpha = Ok t ->
  (cp_tmax t = NaN <-> exists k, (2 <= k <= length alpha - 2)%nat /\
                         (one_direction (firstn k alpha) \/ one_direction (skipn k alpha))) /\
  (cp_tmax t <> NaN ->
    let n := length alpha in let V := split_profile A1inv logI0 alpha in
    (2 <= S (cp_kt t) <= n - 2)%nat /\ cp_tmax t = Fin (V (S (cp_kt t))) /\
    (forall k, (2 <= k <= n - 2)%nat -> V k <= V (S (cp_kt t))) /\
    (forall k, (2 <= k <= cp_kt t)%nat -> V k < V (S (cp_kt t)))).
Proof. exact change_T2. Qed.
Print Assumptions C40_change_point_T.
Theorem C40_change_point_short : forall logI0 alpha, (length alpha < 4)%nat ->
  change_point_test logI0 alpha = Err ValueError.
Proof. exact change_short. Qed.
Print Assumptions C40_change_point_short.
Theorem C40_change_point_turned : forall logI0 t alpha beta, Forall2 (fun x y => same_dir y (x + t)) alpha beta ->
  change_point_test logI0 beta = change_point_test logI0 alpha.
Proof. exact change_turned. Qed.
Print Assumptions C40_change_point_turned.
Example C40_example : forall logI0, exists t, change_point_test logI0 [0; PI / 2; PI; 0] = Ok t /\ cp_tmax t <> NaN.
Proof. exact ex40. Qed.

(** C41 *)
Theorem C41_two_way_table : forall fcdf ccdf csf A1 d a b i r tot p q,
  d <> [] -> cells_filled d -> level_count lvA d p -> level_count lvB d q ->
  harrison_kanji_test fcdf ccdf csf A1 d true = Ok (HkF a b i r tot) ->
  exists ri sa sb si sr, i = Some ri /\ hk_ss a = Fin sa /\ hk_ss b = Fin sb /\ hk_ss ri = Fin si /\ hk_ss r = Fin sr /\
    hk_ss tot = Fin (sa + sb + si + sr) /\ sa + sb + si + sr = INR (length d) - resultant (map fst d) ^ 2 / INR (length d) /\
    0 <= sa /\ 0 <= sb /\ 0 <= sr /\
    (sa = 0 <-> same_mean_vectors lvA d) /\ (sb = 0 <-> same_mean_vectors lvB d) /\
    (forall m, (0 < m)%nat -> cells_of_size m d -> 0 <= si) /\
    exists da db di dr, hk_df a = Fin da /\ hk_df b = Fin db /\ hk_df ri = Fin di /\ hk_df r = Fin dr /\
      da = INR p - 1 /\ db = INR q - 1 /\ di = da * db /\
      hk_df tot = Fin (da + db + di + dr) /\ da + db + di + dr = INR (length d) - 1.
Proof. exact hk_inter_table2. Qed.
Print Assumptions C41_two_way_table.
Example C41_example : forall fcdf ccdf csf A1,
  cells_of_size 2 ex_design /\ cells_filled ex_design /\ level_count lvA ex_design 2 /\ level_count lvB ex_design 2 /\
  exists a b i r tot, harrison_kanji_test fcdf ccdf csf A1 ex_design true = Ok (HkF a b i r tot).
Proof.
  intros. split; [exact design_cells|]. split; [exact design_filled|]. split; [exact (proj1 design_levels)|].
  split; [exact (proj2 design_levels)|exact (ex41 fcdf ccdf csf A1 true)].
Qed.

(** C42.  Full statement: the statistic does not depend on the listing order and the
    p-value is a probability.  Proved: for ascending samples without near ties the returned
    value is Watson's statistic, which is a function of the samples as multisets; it is
    non-negative, zero iff the empirical distributions agree, symmetric and invariant under
    rotation.  False: an unsorted sample raises ValueError, identical samples get p = 2. *)
Theorem C42_watson_u2_partial : forall g1 g2 a b, tabulates g1 a -> tabulates g2 b -> ascending a -> ascending b ->
  separated tol10 (a ++ b) ->
  watson_u2_test [g1; g2] = Ok (two_sample_U2 a b, 2 * exp (- (1974 / 100) * two_sample_U2 a b)).
Proof. exact u2_spec. Qed.
Print Assumptions C42_watson_u2_partial.
Theorem C42_statistic_order : forall a a' b b', Permutation a a' -> Permutation b b' ->
  two_sample_U2 a' b' = two_sample_U2 a b /\ two_sample_U2 b a = two_sample_U2 a b.
Proof. intros a a' b b' P Q. split; [exact (u2_perm a a' b b' P Q)|exact (u2_swap a b)]. Qed.
Print Assumptions C42_statistic_order.
Theorem C42_statistic_sign : forall a b, a <> [] -> b <> [] ->
  0 <= two_sample_U2 a b /\ (two_sample_U2 a b = 0 <-> forall x, ecdf a x = ecdf b x).
Proof. intros a b A B. split; [exact (u2_nonneg a b A B)|exact (u2_zero a b A B)]. Qed.
Print Assumptions C42_statistic_sign.
Theorem C42_statistic_turned : forall t a b a' b', a <> [] -> b <> [] ->
  on_turn a -> on_turn b -> on_turn a' -> on_turn b' ->
  turned_obs t a a' -> turned_obs t b b' -> two_sample_U2 a' b' = two_sample_U2 a b.
Proof. exact u2_turned. Qed.
Print Assumptions C42_statistic_turned.
Theorem C42_watson_u2_errors : forall g1 g2 a b, tabulates g1 a -> tabulates g2 b ->
  (separated tol10 (a ++ b) /\ (~ ascending a \/ ~ ascending b)) \/
  (exists x y, In x (a ++ b) /\ In y (a ++ b) /\ x <> y /\ Rabs (y - x) <= tol10 + / 100000 * Rabs x) ->
  watson_u2_test [g1; g2] = Err ValueError.
Proof. exact u2_errors. Qed.
Print Assumptions C42_watson_u2_errors.
Theorem C42_watson_u2_two_samples : forall gs os, Forall2 tabulates gs os -> length gs <> 2%nat ->
  watson_u2_test gs = Err ValueError.
Proof. exact u2_arity. Qed.
Print Assumptions C42_watson_u2_two_samples.
Theorem C42_order_refuted : exists a a' b r, Permutation a a' /\ watson_u2_test [(a, None); (b, None)] = Ok r /\
  watson_u2_test [(a', None); (b, None)] = Err ValueError.
Proof. exact u2_order_refuted. Qed.
Print Assumptions C42_order_refuted.
Theorem C42_probability_refuted : exists a, watson_u2_test [(a, None); (a, None)] = Ok (0, 2).
Proof. exact u2_pval_refuted. Qed.
Print Assumptions C42_probability_refuted.
Example C42_example : ascending [0; 1] /\ ascending [1; 2] /\ separated tol10 ([0; 1] ++ [1; 2]).
Proof. exact ex42. Qed.

(** C43 *)
Theorem C43_wallraff : forall nsf a b angle t0 t1 d0 d1, a <> [] -> b <> [] ->
  (angle = Scalar t0 /\ t1 = t0) \/ angle = Array [t0; t1] ->
  Forall2 (fun x e => is_arc_dist x t0 e) a d0 -> Forall2 (fun x e => is_arc_dist x t1 e) b d1 ->
  exists t, wallraff_test nsf [(a, None); (b, None)] angle = Ok t /\
    wa_U t = Rmin (mw_count d0 d1) (mw_count d1 d0) /\
    mw_count d0 d1 + mw_count d1 d0 = INR (length a) * INR (length b) /\
    0 <= wa_U t <= INR (length a) * INR (length b) / 2 /\
    wa_pval t = 2 * nsf (Rabs (wallraff_z (length a) (length b) (wa_U t))).
Proof. exact wallraff_spec. Qed.
Print Assumptions C43_wallraff.
Theorem C43_wallraff_swap : forall nsf a b t0 t1, a <> [] -> b <> [] ->
  wallraff_test nsf [(b, None); (a, None)] (Array [t1; t0]) = wallraff_test nsf [(a, None); (b, None)] (Array [t0; t1]).
Proof. exact wallraff_swap. Qed.
Print Assumptions C43_wallraff_swap.
Theorem C43_wallraff_turned : forall nsf a a' b b' t t0 t1, a <> [] -> b <> [] ->
  Forall2 (fun x y => same_dir y (x + t)) a a' -> Forall2 (fun x y => same_dir y (x + t)) b b' ->
  wallraff_test nsf [(a', None); (b', None)] (Array [t0 + t; t1 + t]) =
  wallraff_test nsf [(a, None); (b, None)] (Array [t0; t1]).
Proof. exact wallraff_turned. Qed.
Print Assumptions C43_wallraff_turned.
Example C43_example : ((Array [0; 1] = Scalar 0 /\ 1 = 0) \/ Array [0; 1] = Array [0; 1]) /\
  Forall2 (fun x e => is_arc_dist x 0 e) [PI / 2; 0] [PI / 2; 0].
Proof. exact ex43. Qed.

(** C44 *)
Theorem C44_common_median : forall ccdf groups alpha m ks, 0 < alpha < 1 -> (2 <= length groups)%nat ->
  Forall (fun g => g <> []) groups ->
  circ_median_default (concat groups) = Ok (MOne m) -> Forall2 (fun g k => counts (clockwise_of m) g k) groups ks ->
  let rows := combine (map INR ks) (map (fun g => INR (length g)) groups) in
  let M := Rsum (map INR ks) in let N := INR (length (concat groups)) in
  (M = 0 \/ M = N -> common_median_test ccdf groups alpha = Err ValueError) /\
  (M <> 0 -> M <> N -> exists t, common_median_test ccdf groups alpha = Ok t /\ cm_stat t = pearson rows /\
     0 <= cm_stat t /\ (cm_stat t = 0 <-> all_equal (map (fun r => fst r / snd r) rows)) /\
     cm_pval t = 1 - ccdf (pearson rows) (length groups - 1)%nat /\
     cm_reject t = Rltb (cm_pval t) alpha /\ cm_median t = if cm_reject t then NaN else Fin m).
Proof. exact cm_run. Qed.
Print Assumptions C44_common_median.
Theorem C44_common_median_errors : forall ccdf groups alpha,
  (~ (0 < alpha < 1) \/ (length groups < 2)%nat \/ Exists (fun g => g = []) groups) ->
  common_median_test ccdf groups alpha = Err ValueError.
Proof. exact cm_errors. Qed.
Print Assumptions C44_common_median_errors.
Theorem C44_common_median_undefined : forall ccdf groups alpha,
  circ_median_default (concat groups) = Ok MNaN -> common_median_test ccdf groups alpha = Err ValueError.
Proof. exact cm_nan_median. Qed.
Print Assumptions C44_common_median_undefined.
Example C44_example : circ_median_default (concat [[0; PI / 2]; [PI]]) = Ok (MOne (PI / 2)) /\
  Forall2 (fun g k => counts (clockwise_of (PI / 2)) g k) [[0; PI / 2]; [PI]] [1%nat; 0%nat].
Proof. exact ex44. Qed.

(** C87.  Full statement: the likelihood ratio statistic is the corrected
    2 kappa (sum R_i - R), hence non-negative.  The formula is proved; non-negativity is
    false, because the correction factor turns negative for small kappa. *)
Theorem C87_anova_LRT_partial : forall fcdf ccdf groups kappa f_mod, Forall (fun g => g <> []) groups -> (2 <= length groups)%nat ->
  match kappa with Some x => x <> 0 | None => 0 < resultant (concat groups) end ->
  exists t kap, circ_anova fcdf ccdf groups "LRT" kappa f_mod = Ok t /\
    match kappa with Some x => kap = x
    | None => circ_kappa (resultant (concat groups) / INR (length (concat groups))) None = Ok kap end /\
    an_df t = DfLRT (Z.of_nat (length groups) - 1) /\
    an_pval t = one_minus (ccdf (an_stat t) (Z.of_nat (length groups) - 1)%Z) /\
    (Forall (fun g => / 100000000 < circ_r g None) (concat groups :: groups) -> an_stat t = Fin (lrt_value kap groups)) /\
    (~ Forall (fun g => / 100000000 < circ_r g None) (concat groups :: groups) -> an_stat t = NaN).
Proof. exact anova_LRT_spec. Qed.
Print Assumptions C87_anova_LRT_partial.
Theorem C87_anova_LRT_zero : forall fcdf ccdf groups f_mod, Forall (fun g => g <> []) groups -> (2 <= length groups)%nat ->
  resultant (concat groups) = 0 -> circ_anova fcdf ccdf groups "LRT" None f_mod = Err ZeroDivisionError.
Proof. exact anova_LRT_zero. Qed.
Print Assumptions C87_anova_LRT_zero.
Theorem C87_anova_LRT_refuted : forall fcdf ccdf, exists a b s t,
  circ_anova fcdf ccdf [[a]; [b]] "LRT" None true = Ok t /\ an_stat t = Fin s /\ s < 0.
Proof. exact lrt_refuted. Qed.
Print Assumptions C87_anova_LRT_refuted.
Example C87_example : Forall (fun g => / 100000000 < circ_r g None) [concat [[0]; [PI / 2]]; [0]; [PI / 2]].
Proof. exact ex87. Qed.

(** C88.  Full statement: the statistic is non-negative for all groups of at least two
    observations, and zero iff the groups are equally concentrated.  Proved with at least
    five (four) observations per group in the small (moderate) regime and, in the small
    regime, only when no group has 3 r^2 > 2 (the statistic is then NaN).  False for smaller
    groups, whose weights n - 4 are negative. *)
Theorem C88_equal_kappa_small_partial : forall ccdf groups, two_each groups -> mean_length (concat groups) < 45/100 ->
  exists t, equal_kappa_test ccdf groups = Ok t /\ ek_reg t = Small /\ ek_df t = (length groups - 1)%nat /\
    ek_pval t = one_minus (ccdf (ek_stat t) (length groups - 1)%nat) /\ ek_rho t = map mean_length groups /\
    (Exists (fun g => 2 < 3 * mean_length g ^ 2) groups -> ek_stat t = NaN) /\
    (Forall (fun g => 3 * mean_length g ^ 2 <= 2) groups -> Forall (fun g => (5 <= length g)%nat) groups ->
      exists v, ek_stat t = Fin v /\ 0 <= v /\ (v = 0 <-> all_equal (map mean_length groups))).
Proof. exact ek_small. Qed.
Print Assumptions C88_equal_kappa_small_partial.
Theorem C88_equal_kappa_moderate_partial : forall ccdf groups, two_each groups ->
  45/100 <= mean_length (concat groups) <= 7/10 ->
  exists t, equal_kappa_test ccdf groups = Ok t /\ ek_reg t = Moderate /\ ek_df t = (length groups - 1)%nat /\
    ek_pval t = one_minus (ccdf (ek_stat t) (length groups - 1)%nat) /\ ek_rho t = map mean_length groups /\
    (Forall (fun g => (4 <= length g)%nat) groups ->
      exists v, ek_stat t = Fin v /\ 0 <= v /\ (v = 0 <-> all_equal (map mean_length groups))).
Proof. exact ek_moderate. Qed.
Print Assumptions C88_equal_kappa_moderate_partial.
Theorem C88_equal_kappa_large : forall ccdf groups, two_each groups -> 7/10 < mean_length (concat groups) ->
  (Exists one_direction groups -> equal_kappa_test ccdf groups = Err ValueError) /\
  (Forall (fun g => ~ one_direction g) groups ->
   exists t v, equal_kappa_test ccdf groups = Ok t /\ ek_reg t = Large /\ ek_df t = (length groups - 1)%nat /\
    ek_pval t = one_minus (ccdf (ek_stat t) (length groups - 1)%nat) /\ ek_rho t = map mean_length groups /\
    ek_stat t = Fin v /\ 0 <= v /\ (v = 0 <-> all_equal (map spread groups))).
Proof. exact ek_large. Qed.
Print Assumptions C88_equal_kappa_large.
Theorem C88_equal_kappa_errors : forall ccdf groups,
  ((length groups < 2)%nat \/ Exists (fun g => (length g < 2)%nat) groups) ->
  equal_kappa_test ccdf groups = Err ValueError.
Proof. exact ek_errors. Qed.
Print Assumptions C88_equal_kappa_errors.
Theorem C88_equal_kappa_refuted : forall ccdf, exists groups t v,
  two_each groups /\ equal_kappa_test ccdf groups = Ok t /\ ek_stat t = Fin v /\ v < 0.
Proof. exact ek_refuted. Qed.
Print Assumptions C88_equal_kappa_refuted.
Example C88_example :
  (two_each [[0; 0; 0; PI; PI]; [0; 0; PI; PI; PI / 2]] /\ mean_length (concat [[0; 0; 0; PI; PI]; [0; 0; PI; PI; PI / 2]]) < 45/100 /\
   Forall (fun g => 3 * mean_length g ^ 2 <= 2 /\ (5 <= length g)%nat) [[0; 0; 0; PI; PI]; [0; 0; PI; PI; PI / 2]]) /\
  (two_each [[0; 0; 0; PI]; [0; 0; 0; PI]] /\ 45/100 <= mean_length (concat [[0; 0; 0; PI]; [0; 0; 0; PI]]) <= 7/10) /\
  (two_each [[0; PI / 2]; [0; PI / 2]] /\ 7/10 < mean_length (concat [[0; PI / 2]; [0; PI / 2]]) /\
   Forall (fun g => ~ one_direction g) [[0; PI / 2]; [0; PI / 2]]).
Proof. exact ex88. Qed.

(** C89.  Full statement: W does not depend on the order of the samples, on the listing
    order or on a common rotation.  Proved for samples without ties; false with ties. *)
Theorem C89_wheeler_partial : forall csf gs os, Forall2 tabulates gs os -> (2 <= length os)%nat -> NoDup (concat os) ->
  separated tol8 (concat os) ->
  wheeler_watson_test csf gs = Ok {| wh_W := wheeler_W os; wh_pval := csf (wheeler_W os) (2 * (length os - 1))%nat;
                                     wh_df := 2 * (length os - 1) |}.
Proof. exact wheeler_spec. Qed.
Print Assumptions C89_wheeler_partial.
Theorem C89_statistic_order : forall os os', Permutation os os' -> (2 <= length os)%nat -> Forall (fun g => g <> []) os ->
  NoDup (concat os) -> 0 <= wheeler_W os /\ wheeler_W os' = wheeler_W os.
Proof. intros os os' P L N D. split; [exact (wheeler_nonneg os L N)|exact (wheeler_perm os os' P L N D)]. Qed.
Print Assumptions C89_statistic_order.
Theorem C89_statistic_turned : forall t os os', Forall2 (turned_obs t) os os' -> Forall on_turn os -> Forall on_turn os' ->
  Forall (fun g => g <> []) os -> wheeler_W os' = wheeler_W os.
Proof. exact wheeler_turned. Qed.
Print Assumptions C89_statistic_turned.
Theorem C89_wheeler_ties_refuted : forall csf, exists a b t t',
  wheeler_watson_test csf [(a, None); (b, None)] = Ok t /\ wheeler_watson_test csf [(b, None); (a, None)] = Ok t' /\
  wh_W t = 8 /\ wh_W t' = 2.
Proof. exact wheeler_ties_refuted. Qed.
Print Assumptions C89_wheeler_ties_refuted.
Example C89_example : NoDup (concat [[0]; [1; 3]]) /\ separated tol8 (concat [[0]; [1; 3]]) /\ Forall on_turn [[0]; [1; 3]] /\
  Forall2 (turned_obs 1) [[0]; [1; 3]] [[1]; [2; 4]] /\ Forall on_turn [[1]; [2; 4]].
Proof. exact ex89. Qed.

(** C90.  Full statement: a grouped sample acts as the sample it tabulates, and sample
    arguments that tabulate nothing are rejected by all four tests.  Proved for
    Watson-Williams, Watson U2 and Wheeler-Watson (C32, C42, C89 are stated for tabulated
    samples) and for the rejection.  False for wallraff_test; a weight of 100000.5 is
    accepted as 100000. *)
Theorem C90_samples_rejected_partial : forall fsf csf nsf gs angle, gs = [] \/ Exists unusable gs ->
  watson_williams_test fsf gs = Err ValueError /\ watson_u2_test gs = Err ValueError /\
  wheeler_watson_test csf gs = Err ValueError /\ wallraff_test nsf gs angle = Err ValueError.
Proof. exact tests_reject. Qed.
Print Assumptions C90_samples_rejected_partial.
Theorem C90_wallraff_grouped_refuted : forall nsf, exists g obs b t t', tabulates g obs /\
  wallraff_test nsf [g; (b, None)] (Scalar 0) = Ok t /\
  wallraff_test nsf [(obs, None); (b, None)] (Scalar 0) = Ok t' /\ wa_U t < 0 /\ wa_U t' = 0.
Proof. exact wallraff_grouped_refuted. Qed.
Print Assumptions C90_wallraff_grouped_refuted.
Theorem C90_fractional_weight : forall fsf a b, watson_williams_test fsf [([a], Some [200001 / 2]); ([b], None)] =
  watson_williams_test fsf [([a], Some [100000]); ([b], None)].
Proof. exact fractional_weight. Qed.
Print Assumptions C90_fractional_weight.
Example C90_example : Exists unusable [([0; 1], None); ([0; 1], Some [1; -1])] /\ Exists unusable [([0], Some [3 / 2]); ([0], None)].
Proof. exact ex90. Qed.

(** C91.  Full statement: both statistics are invariant under a common rotation.  Proved for
    H_disp; false for H_polar, which moreover cannot tell a sample from the opposite one. *)
Theorem C91_rao_dispersion_turned_partial : forall ccdf cppf alpha t samples samples', Forall2 (turned_obs t) samples samples' ->
  rh_disp (rao_homogeneity_test ccdf cppf alpha samples') = rh_disp (rao_homogeneity_test ccdf cppf alpha samples) /\
  rh_pval_disp (rao_homogeneity_test ccdf cppf alpha samples') = rh_pval_disp (rao_homogeneity_test ccdf cppf alpha samples) /\
  rh_reject_disp (rao_homogeneity_test ccdf cppf alpha samples') = rh_reject_disp (rao_homogeneity_test ccdf cppf alpha samples).
Proof. exact rao_disp_turned. Qed.
Print Assumptions C91_rao_dispersion_turned_partial.
Theorem C91_rao_polar_opposite : forall ccdf cppf alpha pre a b post, turned_obs PI a b ->
  rh_polar (rao_homogeneity_test ccdf cppf alpha (pre ++ b :: post)) =
  rh_polar (rao_homogeneity_test ccdf cppf alpha (pre ++ a :: post)).
Proof. exact rao_polar_opposite. Qed.
Print Assumptions C91_rao_polar_opposite.
Theorem C91_rao_polar_refuted : forall ccdf cppf alpha, exists t samples samples', Forall2 (turned_obs t) samples samples' /\
  rh_polar (rao_homogeneity_test ccdf cppf alpha samples) = Fin (3/17) /\
  rh_polar (rao_homogeneity_test ccdf cppf alpha samples') = Fin (3/8).
Proof. exact rao_polar_refuted. Qed.
Print Assumptions C91_rao_polar_refuted.
Example C91_example : Forall2 (turned_obs 1) [[0]; [1; 3]] [[1]; [2; 4]].
Proof. exact (proj1 (proj2 (proj2 (proj2 ex89)))). Qed.

(** C92.  Full statement: the interaction statistic is non-negative and, without the
    interaction, the degrees of freedom add up to n - 1.  Proved: the sums of squares add
    up, the residual is non-negative for balanced designs, the degrees of freedom of
    A, B and residual add up to pq - 1.  The interaction is non-negative for balanced
    designs (C41) and can be negative otherwise. *)
Theorem C92_two_way_plain_partial : forall fcdf ccdf csf A1 d a b i r tot p q,
  d <> [] -> level_count lvA d p -> level_count lvB d q ->
  harrison_kanji_test fcdf ccdf csf A1 d false = Ok (HkF a b i r tot) ->
  i = None /\ exists sa sb sr, hk_ss a = Fin sa /\ hk_ss b = Fin sb /\ hk_ss r = Fin sr /\
    hk_ss tot = Fin (sa + sb + sr) /\ 0 <= sa /\ 0 <= sb /\
    (forall m, (0 < m)%nat -> cells_of_size m d -> 0 <= sr) /\
    exists da db dr, hk_df a = Fin da /\ hk_df b = Fin db /\ hk_df r = Fin dr /\
      hk_df tot = Fin (INR (length d) - 1) /\ da + db + dr = INR p * INR q - 1.
Proof. exact hk_plain_table2. Qed.
Print Assumptions C92_two_way_plain_partial.
(** A1 is I1/I0, which is 0 at 0. *)
Theorem C92_interaction_refuted : forall fcdf ccdf csf A1, A1 0 = 0 ->
  exists d a b x df pv, cells_filled d /\
    harrison_kanji_test fcdf ccdf csf A1 d true = Ok (HkChi a b (Fin x, df, pv)) /\ x < 0.
Proof. exact hk_inter_refuted2. Qed.
Print Assumptions C92_interaction_refuted.
(** Here n = 8 and pq = 4: A, B and residual have 3 degrees of freedom, the total has 7. *)
Example C92_example : forall fcdf ccdf csf A1, cells_of_size 2 ex_design /\ length ex_design = 8%nat /\
  exists a b i r tot, harrison_kanji_test fcdf ccdf csf A1 ex_design false = Ok (HkF a b i r tot).
Proof. intros. split; [exact design_cells|]. split; [reflexivity|exact (ex41 fcdf ccdf csf A1 false)]. Qed.
