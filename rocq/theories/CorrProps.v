(** Property theorems for correlation.py (C45-C48, C94, C95).  norm.ppf(0.975), norm.cdf
    and chi2.cdf of scipy are the arguments z, ncdf, ccdf: the theorems hold for every
    such value and function. *)
From Verif Require Import Prelude NpModel CircleSpec UtilsModel DescModel DescSpec
  HypMultiModel HypMulti2Model HypMultiSpec CorrModel CorrSpec CorrProofs Corr2Proofs Corr3Proofs Corr4Proofs Corr5Proofs Corr6Proofs CorrEx.

(** C45 *)
Theorem C45_range : forall z ncdf a b test strict o, circ_corrcc z ncdf a b "fl" test strict = Ok o ->
  exists r, coef o = Fin r /\ -1 <= r <= 1.
Proof. exact cc_fl_range. Qed.
Print Assumptions C45_range.
Theorem C45_value : forall z ncdf a b strict,
  circ_corrcc z ncdf a b "fl" false strict =
  if Nat.eqb (length (angles a)) (length (angles b)) && Nat.leb 2 (length (angles a)) then
    let P := combine (angles a) (angles b) in
    let saa := pair_sum (fun p q => sin (fst p - fst q) ^ 2) P in
    let sbb := pair_sum (fun p q => sin (snd p - snd q) ^ 2) P in
    let sab := pair_sum (fun p q => sin (fst p - fst q) * sin (snd p - snd q)) P in
    if Rle_dec (sqrt (saa * sbb)) (2 / 100000000) then Err ValueError
    else Ok (OnlyR (Fin (sab / sqrt (saa * sbb))))
  else Err ValueError.
Proof. exact cc_fl_value. Qed.
Print Assumptions C45_value.
Theorem C45_rotation : forall z ncdf a b a' b' s t test strict strict',
  moved s (angles a) (angles a') -> moved t (angles b) (angles b') ->
  circ_corrcc z ncdf a' b' "fl" test strict' = circ_corrcc z ncdf a b "fl" test strict.
Proof. exact cc_fl_moved. Qed.
Print Assumptions C45_rotation.
Theorem C45_reflection : forall z ncdf a b a' b' s t test strict strict',
  moved s (angles a) (angles a') -> mirrored t (angles b) (angles b') ->
  negated (circ_corrcc z ncdf a b "fl" test strict) (circ_corrcc z ncdf a' b' "fl" test strict').
Proof. exact cc_fl_mirrored. Qed.
Print Assumptions C45_reflection.
Theorem C45_symmetric : forall z ncdf a b test strict strict',
  circ_corrcc z ncdf b a "fl" test strict' = circ_corrcc z ncdf a b "fl" test strict.
Proof. intros. rewrite !cc_fl, (fl_swap z a b test strict strict'). reflexivity. Qed.
Print Assumptions C45_symmetric.
Theorem C45_order : forall z ncdf a b a' b' test strict strict', same_pairs (angles a) (angles b) (angles a') (angles b') ->
  circ_corrcc z ncdf a' b' "fl" test strict' = circ_corrcc z ncdf a b "fl" test strict.
Proof. intros z ncdf a b a' b' test strict strict' H. rewrite !cc_fl, (fl_perm z a b a' b' test strict strict' H). reflexivity. Qed.
Print Assumptions C45_order.
Theorem C45_extremes : forall z ncdf a b t test strict o, circ_corrcc z ncdf a b "fl" test strict = Ok o ->
  (moved t (angles a) (angles b) -> coef o = Fin 1) /\ (mirrored t (angles a) (angles b) -> coef o = Fin (-1)).
Proof. exact cc_fl_same. Qed.
Print Assumptions C45_extremes.
Theorem C45_jackknife : forall z ncdf a b strict c, circ_corrcc z ncdf a b "fl" true strict = Ok (Full c) ->
  let n := length (angles a) in
  (3 <= n)%nat /\ exists r rs rej, cr_r c = Fin r /\ cr_reject c = Some rej /\ cr_p_value c = None /\
    Forall2 (fun i ri => circ_corrcc z ncdf (Arr (without i (angles a))) (Arr (without i (angles b))) "fl" false strict = Ok (OnlyR (Fin ri))) (seq 0 n) rs /\
    (0 <= z -> (rej = true <-> z * sqrt (sumsq_dev rs / (INR n - 1) / INR n) < Rabs (INR n * r - (INR n - 1) * (Rsum rs / INR n)))).
Proof. exact cc_fl_jack. Qed.
Print Assumptions C45_jackknife.
(** Correlation 1/2 on [0, pi/2, pi] and [0, pi/2, pi/2]; a sample for which the test runs. *)
Example C45_example : forall z ncdf strict,
  circ_corrcc z ncdf (Arr [0; PI / 2; PI]) (Arr [0; PI / 2; PI / 2]) "fl" false strict = Ok (OnlyR (Fin (1 / 2))) /\
  (exists c, circ_corrcc z ncdf (Arr [0; PI / 2; 0; PI / 2]) (Arr [0; PI / 2; 0; PI / 2]) "fl" true strict = Ok (Full c)) /\
  moved 1 [0; 2] [1; 3 + 2 * PI] /\ mirrored 1 [0; 2] [1; -1 + 2 * PI] /\ same_pairs [0; 2] [3; 1] [2; 0] [1; 3].
Proof.
  intros z ncdf strict. split; [apply ex45|]. split; [apply ex45_test|].
  split; [constructor; [exists 0%Z; lra|]; constructor; [exists (-1)%Z; lra|constructor]|].
  split; [constructor; [exists 0%Z; lra|]; constructor; [exists (-1)%Z; lra|constructor]|].
  split; [reflexivity|]. split; [reflexivity|]. apply perm_swap.
Qed.

(** C46 *)
Theorem C46_range : forall z ncdf a b test strict o, circ_corrcc z ncdf a b "js" test strict = Ok o ->
  (coef o = NaN /\ (resultant (angles a) <= / 100000000 * INR (length (angles a)) \/ resultant (angles b) <= / 100000000 * INR (length (angles b))))
  \/ (exists r, coef o = Fin r /\ -1 <= r <= 1 /\ / 100000000 * INR (length (angles a)) < resultant (angles a) /\ / 100000000 * INR (length (angles b)) < resultant (angles b)).
Proof. exact cc_js_range. Qed.
Print Assumptions C46_range.
Theorem C46_value : forall z ncdf a b strict ma mb,
  Rsum (map (fun x => sin (x - ma)) (angles a)) = 0 -> / 100000000 * INR (length (angles a)) < Rsum (map (fun x => cos (x - ma)) (angles a)) ->
  Rsum (map (fun x => sin (x - mb)) (angles b)) = 0 -> / 100000000 * INR (length (angles b)) < Rsum (map (fun x => cos (x - mb)) (angles b)) ->
  length (angles a) = length (angles b) -> (2 <= length (angles a))%nat ->
  let P := combine (angles a) (angles b) in
  let den := sqrt (dot (fun a => sin (a - ma) ^ 2) (fun _ => 1) P * dot (fun _ => 1) (fun b => sin (b - mb) ^ 2) P) in
  circ_corrcc z ncdf a b "js" false strict =
  if Rle_dec den (/ 100000000) then Err ValueError
  else Ok (OnlyR (Fin (dot (fun a => sin (a - ma)) (fun b => sin (b - mb)) P / den))).
Proof. exact cc_js_value. Qed.
Print Assumptions C46_value.
Theorem C46_test : forall z ncdf a b strict c ma mb,
  Rsum (map (fun x => sin (x - ma)) (angles a)) = 0 -> 0 < Rsum (map (fun x => cos (x - ma)) (angles a)) ->
  Rsum (map (fun x => sin (x - mb)) (angles b)) = 0 -> 0 < Rsum (map (fun x => cos (x - mb)) (angles b)) ->
  circ_corrcc z ncdf a b "js" true strict = Ok (Full c) -> cr_r c <> NaN ->
  let P := combine (angles a) (angles b) in
  exists s, cr_test_stat c = Some (Fin s) /\ cr_p_value c = Some (Fin (2 * (1 - ncdf (Rabs s)))) /\
    0 < dot (fun a => sin (a - ma) ^ 2) (fun b => sin (b - mb) ^ 2) P /\
    s * sqrt (dot (fun a => sin (a - ma) ^ 2) (fun b => sin (b - mb) ^ 2) P) = dot (fun a => sin (a - ma)) (fun b => sin (b - mb)) P.
Proof. exact cc_js_test. Qed.
Print Assumptions C46_test.
Theorem C46_rotation : forall z ncdf a b a' b' s t test strict strict',
  moved s (angles a) (angles a') -> moved t (angles b) (angles b') ->
  circ_corrcc z ncdf a' b' "js" test strict' = circ_corrcc z ncdf a b "js" test strict.
Proof. exact cc_js_moved. Qed.
Print Assumptions C46_rotation.
Theorem C46_reflection : forall z ncdf a b a' b' s t test strict strict',
  moved s (angles a) (angles a') -> mirrored t (angles b) (angles b') ->
  negated (circ_corrcc z ncdf a b "js" test strict) (circ_corrcc z ncdf a' b' "js" test strict').
Proof. exact cc_js_mirrored. Qed.
Print Assumptions C46_reflection.
Theorem C46_symmetric : forall z ncdf a b test strict strict',
  circ_corrcc z ncdf b a "js" test strict' = circ_corrcc z ncdf a b "js" test strict.
Proof. intros. rewrite !cc_js, (js_swap ncdf a b test strict strict'). reflexivity. Qed.
Print Assumptions C46_symmetric.
Theorem C46_order : forall z ncdf a b a' b' test strict strict', same_pairs (angles a) (angles b) (angles a') (angles b') ->
  circ_corrcc z ncdf a' b' "js" test strict' = circ_corrcc z ncdf a b "js" test strict.
Proof. intros z ncdf a b a' b' test strict strict' H. rewrite !cc_js, (js_perm ncdf a b a' b' test strict strict' H). reflexivity. Qed.
Print Assumptions C46_order.
Theorem C46_extremes : forall z ncdf a b t test strict o r, circ_corrcc z ncdf a b "js" test strict = Ok o -> coef o = Fin r ->
  (moved t (angles a) (angles b) -> r = 1) /\ (mirrored t (angles a) (angles b) -> r = -1).
Proof. exact cc_js_same. Qed.
Print Assumptions C46_extremes.
(** "strict mode raises when a Circular sample's mean is not significant": it returns a value. *)
Theorem C46_strict_refuted : forall z ncdf, exists a b pa pb, 5 / 100 <= pa /\ 5 / 100 <= pb /\
  exists o, circ_corrcc z ncdf (Circ a pa) (Circ b pb) "js" false true = Ok o.
Proof.
  intros z ncdf. exists [0; PI / 2], [PI / 2; 0], (1 / 4), (1 / 4). split; [lra|]. split; [lra|].
  eexists. apply ex46_strict.
Qed.
Print Assumptions C46_strict_refuted.
Example C46_example : forall z ncdf strict,
  circ_corrcc z ncdf (Arr [0; PI / 2]) (Arr [PI / 2; 0]) "js" false strict = Ok (OnlyR (Fin (-1))) /\
  (exists c, circ_corrcc z ncdf (Arr [0; PI / 2]) (Arr [PI / 2; 0]) "js" true strict = Ok (Full c) /\ cr_r c <> NaN) /\
  Rsum (map (fun x => sin (x - PI / 4)) [0; PI / 2]) = 0 /\ / 100000000 * INR 2 < Rsum (map (fun x => cos (x - PI / 4)) [0; PI / 2]).
Proof. intros z ncdf strict. split; [apply ex46|]. split; [apply ex46_test|exact balance_0_PI2]. Qed.

(** C47 *)
Theorem C47_range : forall z ncdf a b test strict, length (angles a) = length (angles b) -> (3 <= length (angles a))%nat ->
  exists o r, circ_corrcc z ncdf a b "nonparametric" test strict = Ok o /\ coef o = Fin r /\ -1 <= r <= 1.
Proof. exact cc_np_range. Qed.
Print Assumptions C47_range.
Theorem C47_symmetric : forall z ncdf a b test strict,
  circ_corrcc z ncdf b a "nonparametric" test strict = circ_corrcc z ncdf a b "nonparametric" test strict.
Proof. exact cc_np_swap. Qed.
Print Assumptions C47_symmetric.
Theorem C47_extremes : forall z ncdf a b test strict o, circ_corrcc z ncdf a b "nonparametric" test strict = Ok o -> NoDup (angles a) ->
  (same_order (angles a) (angles b) -> coef o = Fin 1) /\ (reverse_order (angles a) (angles b) -> coef o = Fin (-1)).
Proof.
  intros z ncdf a b test strict o H N. split; intros S.
  - exact (cc_np_same z ncdf a b test strict o H N S).
  - exact (cc_np_reversed z ncdf a b test strict o H N S).
Qed.
Print Assumptions C47_extremes.
Example C47_example : forall z ncdf test strict,
  ((exists o, circ_corrcc z ncdf (Arr [0; 2; 4]) (Arr [1; 5; 6]) "nonparametric" test strict = Ok o /\ coef o = Fin 1) /\
   (exists o, circ_corrcc z ncdf (Arr [0; 2; 4]) (Arr [6; 5; 1]) "nonparametric" test strict = Ok o /\ coef o = Fin (-1))) /\
  NoDup [0; 2; 4] /\ same_order [0; 2; 4] [1; 5; 6] /\ reverse_order [0; 2; 4] [6; 5; 1].
Proof. intros. split; [apply ex47|exact ex_order]. Qed.

(** C94 *)
Theorem C94_monotone : forall z ncdf a b a' b' test strict strict', same_order (angles a) (angles a') -> same_order (angles b) (angles b') ->
  circ_corrcc z ncdf a' b' "nonparametric" test strict' = circ_corrcc z ncdf a b "nonparametric" test strict.
Proof. exact cc_np_monotone. Qed.
Print Assumptions C94_monotone.
Theorem C94_rotation_partial : forall z ncdf a b a' b' s t test strict strict',
  on_turn (angles a) -> on_turn (angles a') -> on_turn (angles b) -> on_turn (angles b') ->
  moved s (angles a) (angles a') -> moved t (angles b) (angles b') ->
  circ_corrcc z ncdf a' b' "nonparametric" test strict' = circ_corrcc z ncdf a b "nonparametric" test strict.
Proof. exact cc_np_moved. Qed.
Print Assumptions C94_rotation_partial.
Theorem C94_reflection_partial : forall z ncdf a b a' b' s t test strict strict' o o',
  on_turn (angles a) -> on_turn (angles a') -> on_turn (angles b) -> on_turn (angles b') ->
  moved s (angles a) (angles a') -> mirrored t (angles b) (angles b') ->
  circ_corrcc z ncdf a b "nonparametric" test strict = Ok o -> circ_corrcc z ncdf a' b' "nonparametric" test strict' = Ok o' ->
  coef o' = neg_fl (coef o).
Proof. exact cc_np_mirrored. Qed.
Print Assumptions C94_reflection_partial.
(** The full claim, without on_turn, is false: a whole turn added to one angle changes r. *)
Theorem C94_turns_refuted : forall z ncdf strict, exists a a' b,
  moved 0 (angles a) (angles a') /\ circ_corrcc z ncdf a' b "nonparametric" false strict <> circ_corrcc z ncdf a b "nonparametric" false strict.
Proof. exact np_turn_refuted. Qed.
Print Assumptions C94_turns_refuted.
Example C94_example : on_turn [0; 2; 4] /\ on_turn [2; 4; 6] /\ moved 2 [0; 2; 4] [2; 4; 6] /\ mirrored 6 [0; 2; 4] [6; 4; 2].
Proof.
  pose proof PI2_3_2.
  split; [repeat constructor; lra|]. split; [repeat constructor; lra|].
  split; (constructor; [exists 0%Z; lra|]; constructor; [exists 0%Z; lra|]; constructor; [exists 0%Z; lra|constructor]).
Qed.

(** C48 *)
Theorem C48_explained : forall ccdf a x pv r, circ_corrcl ccdf a x = Ok (Fin r, pv) ->
  let P := combine (angles a) x in
  length (angles a) = length x /\ 0 <= r <= 1 /\ 0 < sumsq_dev x /\
  (forall c p q, (1 - r ^ 2) * sumsq_dev x <= rss c p q P) /\
  (exists c p q, rss c p q P = (1 - r ^ 2) * sumsq_dev x) /\
  pv = Fin (1 - ccdf (INR (length x) * r ^ 2)).
Proof. exact cl_explained. Qed.
Print Assumptions C48_explained.
Theorem C48_defined : forall ccdf a x, length (angles a) = length x -> (3 <= length x)%nat -> 0 < sumsq_dev x ->
  spread (1 / 100000000 * INR (length x)) (angles a) -> exists r pv, circ_corrcl ccdf a x = Ok (Fin r, Fin pv).
Proof. exact corrcl_defined. Qed.
Print Assumptions C48_defined.
Theorem C48_invariant : forall ccdf a a' x t k m, k <> 0 ->
  moved t (angles a) (angles a') \/ mirrored t (angles a) (angles a') ->
  length (angles a) = length x -> (3 <= length x)%nat -> 0 < sumsq_dev x -> spread (1 / 100000000 * INR (length x)) (angles a) ->
  circ_corrcl ccdf a' (map (fun v => k * v + m) x) = circ_corrcl ccdf a x.
Proof. exact cl_invariant. Qed.
Print Assumptions C48_invariant.
Theorem C48_invariant_values : forall ccdf a a' x t k m r pv r' pv', k <> 0 ->
  moved t (angles a) (angles a') \/ mirrored t (angles a) (angles a') ->
  circ_corrcl ccdf a x = Ok (Fin r, pv) -> circ_corrcl ccdf a' (map (fun v => k * v + m) x) = Ok (Fin r', pv') ->
  r = r' /\ pv = pv'.
Proof. exact cl_invariant_values. Qed.
Print Assumptions C48_invariant_values.
Theorem C48_order : forall ccdf a x a' x', same_pairs (angles a) x (angles a') x' -> circ_corrcl ccdf a x = circ_corrcl ccdf a' x'.
Proof. exact corrcl_perm. Qed.
Print Assumptions C48_order.
(** For angles on two opposite directions, the outcome depends on the zero direction. *)
Theorem C48_orientation_refuted : forall ccdf, exists a a' x t, moved t (angles a) (angles a') /\
  circ_corrcl ccdf a x = Ok (NaN, NaN) /\ circ_corrcl ccdf a' x = Err ValueError.
Proof. exact corrcl_orientation. Qed.
Print Assumptions C48_orientation_refuted.
Example C48_example : (spread (1 / 100000000 * INR 4) four /\ 0 < sumsq_dev [1; 0; -1; 3]) /\
  forall ccdf, exists r pv, circ_corrcl ccdf (Arr four) [1; 0; -1; 3] = Ok (Fin r, Fin pv).
Proof. split; [exact four_spread|exact ex48]. Qed.

(** C95 *)
Theorem C95_method : forall z ncdf a b m test strict,
  (~ In (lower m) ["fl"; "js"; "nonparametric"]%string -> circ_corrcc z ncdf a b m test strict = Err ValueError) /\
  (forall m', lower m' = lower m -> circ_corrcc z ncdf a b m' test strict = circ_corrcc z ncdf a b m test strict).
Proof. exact cc_method. Qed.
Print Assumptions C95_method.
Theorem C95_test_flag : forall z ncdf a b m strict c, circ_corrcc z ncdf a b m true strict = Ok (Full c) ->
  circ_corrcc z ncdf a b m false strict = Ok (OnlyR (cr_r c)).
Proof. exact cc_test_flag. Qed.
Print Assumptions C95_test_flag.
Theorem C95_sizes : forall z ncdf a b m test strict, length (angles a) <> length (angles b) \/ (length (angles a) < 2)%nat ->
  circ_corrcc z ncdf a b m test strict = Err ValueError.
Proof. exact cc_sizes. Qed.
Print Assumptions C95_sizes.
Example C95_example : lower "Nonparametric" = "nonparametric"%string /\ ~ In (lower "pearson") ["fl"; "js"; "nonparametric"]%string /\
  forall z ncdf strict, circ_corrcc z ncdf (Arr [0; PI / 2; PI]) (Arr [0; PI / 2; PI / 2]) "FL" false strict = Ok (OnlyR (Fin (1 / 2))).
Proof.
  split; [reflexivity|]. split; [cbn; intros H; repeat destruct H as [H|H]; try discriminate; auto|].
  intros z ncdf strict. rewrite (proj2 (cc_method z ncdf _ _ "fl" false strict) "FL"%string eq_refl). apply ex45.
Qed.
