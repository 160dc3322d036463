(** jonespewsey.cdf overshoots and then decreases for psi = -1, kappa = 14: all 256 coefficients are clipped to 1. *)
From Verif Require Import Prelude NpModel NpProofs CircleSpec IntSpec IntProofs Desc6Proofs DistModel DistSpec DistProofs Dist2Proofs Dist4Proofs Dist5Proofs
  Dist6Proofs Dist7Proofs Dist8Proofs KjProofs Kj2Proofs Kj3Proofs VonModel VonSpec VonProofs Von2Proofs Von3Proofs Von4Proofs Von5Proofs Von6Proofs GaussProofs Ws2Proofs Ws3Proofs WnProofs Wn3Proofs Wn6Proofs
  JpModel JpSpec JpProofs Jp2Proofs Jp3Proofs Jp4Proofs.
From Coq Require Import Ratan AltSeries.

Lemma exp1_lo : 5 / 2 <= exp 1.
Proof.
  replace 1 with (INR 8 * (1 / 8)) by (rewrite INR_IZR_INZ; cbn; lra). rewrite <- exp_pow. pose proof (exp_ge1 (1 / 8)) as E.
  apply Rle_trans with ((9 / 8) ^ 8); [lra|]. apply pow_incr. lra.
Qed.
Lemma exp14 : 372529 <= exp 14.
Proof.
  replace 14 with (INR 14 * 1) by (rewrite INR_IZR_INZ; cbn; lra). rewrite <- exp_pow. pose proof exp1_lo. apply Rle_trans with ((5 / 2) ^ 14); [lra|]. apply pow_incr. lra.
Qed.
Lemma exp14_facts : sinh 14 >= 186264 /\ cosh 14 - sinh 14 = / exp 14 /\ / exp 14 <= / 372529.
Proof.
  pose proof exp14 as E. assert (I : / exp 14 <= / 372529) by (apply Rinv_le_contravar; lra). pose proof (exp_Ropp 14) as O.
  split; [|split; [rewrite cosh_sinh_m; exact O|exact I]]. unfold sinh. rewrite O. lra.
Qed.
Lemma sin_ge3 x : 0 <= x -> x - x ^ 3 / 6 <= sin x.
Proof.
  intros Hx. assert (I : integral (fun t => cos t - (1 - t ^ 2 / 2)) 0 x ((sin x - (x - x ^ 3 / 6)) - (sin 0 - (0 - 0 ^ 3 / 6)))).
  { apply (ftc (fun t => cos t - (1 - t ^ 2 / 2)) (fun t => sin t - (t - t ^ 3 / 6))); [exact Hx| |].
    - intros y _. apply continuity_pt_minus; [apply cos_cont|]. reg.
    - intros y _. eapply dlim_eq; [|apply dlim_minus; [apply derivable_pt_lim_sin|apply dlim_minus; [apply dlim_id|apply dlim_divc, derivable_pt_lim_pow]]]. simpl. field. }
  assert (N : forall t, 0 <= t <= x -> 0 <= (fun t => cos t - (1 - t ^ 2 / 2)) t) by (intros t _; pose proof (cos_ge t); lra).
  pose proof (integral_le (fun _ => 0) (fun t => cos t - (1 - t ^ 2 / 2)) 0 x (0 * (x - 0)) _ Hx N (integral_const 0 x 0) I) as L. rewrite sin_0 in L. lra.
Qed.
Lemma sq_sum : forall N, Rsum (map (fun n => INR n ^ 2) (seq 1 N)) = INR N * (INR N + 1) * (2 * INR N + 1) / 6.
Proof. induction N as [|N IH]; [cbn; field|]. rewrite (Rsum_seq_S (fun n => INR n ^ 2)), IH, S_INR. field. Qed.

(** ** The coefficients *)
Definition jp_sharp (x : R) : R := 1 / (2 * PI) * / (cosh 14 - sinh 14 * cos x).
Lemma sharp_pdf iv lpmv quad : is_iv iv -> is_lpmv lpmv -> quad_exact quad (fun x => jp_kernel 14 (- 1) (x - 0)) (- PI) PI ->
  forall x, jp_pdf iv lpmv quad 0 14 (- 1) x = jp_sharp x.
Proof.
  intros Hiv Hl Hq x. pose proof PI_gt3. assert (Ok : jp_ok 0 14 (- 1) = true) by (apply jp_ok_spec; lra).
  assert (K : jp_ktol <= 14 <= 500) by (unfold jp_ktol; lra).
  destruct (jp_special iv lpmv quad 0 14 (- 1) Hiv Hl Ok K Hq x) as (_ & M & _). rewrite (proj1 (M eq_refl)), wc_as_kernel by lra.
  rewrite (proj1 (jp_kernel_mone 14 (x - 0) ltac:(lra))), Rminus_0_r. reflexivity.
Qed.
Lemma Rsum_lo l c : (forall x, In x l -> c <= x) -> INR (length l) * c <= Rsum l.
Proof.
  induction l as [|x l IH]; intros H; [cbn; lra|]. change (Rsum (x :: l)) with (x + Rsum l). change (length (x :: l)) with (S (length l)). rewrite S_INR.
  pose proof (H x (or_introl eq_refl)). pose proof (IH (fun y Hy => H y (or_intror Hy))). lra.
Qed.
Lemma sharp_coeff n : 1 <= riemann_turn (fun t => cos (INR n * t) * jp_sharp t).
Proof.
  pose proof PI_gt3 as P3. pose proof PI_4 as P4. destruct exp14_facts as (S14 & D14 & I14). pose proof exp14 as E14.
  set (d := 2 * PI / 4096). set (B := 8 / (2 * PI * sinh 14 * d ^ 2)).
  assert (Hd : 0 < d <= 1) by (unfold d; lra).
  assert (Hcd : d ^ 2 / 8 <= 1 - cos d).
  { pose proof (sin_half (d / 2) ltac:(lra)) as Sh. replace d with (2 * (d / 2)) at 2 by field. rewrite cos_2a_sin. set (u := sin (d / 2)) in *. nra. }
  assert (G : forall k, (k <= 2047)%nat \/ (2049 <= k < 4096)%nat -> - B <= cos (INR n * jp_grid k) * jp_sharp (jp_grid k)).
  { intros k Hk. assert (Ck : cos (jp_grid k) <= cos d).
    { unfold jp_grid. fold d. destruct Hk as [Hk|Hk].
      - apply le_INR in Hk. replace (INR 2047) with 2047 in Hk by (rewrite INR_IZR_INZ; reflexivity). rewrite <- cos_neg. pose proof (pos_INR k). apply cos_decr_1; unfold d in *; nra.
      - destruct Hk as [H1 H2]. apply le_INR in H1. apply lt_INR in H2. replace (INR 2049) with 2049 in H1 by (rewrite INR_IZR_INZ; reflexivity). replace (INR 4096) with 4096 in H2 by (rewrite INR_IZR_INZ; reflexivity).
        apply cos_decr_1; unfold d in *; nra. }
    assert (Q : 0 <= jp_sharp (jp_grid k) <= B).
    { unfold jp_sharp, B. set (g := cos (jp_grid k)) in *. assert (T : sinh 14 * (d ^ 2 / 8) <= cosh 14 - sinh 14 * g) by (pose proof (exp_pos 14) as Ep; apply Rinv_0_lt_compat in Ep; nra).
      assert (T0 : 0 < sinh 14 * (d ^ 2 / 8)) by (apply Rmult_lt_0_compat; nra). split.
      - apply Rmult_le_pos; apply Rlt_le; [apply Rdiv_lt_0_compat; lra|apply Rinv_0_lt_compat; lra].
      - replace (8 / (2 * PI * sinh 14 * d ^ 2)) with (1 / (2 * PI) * / (sinh 14 * (d ^ 2 / 8))) by (field; repeat split; lra).
        apply Rmult_le_compat_l; [apply Rlt_le, Rdiv_lt_0_compat; lra|]. apply Rinv_le_contravar; assumption. }
    pose proof (COS_bound (INR n * jp_grid k)). nra. }
  unfold riemann_turn. fold d. set (f := fun k => cos (INR n * jp_grid k) * jp_sharp (jp_grid k)).
  change (fun k => cos (INR n * (- PI + INR k * d)) * jp_sharp (- PI + INR k * d)) with f.
  assert (Sp : Rsum (map f (seq 0 (Z.to_nat 4096))) = Rsum (map f (seq 0 2048)) + (f 2048%nat + Rsum (map f (seq 2049 2047)))).
  { replace (Z.to_nat 4096) with (2048 + (1 + 2047))%nat by (symmetry; apply Nat2Z.inj; rewrite Z2Nat.id by lia; reflexivity). rewrite seq_app, map_app, Rsum_app. reflexivity.
  }
  rewrite Sp.
  assert (L1 : 2048 * - B <= Rsum (map f (seq 0 2048))).
  { pose proof (Rsum_lo (map f (seq 0 2048)) (- B)) as L. rewrite map_length, seq_length in L. replace (INR 2048) with 2048 in L by (rewrite INR_IZR_INZ; reflexivity). apply L.
    intros x Hx. apply in_map_iff in Hx as (k & <- & Hk). apply in_seq in Hk. apply G. lia. }
  assert (L2 : 2047 * - B <= Rsum (map f (seq 2049 2047))).
  { pose proof (Rsum_lo (map f (seq 2049 2047)) (- B)) as L. rewrite map_length, seq_length in L. replace (INR 2047) with 2047 in L by (rewrite INR_IZR_INZ; reflexivity). apply L.
    intros x Hx. apply in_map_iff in Hx as (k & <- & Hk). apply in_seq in Hk. apply G. lia. }
  assert (M : f 2048%nat = exp 14 / (2 * PI)).
  { unfold f. assert (Z0 : jp_grid 2048 = 0) by (unfold jp_grid; replace (INR 2048) with 2048 by (rewrite INR_IZR_INZ; reflexivity); field).
    rewrite Z0. unfold jp_sharp. rewrite Rmult_0_r, cos_0, Rmult_1_r, D14, Rinv_inv. field. lra. }
  rewrite M. assert (Bb : d * (4096 * B) <= 21).
  { unfold B. replace (d * (4096 * (8 / (2 * PI * sinh 14 * d ^ 2)))) with (4096 ^ 2 * 8 / (4 * PI ^ 2 * sinh 14)) by (unfold d; field; repeat split; lra).
    apply (Rmult_le_reg_r (4 * PI ^ 2 * sinh 14)); [apply Rmult_lt_0_compat; nra|]. unfold Rdiv. rewrite Rmult_assoc, Rinv_l, Rmult_1_r by (apply Rgt_not_eq; apply Rmult_lt_0_compat; nra).
    assert (36 <= 4 * PI ^ 2) by nra. nra. }
  assert (Mb : d * (exp 14 / (2 * PI)) >= 90). { unfold d. replace (2 * PI / 4096 * (exp 14 / (2 * PI))) with (exp 14 / 4096) by (field; lra). lra. }
  assert (B0 : 0 < B) by (unfold B; apply Rdiv_lt_0_compat; [lra|]; apply Rmult_lt_0_compat; nra).
  assert (d * (2048 * - B) <= d * Rsum (map f (seq 0 2048))) by (apply Rmult_le_compat_l; lra).
  assert (d * (2047 * - B) <= d * Rsum (map f (seq 2049 2047))) by (apply Rmult_le_compat_l; lra). nra.
Qed.
Lemma sharp_one iv lpmv quad n : is_iv iv -> is_lpmv lpmv -> quad_exact quad (fun x => jp_kernel 14 (- 1) (x - 0)) (- PI) PI ->
  jp_coeff (jp_pdf iv lpmv quad 0 14 (- 1)) n = 1.
Proof.
  intros Hiv Hl Hq. rewrite coeff_riemann by (intros; apply jp_pdf_turns).
  replace (riemann_turn (fun t => cos (INR n * t) * jp_pdf iv lpmv quad 0 14 (- 1) t)) with (riemann_turn (fun t => cos (INR n * t) * jp_sharp t)).
  2: { unfold riemann_turn. f_equal. apply Rsum_ext_map. intros k _. rewrite (sharp_pdf iv lpmv quad Hiv Hl Hq). reflexivity. }
  pose proof (sharp_coeff n). unfold clip. rewrite Rmax_left, Rmin_right by lra. reflexivity.
Qed.
Lemma last_full c : (forall n, c n = 1) -> jp_last c = 256%nat.
Proof.
  intros H. unfold jp_last. assert (E : seq 1 256 = seq 1 255 ++ [256%nat]) by reflexivity. rewrite E, fold_left_app. generalize (seq 1 255). intros l. cbn [fold_left].
  rewrite H. replace (INR 256) with 256 by (rewrite INR_IZR_INZ; reflexivity). rewrite Rabs_pos_eq by lra. rewrite (proj2 (Rltb_true _ _)) by lra. reflexivity.
Qed.

(** ** The overshoot *)
Lemma overshoot : 1 / 2 <= jp_cum (fun _ => 1) 256 (3 / 320).
Proof.
  pose proof PI_gt3. pose proof pi_hi as Ph. unfold jp_cum.
  assert (S : 162 / 100 <= Rsum (map (fun n => sin (3 / 320 * INR n) * (1 / INR n)) (seq 1 256))).
  { apply Rle_trans with (Rsum (map (fun n => 3 / 320 * 1 + - ((3 / 320) ^ 3 / 6) * INR n ^ 2) (seq 1 256))).
    - rewrite Rsum_plus_map, !Rsum_scal_map, sq_sum.
      assert (G : forall m a, Rsum (map (fun _ : nat => 1) (seq a m)) = INR m).
      { induction m as [|m IH]; intros a; [reflexivity|]. cbn [seq map]. change (Rsum (?x :: ?y)) with (x + Rsum y). rewrite IH, S_INR. ring. }
      rewrite G. replace (INR 256) with 256 by (rewrite INR_IZR_INZ; reflexivity). lra.
    - assert (G : forall l, (forall n, In n l -> (1 <= n)%nat) ->
        Rsum (map (fun n => 3 / 320 * 1 + - ((3 / 320) ^ 3 / 6) * INR n ^ 2) l) <= Rsum (map (fun n => sin (3 / 320 * INR n) * (1 / INR n)) l)).
      { induction l as [|n l IH]; intros Hl; [cbn; lra|]. cbn [map]. change (Rsum (?x :: ?y)) with (x + Rsum y). apply Rplus_le_compat; [|apply IH; intros; apply Hl; right; assumption].
        assert (1 <= INR n) by (change 1 with (INR 1); apply le_INR; apply Hl; left; reflexivity).
        pose proof (sin_ge3 (3 / 320 * INR n) ltac:(lra)) as Sg. apply (Rmult_le_reg_r (INR n)); [lra|]. replace (sin (3 / 320 * INR n) * (1 / INR n) * INR n) with (sin (3 / 320 * INR n)) by (field; lra). nra. }
      apply G. intros n Hn. apply in_seq in Hn. lia. }
  assert (0 <= 3 / 320 / (2 * PI)) by (apply Rlt_le, Rdiv_lt_0_compat; lra).
  assert (1 / 2 <= Rsum (map (fun n => sin (3 / 320 * INR n) * (1 / INR n)) (seq 1 256)) / PI); [|lra].
  apply (Rmult_le_reg_r PI); [lra|]. unfold Rdiv at 2. rewrite Rmult_assoc, Rinv_l, Rmult_1_r by lra. lra.
Qed.
Lemma half_turn c N : jp_cum c N PI = 1 / 2.
Proof.
  pose proof PI_gt3. unfold jp_cum. rewrite (Rsum_ext_map _ (fun n => 0 * c n)); [rewrite Rsum_scal_map; field; lra|].
  intros n _. replace (sin (PI * INR n)) with 0; [ring|]. symmetry. apply sin_eq_0_1. exists (Z.of_nat n). rewrite <- INR_IZR_INZ. ring.
Qed.
Lemma quarter_term (m : nat) : sin (PI / 2 * INR (2 * m + 1)) = (-1) ^ m /\ sin (PI / 2 * INR (2 * m + 2)) = 0.
Proof.
  rewrite !plus_INR, !mult_INR. change (INR 2) with 2. change (INR 1) with 1. split.
  - replace (PI / 2 * (2 * INR m + 1)) with (PI / 2 + INR m * PI) by field. induction m as [|m IH].
    + change (INR 0) with 0. rewrite Rmult_0_l, Rplus_0_r, sin_PI2. reflexivity.
    + rewrite S_INR. replace (PI / 2 + (INR m + 1) * PI) with (PI / 2 + INR m * PI + PI) by ring. rewrite neg_sin, IH. cbn [pow]. ring.
  - apply sin_eq_0_1. exists (Z.of_nat m + 1)%Z. rewrite plus_IZR, <- INR_IZR_INZ. field.
Qed.
Lemma quarter_sum : forall m, Rsum (map (fun n => sin (PI / 2 * INR n) * (1 / INR n)) (seq 1 (2 * S m))) = sum_f_R0 (tg_alt PI_tg) m.
Proof.
  assert (T : forall m, sin (PI / 2 * INR (S (2 * m))) * (1 / INR (S (2 * m))) + sin (PI / 2 * INR (S (S (2 * m)))) * (1 / INR (S (S (2 * m)))) = tg_alt PI_tg m).
  { intros m. replace (S (S (2 * m))) with (2 * m + 2)%nat by lia. replace (S (2 * m)) with (2 * m + 1)%nat by lia. destruct (quarter_term m) as [-> ->]. unfold tg_alt, PI_tg.
    unfold Rdiv. ring. }
  induction m as [|m IH].
  - cbn [sum_f_R0]. rewrite <- (T 0%nat). change (2 * 1)%nat with 2%nat. change (2 * 0)%nat with 0%nat. cbn [seq map]. change (Rsum [?a; ?b]) with (a + (b + 0)). ring.
  - replace (2 * S (S m))%nat with (S (S (2 * S m))) by lia. rewrite !Rsum_seq_S, IH, Rplus_assoc, T. reflexivity.
Qed.
Lemma quarter_lt : jp_cum (fun _ => 1) 256 (PI / 2) < 1 / 2.
Proof.
  pose proof PI_gt3. unfold jp_cum. change 256%nat with (2 * S 127)%nat. rewrite quarter_sum.
  destruct (PI_ineq 64) as [L _]. change (S (2 * 64)) with (S (S 127)) in L. rewrite tech5, tech5 in L.
  assert (T1 : tg_alt PI_tg 128 = / 257). { unfold tg_alt, PI_tg. rewrite (pow_1_even 64 : (-1) ^ 128 = 1). rewrite Rmult_1_l. f_equal. rewrite INR_IZR_INZ. reflexivity. }
  assert (T2 : tg_alt PI_tg 129 = - / 259). { unfold tg_alt, PI_tg. rewrite (pow_1_odd 64 : (-1) ^ 129 = -1). replace (INR (2 * 129 + 1)) with 259 by (rewrite INR_IZR_INZ; reflexivity). ring. }
  rewrite T1, T2 in L. apply (Rmult_lt_reg_r PI); [lra|]. replace ((PI / 2 / (2 * PI) + sum_f_R0 (tg_alt PI_tg) 127 / PI) * PI) with (PI / 4 + sum_f_R0 (tg_alt PI_tg) 127) by (field; lra). lra.
Qed.
Lemma jp_cdf_decreases iv num lpmv quad : is_iv iv -> is_lpmv lpmv -> quad_exact quad (fun x => jp_kernel 14 (- 1) (x - 0)) (- PI) PI ->
  jp_cdf iv num lpmv quad PI 14 (- 1) (PI + 3 / 320) = 1 /\ jp_cdf iv num lpmv quad PI 14 (- 1) (3 * (PI / 2)) < 1.
Proof.
  intros Hiv Hl Hq. pose proof PI_gt3. pose proof PI_4. set (a := jp_coeff (jp_pdf iv lpmv quad 0 14 (- 1))).
  assert (A : forall n, a n = 1) by (intros n; apply sharp_one; assumption). pose proof (last_full a A) as EN.
  assert (EC : forall t, jp_cum a 256 t = jp_cum (fun _ => 1) 256 t) by (intros t; unfold jp_cum; f_equal; f_equal; apply Rsum_ext_map; intros n _; rewrite A; reflexivity).
  assert (V : forall phi, 0 < phi < PI -> jp_cdf iv num lpmv quad PI 14 (- 1) (PI + phi) = clip (1 / 2 + jp_cum (fun _ => 1) 256 phi) 0 1).
  { intros phi Hp. unfold jp_cdf. rewrite (proj2 (Rltb_false 14 _)), (proj2 (Rltb_false (Rabs (- 1)) _)) by (try apply ptolm1; unfold jp_ktol; lra). cbv zeta. fold a. rewrite EN.
    replace (pymod (- PI) (2 * PI)) with PI by (symmetry; apply pymod_unique; [lra|exists (-1)%Z; lra]).
    replace (PI + phi - PI) with phi by ring. rewrite pymod_small by lra. rewrite (proj2 (Rleb_false _ _)) by lra. rewrite !EC, half_turn. f_equal. field. }
  split.
  - rewrite V by lra. pose proof overshoot. unfold clip. rewrite Rmax_left, Rmin_right by lra. reflexivity.
  - replace (3 * (PI / 2)) with (PI + PI / 2) by field. rewrite V by lra. pose proof quarter_lt. unfold clip, Rmin, Rmax. repeat destruct (Rle_dec _ _); lra.
Qed.
