(** The envelope of the Jones-Pewsey sampler is above the density everywhere. *)
From Verif Require Import Prelude NpModel NpProofs UtilsModel DescModel Desc2Model Desc2Proofs CircleSpec IntSpec IntProofs DistModel DistSpec DistProofs Dist2Proofs Dist4Proofs Dist5Proofs
  Dist6Proofs Dist7Proofs Dist8Proofs KjProofs Kj2Proofs VonModel VonSpec VonProofs Von2Proofs Von3Proofs Von4Proofs Von6Proofs GaussProofs Ws2Proofs Ws3Proofs JpModel JpSpec JpProofs JsModel JsProofs.

(** ** Inequalities *)
Lemma ln_up x : 0 < x -> ln x <= x - 1.
Proof. intros H. pose proof (exp_ge1 (ln x)) as E. rewrite exp_ln in E by exact H. lra. Qed.
Lemma ln_low x : 0 < x -> 1 - / x <= ln x.
Proof. intros H. pose proof (ln_up (/ x) (Rinv_0_lt_compat _ H)) as E. rewrite ln_Rinv in E by exact H. lra. Qed.
Lemma ln1p_quad t : 0 <= t -> t - t ^ 2 / 2 <= ln (1 + t).
Proof.
  intros H. pose proof (mono_of_dlim (fun x => ln (1 + x) - x + x ^ 2 / 2) (fun x => / (1 + x) - 1 + x) 0 t) as M.
  assert (E : ln (1 + 0) - 0 + 0 ^ 2 / 2 <= ln (1 + t) - t + t ^ 2 / 2).
  { apply M; try lra.
    - intros x Hx. eapply dlim_eq; [|apply (dlim_plus (fun y => ln (1 + y) - y)); [apply (dlim_minus (fun y => ln (1 + y)) (fun y => y)); [apply (dlim_ln (fun y => 1 + y)); [lra|apply (dlim_plus (fun _ => 1) (fun y => y)); [apply dlim_const|apply dlim_id]]|apply dlim_id]|
        apply (dlim_divc 2 (fun y => y ^ 2)); apply (dlim_ext (fun y => y * y)); [intros; ring|apply (dlim_mult (fun y => y) (fun y => y)); apply dlim_id]]]. field. lra.
    - intros x Hx. assert (/ (1 + x) - 1 + x = x ^ 2 / (1 + x)) as -> by (field; lra). apply Rmult_le_pos; [apply pow2_ge_0|apply Rlt_le, Rinv_0_lt_compat; lra]. }
  replace (1 + 0) with 1 in E by lra. rewrite ln_1 in E. lra.
Qed.
Lemma ln3_up : ln 3 <= 6 / 5.
Proof.
  rewrite <- (ln_exp (6 / 5)). assert (H : 3 <= exp (6 / 5)).
  { replace (6 / 5) with (3 / 20 + 3 / 20 + 3 / 20 + 3 / 20 + 3 / 20 + 3 / 20 + 3 / 20 + 3 / 20) by lra. rewrite !exp_plus. pose proof (exp_ge1 (3 / 20)) as E. set (e := exp (3 / 20)) in *.
    assert (E2 : 1.3225 <= e * e) by nra. assert (E4 : 1.749 <= e * e * (e * e)) by nra. assert (3 <= e * e * (e * e) * (e * e * (e * e))) by nra. nra. }
  destruct H as [H| ->]; [left; apply ln_increasing; lra|lra].
Qed.
Lemma exp_chord A c : -1 <= c <= 1 -> exp (A * c) <= cosh A + sinh A * c.
Proof.
  intros H. assert (E : cosh A + sinh A * c = (1 + c) / 2 * exp A + (1 - c) / 2 * exp (- A)) by (unfold cosh, sinh; field).
  rewrite E. pose proof (exp_pos (A * c)) as P. pose proof (exp_ge1 (A * (1 - c))) as E1. pose proof (exp_ge1 (- (A * (1 + c)))) as E2.
  assert (F1 : exp A = exp (A * c) * exp (A * (1 - c))) by (rewrite <- exp_plus; f_equal; ring). assert (F2 : exp (- A) = exp (A * c) * exp (- (A * (1 + c)))) by (rewrite <- exp_plus; f_equal; ring).
  rewrite F1, F2. set (u := exp (A * (1 - c))) in *. set (v := exp (- (A * (1 + c)))) in *.
  assert (B : 1 <= (1 + c) / 2 * u + (1 - c) / 2 * v).
  { assert ((1 + c) / 2 * (1 + A * (1 - c)) <= (1 + c) / 2 * u) by (apply Rmult_le_compat_l; lra). assert ((1 - c) / 2 * (1 + - (A * (1 + c))) <= (1 - c) / 2 * v) by (apply Rmult_le_compat_l; lra). nra. }
  replace ((1 + c) / 2 * (exp (A * c) * u) + (1 - c) / 2 * (exp (A * c) * v)) with (exp (A * c) * ((1 + c) / 2 * u + (1 - c) / 2 * v)) by ring. nra.
Qed.
Lemma ln_chord A c : -1 <= c <= 1 -> A * c <= ln (cosh A + sinh A * c).
Proof.
  intros H. rewrite <- (ln_exp (A * c)). pose proof (exp_chord A c H) as [L|L]; [left; apply ln_increasing; [apply exp_pos|exact L]|rewrite L; lra].
Qed.
(** A lower bound of the Bessel function. *)
Lemma i0_arc iv k x : is_iv iv -> 0 <= k -> 0 < x <= PI -> x / PI * exp (k * cos x) <= iv 0%nat k.
Proof.
  intros H Hk Hx. pose proof PI_RGT_0 as P. pose proof (i0_int iv k H) as I.
  assert (C : forall t, continuity_pt (vE k) t).
  { intros t. unfold vE. apply (cont_comp exp (fun t => k * cos t)); [apply cont_mult; [apply cont_const|apply cos_cont]|apply exp_cont]. }
  destruct (continuous_integral (vE k) 0 x ltac:(lra) (fun t _ => C t)) as [v1 I1]. destruct (continuous_integral (vE k) x (2 * PI - x) ltac:(lra) (fun t _ => C t)) as [v2 I2].
  destruct (continuous_integral (vE k) (2 * PI - x) (2 * PI) ltac:(lra) (fun t _ => C t)) as [v3 I3].
  pose proof (integral_split _ _ _ _ _ _ (integral_split _ _ _ _ _ _ I1 I2) I3) as J. pose proof (integral_unique _ _ _ _ _ I J) as E.
  assert (B1 : exp (k * cos x) * (x - 0) <= v1).
  { refine (integral_le (fun _ => exp (k * cos x)) (vE k) 0 x _ _ ltac:(lra) _ (integral_const 0 x _) I1). intros t Ht. unfold vE. apply expm_le. apply Rmult_le_compat_l; [exact Hk|]. apply cos_decr_1; lra. }
  assert (B2 : 0 * (2 * PI - x - x) <= v2).
  { refine (integral_le (fun _ => 0) (vE k) x (2 * PI - x) _ _ ltac:(lra) _ (integral_const _ _ _) I2). intros t Ht. unfold vE. apply Rlt_le, exp_pos. }
  assert (B3 : exp (k * cos x) * (2 * PI - (2 * PI - x)) <= v3).
  { refine (integral_le (fun _ => exp (k * cos x)) (vE k) (2 * PI - x) (2 * PI) _ _ ltac:(lra) _ (integral_const _ _ _) I3). intros t Ht. unfold vE. apply expm_le. apply Rmult_le_compat_l; [exact Hk|].
    rewrite <- (cos_neg t), <- (cos_turns (- t) 1). replace (- t + 2 * PI * IZR 1) with (2 * PI - t) by (simpl; ring). apply cos_decr_1; lra. }
  apply Rmult_le_reg_l with (2 * PI); [lra|]. rewrite E. replace (2 * PI * (x / PI * exp (k * cos x))) with (2 * x * exp (k * cos x)) by (field; lra). lra.
Qed.
Lemma ln_i0_low iv k : is_iv iv -> 0 <= k -> k / 2 - 6 / 5 <= ln (iv 0%nat k).
Proof.
  intros H Hk. pose proof PI_RGT_0. pose proof (i0_arc iv k (PI / 3) H Hk ltac:(lra)) as B. rewrite cos_PI3 in B. replace (PI / 3 / PI) with (/ 3) in B by (field; lra).
  pose proof ln3_up. assert (E : ln (/ 3 * exp (k * (1 / 2))) = k / 2 - ln 3) by (rewrite ln_mult, ln_Rinv, ln_exp by (try apply exp_pos; lra); field).
  assert (Q : 0 < / 3 * exp (k * (1 / 2))) by (pose proof (exp_pos (k * (1 / 2))); lra).
  destruct B as [B|B]; [apply ln_increasing in B; [|exact Q]|rewrite <- B]; lra.
Qed.
Lemma ln_i0_half iv : is_iv iv -> ln (iv 0%nat (1 / 2)) <= 1 / 2.
Proof.
  intros H. pose proof (i0_le iv (1 / 2) H) as B. rewrite Rabs_pos_eq in B by lra. rewrite <- (ln_exp (1 / 2)) at 2. pose proof (i0_pos iv (1 / 2) H).
  destruct B as [B| ->]; [left; apply ln_increasing; assumption|lra].
Qed.

(** ** Nodes *)
Lemma node_0 : env_node 0 = 0. Proof. unfold env_node. simpl. ring. Qed.
Lemma node_half : env_node (Z.to_nat 1024) = PI.
Proof. unfold env_node. rewrite INR_IZR_INZ, Z2Nat.id by lia. field. Qed.
Lemma node_quarter : env_node (Z.to_nat 512) = PI / 2.
Proof. unfold env_node. rewrite INR_IZR_INZ, Z2Nat.id by lia. field. Qed.
Lemma node_below phi : 0 <= phi <= PI -> exists i, (i < Z.to_nat 2048)%nat /\ env_node i <= phi < env_node i + 2 * PI / 2048.
Proof.
  intros H. pose proof PI_RGT_0 as P. set (d := 2 * PI / 2048). assert (D : 0 < d) by (unfold d; lra). destruct (Rfloor_spec (phi / d)) as [F1 F2]. set (z := Rfloor (phi / d)) in *.
  assert (Q : 0 <= phi / d <= 1024).
  { split; [apply Rmult_le_pos; [lra|apply Rlt_le, Rinv_0_lt_compat, D]|]. apply Rmult_le_reg_r with d; [exact D|]. unfold Rdiv. rewrite Rmult_assoc, Rinv_l by lra. unfold d. lra. }
  assert (z0 : (0 <= z)%Z). { apply Z.lt_succ_r. apply lt_IZR. rewrite succ_IZR. lra. }
  assert (z1 : (z < 2048)%Z) by (apply lt_IZR; lra).
  exists (Z.to_nat z). split; [apply Z2Nat.inj_lt; lia|]. unfold env_node. rewrite INR_IZR_INZ, Z2Nat.id by exact z0. fold d.
  assert (E : phi = phi / d * d) by (field; lra). split; [rewrite E at 1; apply Rmult_le_compat_r; lra|]. rewrite E at 1. replace (IZR z * d + d) with ((IZR z + 1) * d) by ring. apply Rmult_lt_compat_r; lra.
Qed.
Lemma cos_lip1 a b : 0 <= a -> a <= b -> b <= PI -> 0 <= cos a - cos b <= b - a.
Proof.
  intros Ha Hab Hb. split; [pose proof (cos_decr_1 a b ltac:(lra) ltac:(lra) ltac:(lra) Hb Hab); lra|].
  pose proof (mono_of_dlim (fun x => x + cos x) (fun x => 1 - sin x) a b) as M. assert (E : a + cos a <= b + cos b); [|lra]. apply M; try lra.
  - intros x _. eapply dlim_eq; [|apply (dlim_plus (fun y => y) cos); [apply dlim_id|apply derivable_pt_lim_cos]]. ring.
  - intros x _. pose proof (SIN_bound x). lra.
Qed.

(** ** The log-ratio as a function of the cosine *)
Definition jp_gap (psi A K c : R) : R := 1 / psi * ln (cosh A + sinh A * c) - K * c.
Lemma base_pos A c : -1 <= c <= 1 -> 0 < cosh A + sinh A * c.
Proof. intros H. pose proof (exp_chord A c H). pose proof (exp_pos (A * c)). lra. Qed.
Lemma base_one A : cosh A + sinh A * 1 = exp A. Proof. rewrite <- cosh_sinh_p. ring. Qed.
Lemma base_mone A : cosh A + sinh A * -1 = exp (- A). Proof. rewrite <- cosh_sinh_m. ring. Qed.
(** psi < 0: the largest value is at one of the two ends. *)
Lemma gap_neg psi A K c : psi < 0 -> -1 <= c <= 1 -> jp_gap psi A K c <= jp_gap psi A K 1 \/ jp_gap psi A K c <= jp_gap psi A K (-1).
Proof.
  intros Hp Hc. unfold jp_gap. rewrite base_one, base_mone, !ln_exp. pose proof (ln_chord A c Hc) as L. assert (Ip : 1 / psi < 0) by (unfold Rdiv; rewrite Rmult_1_l; apply Rinv_lt_0_compat, Hp).
  set (q := 1 / psi) in *. set (l := ln (cosh A + sinh A * c)) in *. assert (B : q * l <= q * A * c) by nra. destruct (Rle_lt_dec 0 (q * A - K)) as [S|S]; [left|right]; nra.
Qed.
(** psi > 0: it is at an end, or at a zero of the derivative, close to a node. *)
Lemma gap_pos psi A K : 0 < psi -> 0 < A -> 0 < K -> K <= 5 \/ psi * K ^ 2 <= 2500 ->
  forall c, -1 <= c <= 1 -> exists i, (i < Z.to_nat 2048)%nat /\ jp_gap psi A K c <= jp_gap psi A K (cos (env_node i)) + ln (1 + 2 / 100).
Proof.
  intros Hp HA HK HB c Hc. assert (S : 0 < sinh A).
  { unfold sinh. pose proof (exp_increasing (- A) A ltac:(lra)). lra. }
  assert (L02 : 0 < ln (1 + 2 / 100)) by (rewrite <- ln_1; apply ln_increasing; lra).
  assert (Ip : 0 < 1 / psi) by (unfold Rdiv; rewrite Rmult_1_l; apply Rinv_0_lt_compat, Hp).
  set (b := sinh A / (psi * K)). assert (PK : 0 < psi * K) by nra. assert (B0 : 0 < b) by (apply Rdiv_lt_0_compat; assumption). assert (Eb : sinh A = b * (psi * K)) by (unfold b; field; split; lra).
  pose proof (base_pos A c Hc) as Pc.
  assert (Ec : cosh A + sinh A * c = b + sinh A * (c - (b / sinh A - cosh A / sinh A))) by (field; lra). set (cs := b / sinh A - cosh A / sinh A) in *.
  assert (Ecs : cosh A + sinh A * cs = b) by (unfold cs; field; lra).
  destruct (Rlt_le_dec 1 cs) as [C1|C1].
  - exists 0%nat. split; [lia|]. rewrite node_0, cos_0. unfold jp_gap. rewrite base_one.
    assert (X : exp A < b) by (rewrite <- (base_one A), <- Ecs; apply Rplus_lt_compat_l, Rmult_lt_compat_l; lra). pose proof (exp_pos A) as PA.
    pose proof (ln_low (exp A / (cosh A + sinh A * c)) (Rdiv_lt_0_compat _ _ PA Pc)) as L. unfold Rdiv in L at 2. rewrite ln_mult, ln_Rinv in L by (try apply Rinv_0_lt_compat; assumption).
    assert (E1 : / (exp A / (cosh A + sinh A * c)) = 1 - sinh A * (1 - c) / exp A).
    { rewrite <- base_one. field. pose proof (base_pos A 1 ltac:(lra)). split; lra. }
    rewrite E1 in L. assert (Q : psi * K * (1 - c) <= sinh A * (1 - c) / exp A).
    { apply Rmult_le_reg_r with (exp A); [exact PA|]. replace (sinh A * (1 - c) / exp A * exp A) with (sinh A * (1 - c)) by (field; lra). rewrite Eb. assert (0 <= psi * K * (1 - c)) by (apply Rmult_le_pos; lra). nra. }
    assert (W : K * (1 - c) <= 1 / psi * (ln (exp A) - ln (cosh A + sinh A * c))).
    { replace (K * (1 - c)) with (1 / psi * (psi * K * (1 - c))) by (field; lra). apply Rmult_le_compat_l; lra. }
    nra.
  - destruct (Rlt_le_dec cs (-1)) as [C2|C2].
    + exists (Z.to_nat 1024). split; [lia|]. rewrite node_half, cos_PI. unfold jp_gap. rewrite base_mone.
      assert (X : b < exp (- A)) by (rewrite <- (base_mone A), <- Ecs; apply Rplus_lt_compat_l, Rmult_lt_compat_l; lra). pose proof (exp_pos (- A)) as PA.
      pose proof (ln_up ((cosh A + sinh A * c) / exp (- A)) (Rdiv_lt_0_compat _ _ Pc PA)) as L. unfold Rdiv in L at 1. rewrite ln_mult, ln_Rinv in L by (try apply Rinv_0_lt_compat; assumption).
      assert (E1 : (cosh A + sinh A * c) / exp (- A) - 1 = sinh A * (1 + c) / exp (- A)) by (rewrite <- base_mone; field; pose proof (base_pos A (-1) ltac:(lra)); lra).
      rewrite E1 in L. assert (Q : sinh A * (1 + c) / exp (- A) <= psi * K * (1 + c)).
      { apply Rmult_le_reg_r with (exp (- A)); [exact PA|]. replace (sinh A * (1 + c) / exp (- A) * exp (- A)) with (sinh A * (1 + c)) by (field; lra). rewrite Eb. assert (0 <= psi * K * (1 + c)) by (apply Rmult_le_pos; lra). nra. }
      assert (W : 1 / psi * (ln (cosh A + sinh A * c) - ln (exp (- A))) <= K * (1 + c)).
      { replace (K * (1 + c)) with (1 / psi * (psi * K * (1 + c))) by (field; lra). apply Rmult_le_compat_l; lra. }
      nra.
    + destruct (node_below (acos cs) (acos_bound cs)) as (i & Hi & N1 & N2). exists i. split; [exact Hi|]. pose proof (acos_bound cs) as [_ Ab].
      assert (i0 : 0 <= env_node i) by (unfold env_node; pose proof (pos_INR i); pose proof PI_RGT_0; nra).
      pose proof (cos_lip1 _ _ i0 N1 Ab) as [D0 D1]. rewrite cos_acos in D0, D1 by lra. set (d := cos (env_node i) - cs) in *.
      assert (D2 : d <= 2 * PI / 2048) by lra. pose proof PI_4 as P4. assert (D3 : d <= 1 / 256) by lra.
      assert (A1 : jp_gap psi A K c <= jp_gap psi A K cs).
      { unfold jp_gap. rewrite Ecs. pose proof (ln_up ((cosh A + sinh A * c) / b) (Rdiv_lt_0_compat _ _ Pc B0)) as L. unfold Rdiv in L at 1. rewrite ln_mult, ln_Rinv in L by (try apply Rinv_0_lt_compat; assumption).
        assert (E1 : (cosh A + sinh A * c) / b - 1 = psi * K * (c - cs)) by (rewrite Ec, Eb; field; lra). rewrite E1 in L.
        assert (W : 1 / psi * (ln (cosh A + sinh A * c) - ln b) <= K * (c - cs)).
        { replace (K * (c - cs)) with (1 / psi * (psi * K * (c - cs))) by (field; lra). apply Rmult_le_compat_l; lra. }
        nra. }
      assert (A2 : jp_gap psi A K cs - jp_gap psi A K (cos (env_node i)) = K * d - 1 / psi * ln (1 + psi * K * d)).
      { unfold jp_gap. rewrite Ecs. assert (E2 : cosh A + sinh A * cos (env_node i) = b * (1 + psi * K * d)) by (replace (cos (env_node i)) with (cs + d) by (unfold d; ring); rewrite Rmult_plus_distr_l, <- Rplus_assoc, Ecs, Eb; ring).
        assert (0 <= psi * K * d) by (apply Rmult_le_pos; lra). rewrite E2, ln_mult by lra. replace (cos (env_node i)) with (cs + d) by (unfold d; ring). ring. }
      pose proof (ln_low (1 + 2 / 100) ltac:(lra)) as L2. assert (Hd : 0 <= psi * K * d) by (apply Rmult_le_pos; lra).
      assert (B : K * d - 1 / psi * ln (1 + psi * K * d) <= ln (1 + 2 / 100)).
      { destruct HB as [HB|HB].
        - assert (0 <= ln (1 + psi * K * d)) by (rewrite <- ln_1; destruct Hd as [Hd|Hd]; [left; apply ln_increasing; lra|rewrite <- Hd, Rplus_0_r; lra]).
          assert (K * d <= 5 * (1 / 256)) by (apply Rmult_le_compat; lra). assert (0 <= 1 / psi * ln (1 + psi * K * d)) by (apply Rmult_le_pos; lra). lra.
        - pose proof (ln1p_quad _ Hd) as Lq. assert (W : K * d - psi * K ^ 2 * (d ^ 2 / 2) <= 1 / psi * ln (1 + psi * K * d)).
          { replace (K * d - psi * K ^ 2 * (d ^ 2 / 2)) with (1 / psi * (psi * K * d - (psi * K * d) ^ 2 / 2)) by (field; lra). apply Rmult_le_compat_l; lra. }
          assert (D4 : d ^ 2 / 2 <= 1 / 131072) by nra. assert (0 <= d ^ 2 / 2) by nra. assert (0 <= psi * K ^ 2) by nra.
          assert (psi * K ^ 2 * (d ^ 2 / 2) <= 2500 * (1 / 131072)) by (apply Rmult_le_compat; lra). lra. }
      lra.
Qed.
