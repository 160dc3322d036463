(** At the largest concentration the clipped table makes the cdf fall. *)
From Verif Require Import Prelude NpModel NpProofs CircleSpec IntSpec IntProofs DistModel DistSpec DistProofs Dist2Proofs Dist4Proofs Dist5Proofs
  Dist6Proofs Dist7Proofs KjProofs Kj2Proofs Von3Proofs Von4Proofs JpProofs Jp3Proofs Wn3Proofs Wn6Proofs Ws3Proofs GaussProofs Von6Proofs Jp5Proofs
  FtModel FtSpec FtProofs Ft2Proofs Ft4Proofs Ft5Proofs Ft6Proofs.

Lemma ceil_log2_512 : ceil_log2 512 = 9%nat.
Proof.
  unfold ceil_log2. assert (L : ln 512 / ln 2 = 9).
  { replace 512 with (2 ^ 9) by lra. rewrite ln_pow by lra. pose proof Ws2Proofs.ln2_range. rewrite INR_IZR_INZ. replace (Z.of_nat 9) with 9%Z by reflexivity. field. lra. }
  rewrite L, (Rfloor_unique _ (- 9)) by lra. reflexivity.
Qed.
Lemma ft_size_small kappa nu : (1 + Rabs nu) * sqrt (Rmax kappa 0 + 1) <= 37 -> ft_size kappa nu = 512%nat.
Proof.
  intros B. unfold ft_size. cbv zeta. replace (clip (64 + 12 * ((1 + Rabs nu) * sqrt (Rmax kappa 0 + 1))) 512 8192) with 512.
  - rewrite ceil_log2_512. change (2 ^ 9)%nat with 512%nat. rewrite Nat.max_l by lia. apply Nat.min_l. change 512%nat with (Z.to_nat 512). apply Z2Nat.inj_le; lia.
  - symmetry. unfold clip. rewrite Rmax_right by lra. apply Rmin_left. lra.
Qed.
Lemma ft_size_1000 : ft_size 1000 0 = 512%nat.
Proof.
  apply ft_size_small. rewrite Rabs_R0, Rmax_left by lra. assert (sqrt (1000 + 1) <= sqrt (37 * 37)) by (apply sqrt_le_1_alt; lra). rewrite sqrt_square in H by lra. lra.
Qed.
Lemma trap_reflect N p i : (i <= N)%nat -> trap_cum N (fun j => p (N - j)%nat) i = trap_cum N p N - trap_cum N p (N - i).
Proof.
  induction i as [|i IH]; intros Hi; [rewrite trap_cum_0, Nat.sub_0_r; ring|]. rewrite trap_cum_S, IH by lia.
  replace (N - i)%nat with (S (N - S i)) by lia. rewrite trap_cum_S. ring.
Qed.
Lemma trap_nonneg N p i : (0 < N)%nat -> (forall k, 0 <= p k) -> 0 <= trap_cum N p i.
Proof. intros HN H. rewrite <- (trap_cum_0 N p). apply trap_cum_mono; [exact HN|exact H|lia]. Qed.
Lemma trap_ext_le N p q i : (0 < N)%nat -> (forall k, (k <= i)%nat -> p k <= q k) -> trap_cum N p i <= trap_cum N q i.
Proof.
  intros HN H. induction i as [|i IH]; [rewrite !trap_cum_0; lra|]. rewrite !trap_cum_S. pose proof (step_pos N HN). pose proof (H i ltac:(lia)). pose proof (H (S i) ltac:(lia)).
  specialize (IH ltac:(intros; apply H; lia)). nra.
Qed.
(** The exact node densities of kappa = 1000, nu = 0. *)
Definition pk (j : nat) : R := ft_shape 1000 0 (node 512 j) / ft_T 1000 0.
Definition pc (j : nat) : R := ft_node_pdf 1000 0 j.
Lemma ft_T_1000 : ft_T 1000 0 = trap_cum 512 (fun j => ft_shape 1000 0 (node 512 j)) 512.
Proof. unfold ft_T. rewrite ft_size_1000. reflexivity. Qed.
Lemma INR_512 : INR 512 = 512. Proof. rewrite INR_IZR_INZ. reflexivity. Qed.
Lemma node_256 : node 512 256 = 0.
Proof. unfold node. rewrite INR_512. replace (INR 256) with 256 by (rewrite INR_IZR_INZ; reflexivity). field. Qed.
Lemma node_384 : node 512 384 = PI / 2.
Proof. unfold node. rewrite INR_512. replace (INR 384) with 384 by (rewrite INR_IZR_INZ; reflexivity). field. Qed.
Lemma node_sub j : (j <= 512)%nat -> node 512 (512 - j) = - node 512 j.
Proof. intros H. unfold node. rewrite minus_INR by exact H. rewrite INR_512. field. Qed.
Lemma pk_total : trap_cum 512 pk 512 = 1.
Proof.
  unfold pk. rewrite (trap_cum_ext 512 _ (fun j => / ft_T 1000 0 * ft_shape 1000 0 (node 512 j))) by (intros; unfold Rdiv; ring).
  rewrite trap_cum_scal, <- ft_T_1000. pose proof (ft_T_pos 1000 0). field. lra.
Qed.
Lemma pk_pos j : 0 < pk j.
Proof. apply Rdiv_lt_0_compat; [apply exp_pos|apply ft_T_pos]. Qed.
Lemma pk_half : trap_cum 512 pk 256 = 1 / 2.
Proof.
  pose proof (trap_reflect 512 pk 256 ltac:(lia)) as E. change (512 - 256)%nat with 256%nat in E. rewrite pk_total in E.
  rewrite (trap_cum_ext 512 _ pk) in E; [lra|]. intros j Hj. unfold pk. rewrite node_sub by lia. unfold ft_shape. rewrite ft_log_even. reflexivity.
Qed.
Lemma ft_T_1000_lo : exp 1000 / 200 <= ft_T 1000 0.
Proof.
  rewrite ft_T_1000. pose proof PI_gt3.
  assert (Q : trap_cum 512 (fun j => ft_shape 1000 0 (node 512 j)) 256 <= trap_cum 512 (fun j => ft_shape 1000 0 (node 512 j)) 512) by (apply trap_cum_mono; [lia|intros; left; apply exp_pos|lia]).
  change 256%nat with (S 255) in Q at 1. rewrite trap_cum_S in Q.
  assert (0 <= trap_cum 512 (fun j => ft_shape 1000 0 (node 512 j)) 255) by (apply trap_nonneg; [lia|intros; left; apply exp_pos]).
  assert (E : ft_shape 1000 0 (node 512 256) = exp 1000). { rewrite node_256. unfold ft_shape, ft_log. rewrite sin_0, Rmult_0_r, Rplus_0_r, cos_0, Rmult_1_r. reflexivity. }
  change (S 255) with 256%nat in Q. rewrite E, INR_512 in Q. pose proof (exp_pos 1000). assert (0 < ft_shape 1000 0 (node 512 255)) by apply exp_pos. nra.
Qed.
Lemma pk_tail j : (384 <= j <= 512)%nat -> pk j <= 200 * exp (- 1000).
Proof.
  intros Hj. pose proof PI_gt3. pose proof ft_T_1000_lo as TL. pose proof (exp_pos 1000) as E0. pose proof (ft_T_pos 1000 0) as TP.
  assert (C : ft_shape 1000 0 (node 512 j) <= 1).
  { rewrite <- exp_0. unfold ft_shape, ft_log. apply expm_le. rewrite Rmult_0_l, Rplus_0_r.
    assert (cos (node 512 j) <= 0). { apply cos_le_0; [rewrite <- node_384; apply node_le; lia|]. pose proof (node_le 512 j 512 ltac:(lia) ltac:(lia)) as X. rewrite node_N in X by lia. lra. } lra. }
  unfold pk. apply Rmult_le_reg_r with (ft_T 1000 0); [exact TP|]. unfold Rdiv. rewrite Rmult_assoc, Rinv_l, Rmult_1_r by lra.
  assert (200 * exp (- 1000) * (exp 1000 / 200) <= 200 * exp (- 1000) * ft_T 1000 0) by (apply Rmult_le_compat_l; [pose proof (exp_pos (- 1000)); lra|exact TL]).
  replace (200 * exp (- 1000) * (exp 1000 / 200)) with (exp (- 1000) * exp 1000) in H0 by field. rewrite <- exp_plus in H0. replace (- 1000 + 1000) with 0 in H0 by ring. rewrite exp_0 in H0. lra.
Qed.
Lemma pc_bounds j : (j <= 512)%nat -> pk j <= pc j <= pk j + exp (- 700).
Proof.
  intros Hj. unfold pc, ft_node_pdf. rewrite ft_size_1000. cbv zeta.
  assert (LN : ft_lognorm 1000 0 <= - 700).
  { assert (E : ft_lognorm 1000 0 = - ln (ft_T 1000 0)) by (rewrite <- ln_Rinv, <- ft_norm_T, ln_exp by apply ft_T_pos; reflexivity). rewrite E.
    assert (ln (exp 700) <= ln (ft_T 1000 0)); [|rewrite ln_exp in H; lra]. apply ln_le_mono; [apply exp_pos|]. pose proof ft_T_1000_lo.
    replace 1000 with (700 + 300) in H at 1 by ring. rewrite exp_plus in H. pose proof (exp_ge1 300). pose proof (exp_pos 700). nra. }
  assert (G : forall i, pk i <= Rmax (exp (clip (ft_log 1000 0 (node 512 i) + ft_lognorm 1000 0) (- 700) 700)) ftiny <= pk i + exp (- 700)).
  { intros i. assert (Ek : pk i = exp (ft_log 1000 0 (node 512 i) + ft_lognorm 1000 0)) by (rewrite exp_plus, ft_norm_T; reflexivity). rewrite Ek.
    pose proof (ft_log_bound 1000 0 (node 512 i) ltac:(lra)) as B. apply abs_le_inv in B. set (l := ft_log 1000 0 (node 512 i) + ft_lognorm 1000 0) in *.
    assert (l <= 700) by (unfold l; lra). unfold clip. rewrite (Rmin_left (Rmax l (- 700)) 700) by (apply Rmax_lub; lra). pose proof ftiny_700. pose proof (exp_pos l). pose proof (exp_pos (- 700)). split.
    - eapply Rle_trans; [|apply Rmax_l]. apply expm_le, Rmax_l.
    - apply Rmax_lub; [|lra]. destruct (Rle_lt_dec l (- 700)); [rewrite Rmax_right by lra|rewrite Rmax_left by lra]; lra. }
  destruct (Nat.eqb_spec j 512) as [->|N]; [|apply G]. replace (pk 512) with (pk 0); [apply G|]. unfold pk. rewrite node_0, node_N by lia. unfold ft_shape. rewrite ft_log_even. reflexivity.
Qed.
Lemma pc_pos j : 0 < pc j.
Proof. unfold pc, ft_node_pdf. cbv zeta. destruct (Nat.eqb _ _); (eapply Rlt_le_trans; [|apply Rmax_l]; apply exp_pos). Qed.
Lemma e700 : exp (- 700) <= / 100 /\ 10 ^ 6 * exp (- 1000) <= exp (- 700).
Proof.
  split.
  - replace (- 700) with (- (700)) by lra. rewrite exp_Ropp. apply Rinv_le_contravar; [lra|]. pose proof (exp_ge1 700). lra.
  - replace (- 700) with (- 1000 + (100 + 100 + 100)) by ring. rewrite (exp_plus (- 1000)), Rmult_comm. apply Rmult_le_compat_l; [left; apply exp_pos|].
    rewrite !exp_plus. pose proof (exp_ge1 100). assert (10 ^ 4 <= exp 100 * exp 100) by nra.
    assert (10 ^ 4 * 100 <= exp 100 * exp 100 * exp 100) by (apply Rmult_le_compat; lra). lra.
Qed.
Lemma pk_384 : 1 - 2 * PI * (200 * exp (- 1000)) <= trap_cum 512 pk 384.
Proof.
  assert (G : forall i, (i <= 128)%nat -> trap_cum 512 pk (384 + i) <= trap_cum 512 pk 384 + INR i * (2 * PI / 512) * (200 * exp (- 1000))).
  { induction i as [|i IH]; intros Hi; [rewrite Nat.add_0_r; cbn [INR]; lra|]. rewrite Nat.add_succ_r, trap_cum_S, (S_INR i). specialize (IH ltac:(lia)).
    pose proof (pk_tail (384 + i) ltac:(lia)). pose proof (pk_tail (S (384 + i)) ltac:(lia)). pose proof (step_pos 512 ltac:(lia)) as SP. rewrite INR_512 in SP |- *. nra. }
  specialize (G 128%nat ltac:(lia)). change (384 + 128)%nat with 512%nat in G. rewrite pk_total in G.
  replace (INR 128) with 128 in G by (rewrite INR_IZR_INZ; reflexivity). pose proof PI_gt3. pose proof (exp_pos (- 1000)). nra.
Qed.
Lemma pc_384 : 1 <= trap_cum 512 pc 384.
Proof.
  assert (G : forall i, (i <= 511)%nat -> trap_cum 512 pk (S i) + 1 / 2 * (exp (- 700) - pk 0) * (2 * PI / 512) <= trap_cum 512 pc (S i)).
  { pose proof (step_pos 512 ltac:(lia)) as SP. rewrite INR_512 in SP. assert (E0 : exp (- 700) <= pc 0).
    { unfold pc, ft_node_pdf. rewrite ft_size_1000. cbv zeta. cbn [Nat.eqb]. eapply Rle_trans; [|apply Rmax_l]. apply expm_le. unfold clip. apply Rmin_glb; [apply Rmax_r|lra]. }
    induction i as [|i IH]; intros Hi.
    - rewrite !trap_cum_S, !trap_cum_0, INR_512. pose proof (pc_bounds 1 ltac:(lia)). nra.
    - rewrite (trap_cum_S 512 pk (S i)), (trap_cum_S 512 pc (S i)), INR_512. specialize (IH ltac:(lia)). pose proof (pc_bounds (S i) ltac:(lia)). pose proof (pc_bounds (S (S i)) ltac:(lia)). nra. }
  specialize (G 383%nat ltac:(lia)). pose proof pk_384 as K. change 384%nat with (S 383) in K |- *.
  assert (P0 : pk 0 <= 200 * exp (- 1000)). { replace (pk 0) with (pk 512); [apply pk_tail; lia|]. unfold pk. rewrite node_0, node_N by lia. unfold ft_shape. rewrite ft_log_even. reflexivity. }
  destruct e700 as [_ E]. pose proof PI_gt3. pose proof (exp_pos (- 1000)).
  assert (2 * PI * (200 * exp (- 1000)) <= 1 / 2 * (exp (- 700) - pk 0) * (2 * PI / 512)); [|lra].
  replace (1 / 2 * (exp (- 700) - pk 0) * (2 * PI / 512)) with (2 * PI * ((exp (- 700) - pk 0) / 1024)) by field. apply Rmult_le_compat_l; lra.
Qed.
Lemma pc_256 : 1 / 2 <= trap_cum 512 pc 256 < 1.
Proof.
  rewrite <- pk_half at 1. split; [apply trap_ext_le; [lia|intros k Hk; apply pc_bounds; lia]|].
  assert (G : forall i, (i <= 256)%nat -> trap_cum 512 pc i <= trap_cum 512 pk i + INR i * (2 * PI / 512) * exp (- 700)).
  { pose proof (step_pos 512 ltac:(lia)) as SP. rewrite INR_512 in SP.
    induction i as [|i IH]; intros Hi; [rewrite !trap_cum_0; cbn [INR]; lra|]. rewrite !trap_cum_S, (S_INR i), INR_512. specialize (IH ltac:(lia)).
    pose proof (pc_bounds i ltac:(lia)). pose proof (pc_bounds (S i) ltac:(lia)). nra. }
  specialize (G 256%nat (le_n _)). rewrite pk_half in G. replace (INR 256) with 256 in G by (rewrite INR_IZR_INZ; reflexivity).
  destruct e700 as [E _]. pose proof pi_hi. pose proof PI_gt3. pose proof (exp_pos (- 700)). nra.
Qed.
Lemma table_step N p i : (i < N)%nat -> (0 < N)%nat -> (forall j, 0 < p j) -> table_cdf N p i = clip (trap_cum N p i) 0 1.
Proof.
  intros Hi HN Hp. unfold table_cdf. rewrite (proj2 (Nat.eqb_neq i N)) by lia. apply node_max_mono. intros j Hj.
  pose proof (trap_cum_mono N p j (S j) HN ltac:(intros; left; apply Hp) ltac:(lia)) as M. unfold clip. apply Rle_min_compat_r, Rle_max_compat_r, M.
Qed.
Lemma ft_H_1000 pchip : is_pchip pchip -> 1 / 2 <= ft_H pchip 1000 0 0 < 1 /\ forall phi, PI / 2 <= phi < PI -> ft_H pchip 1000 0 phi = 1.
Proof.
  intros HP. pose proof PI_gt3. unfold ft_H. rewrite ft_size_1000. cbv zeta. change (ft_node_pdf 1000 0) with pc.
  destruct (HP 512%nat (node 512) (table_cdf 512 pc) ltac:(lia) (fun i _ => node_lt 512 i (S i) ltac:(lia) ltac:(lia))) as (P1 & P2 & P3 & P4). split.
  - rewrite <- node_256, P1 by lia. rewrite table_step by (try lia; apply pc_pos). pose proof pc_256. rewrite clip_id by lra. exact H0.
  - assert (C1 : forall i, (384 <= i <= 512)%nat -> table_cdf 512 pc i = 1).
    { intros i Hi. destruct (Nat.eq_dec i 512) as [->|N]; [unfold table_cdf; rewrite Nat.eqb_refl; reflexivity|]. rewrite table_step by (try lia; apply pc_pos).
      pose proof pc_384 as K. pose proof (trap_cum_mono 512 pc 384 i ltac:(lia) ltac:(intros; left; apply pc_pos) ltac:(lia)). unfold clip. rewrite Rmax_left by lra. apply Rmin_right. lra. }
    intros phi Hphi. destruct (cell_ro 512 phi ltac:(lia) ltac:(lra)) as (i & Hi & B).
    assert (384 <= i)%nat. { destruct (Nat.le_gt_cases 384 i) as [|X]; [assumption|]. pose proof (node_le 512 (S i) 384 ltac:(lia) ltac:(lia)) as Y. rewrite node_384 in Y. lra. }
    rewrite (P4 i phi); [apply C1; lia|lia|rewrite !C1 by lia; reflexivity|lra].
Qed.
Lemma ft_cdf_falls pchip : is_pchip pchip -> exists a, ft_public_cdf pchip (7 / 2) 1000 0 (7 / 2) = Fin a /\ 1 / 2 <= a /\ ft_public_cdf pchip (7 / 2) 1000 0 (11 / 2) = Fin 0.
Proof.
  intros HP. pose proof PI_gt3. pose proof pi_hi. destruct (ft_H_1000 pchip HP) as [J0 J1].
  assert (Hok : ft_ok (7 / 2) 1000 0 = true) by (apply ft_ok_spec; lra).
  assert (K : ft_ktol < 1000). { unfold ft_ktol. lra. }
  assert (W : forall x, 0 < x <= 11 / 2 -> ft_public_cdf pchip (7 / 2) 1000 0 x = Fin (from_zero (ft_H pchip 1000 0) (7 / 2) x)).
  { intros x Hx. unfold ft_public_cdf. rewrite Hok, public_cdf_fin. unfold pub_F. rewrite wrap_in by lra. rewrite (proj2 (Rleb_false _ _)), (proj2 (Rltb_true 0 x)) by lra.
    rewrite ft_cdf_flag by lra. rewrite flagged_miss; [reflexivity|]. rewrite Rabs_left by lra. lra. }
  assert (C : forall t y (z : Z), - PI <= y < PI -> t = y + 2 * PI * IZR z -> pymod (t + PI) (2 * PI) - PI = y).
  { intros t y z Hy ->. replace (y + 2 * PI * IZR z + PI) with (y + PI + 2 * PI * IZR z) by ring. rewrite pymod_add by lra. rewrite pymod_small by lra. ring. }
  assert (S0 : pymod (- (7 / 2) + PI) (2 * PI) - PI = 2 * PI - 7 / 2) by (apply (C _ _ (- 1)%Z); [lra|cbn; field]).
  exists (ft_H pchip 1000 0 0). rewrite !W by lra. unfold from_zero. cbv zeta. rewrite S0.
  replace (pymod (7 / 2 - 7 / 2 + PI) (2 * PI) - PI) with 0 by (symmetry; apply (C _ _ 0%Z); [lra|cbn; field]).
  replace (pymod (11 / 2 - 7 / 2 + PI) (2 * PI) - PI) with 2 by (symmetry; apply (C _ _ 0%Z); [lra|cbn; field]).
  rewrite (J1 (2 * PI - 7 / 2)), (J1 2) by lra. split; [|split; [lra|]].
  - rewrite (proj2 (Rltb_true _ _)) by lra. rewrite clip_id by lra. f_equal. ring.
  - rewrite (proj2 (Rltb_false 1 1)) by lra. rewrite clip_id by lra. f_equal. ring.
Qed.
