(** wrapnorm: the sums over turns and the cosine series have the same limit. *)
From Verif Require Import Prelude NpModel NpProofs UtilsModel UtilsProofs DescModel DescProofs CircleSpec IntSpec IntProofs DistModel DistSpec DistProofs Dist2Proofs Dist4Proofs Dist5Proofs
  Dist6Proofs Dist7Proofs Dist8Proofs KjProofs Kj2Proofs Kj6Proofs Kj7Proofs Von2Proofs Von3Proofs Von6Proofs WnModel WnSpec WnProofs FourierProofs GaussProofs Wn2Proofs Wn3Proofs.

Definition uN (Phi : R -> R) (m sg : R) (N : nat) (x : R) : R := wF Phi m sg N x - GN (rho_of sg) m N x.
Definition uN' (m sg : R) (N : nat) (x : R) : R := wf m sg N x - cpoly (fun p => rho_of sg ^ (p ^ 2)) N (x - m).
Lemma uN_d Phi m sg N x : is_ndtr Phi -> derivable_pt_lim (uN Phi m sg N) x (uN' m sg N x).
Proof. intros H. apply dlim_minus; [apply wF_d, H|apply GN_d]. Qed.
Lemma uN'_cont m sg N x : continuity_pt (uN' m sg N) x.
Proof. apply continuity_pt_minus; [apply wf_cont|]. apply (continuity_shift (cpoly (fun p => rho_of sg ^ (p ^ 2)) N)), cpoly_cont. Qed.
Lemma uN_cont Phi m sg N x : is_ndtr Phi -> continuity_pt (uN Phi m sg N) x.
Proof. intros H. eapply dlim_cont, uN_d, H. Qed.
Lemma uN_0 Phi m sg N : uN Phi m sg N 0 = 0.
Proof. unfold uN. rewrite wF_0, GN_0. ring. Qed.

Lemma u_unif0 Phi m sg J e : is_ndtr Phi -> 0 < sg -> 0 < e ->
  exists N0, forall k x, 0 <= x <= 2 * PI * INR J -> Rabs (uN Phi m sg (k + N0) x - uN Phi m sg N0 x) <= e.
Proof.
  intros H Hs He. pose proof (rho_of_range sg Hs) as Hr. set (r := rho_of sg) in *.
  destruct (wF_turns_lim Phi m sg J (e / 2) H Hs ltac:(lra)) as [N1 H1].
  destruct (pow_lt_1_zero r ltac:(rewrite Rabs_pos_eq; lra) (e / 2 * (1 - r)) ltac:(apply Rmult_lt_0_compat; lra)) as [N2 H2].
  exists (N1 + N2)%nat. intros k x Hx. set (N := (N1 + N2)%nat). specialize (H1 N ltac:(unfold N; lia)). specialize (H2 (S N) ltac:(unfold N; lia)).
  rewrite Rabs_pos_eq in H2 by (apply pow_le; lra).
  pose proof (wF_diff_incr Phi m sg N k x (2 * PI * INR J) H Hs ltac:(lra)) as D. pose proof (wF_turns_le Phi m sg (k + N) J H) as D2.
  pose proof (wF_more Phi m sg N (k + N) x H Hs ltac:(lia) ltac:(lra)) as D3. pose proof (GN_cauchy r m N k x Hr) as G.
  assert (Pk : 0 <= r ^ (k + S N)) by (apply pow_le; lra).
  assert (G2 : Rabs (GN r m (k + N) x - GN r m N x) <= e / 2).
  { apply Rmult_le_reg_r with (1 - r); lra. }
  unfold uN. fold r. apply abs_le_inv in G2. apply Rabs_le. lra.
Qed.
Lemma u_unif Phi m sg J e : is_ndtr Phi -> 0 < sg -> 0 < e ->
  exists N0, forall N M x, (N0 <= N)%nat -> (N0 <= M)%nat -> 0 <= x <= 2 * PI * INR J -> Rabs (uN Phi m sg N x - uN Phi m sg M x) <= e.
Proof.
  intros H Hs He. destruct (u_unif0 Phi m sg J (e / 2) H Hs ltac:(lra)) as [N0 H0]. exists N0. intros N M x HN HM Hx.
  pose proof (H0 (N - N0)%nat x Hx) as A. pose proof (H0 (M - N0)%nat x Hx) as B.
  replace (N - N0 + N0)%nat with N in A by lia. replace (M - N0 + N0)%nat with M in B by lia.
  apply abs_le_inv in A. apply abs_le_inv in B. apply Rabs_le. lra.
Qed.
Lemma u_turn Phi m sg x e : is_ndtr Phi -> 0 < sg -> 0 < e ->
  exists N0, forall N, (N0 <= N)%nat -> Rabs (uN Phi m sg N (x + 2 * PI) - uN Phi m sg N x) <= e.
Proof.
  intros H Hs He. destruct (wU_lim Phi m sg (e / 2) H Hs ltac:(lra)) as (M & HM & L). pose proof PI_gt3 as HPI.
  destruct (INR_unbounded (M + Rabs x)) as [N0 H0]. exists N0. intros N HN.
  assert (B : M + Rabs x < INR N) by (eapply Rlt_le_trans; [exact H0|apply le_INR; lia]).
  pose proof (Rabs_pos x). pose proof (Rle_abs x). pose proof (Rle_abs (- x)) as Q. rewrite Rabs_Ropp in Q.
  unfold uN. rewrite wF_turn, GN_turn, S_INR.
  destruct (L (x + 2 * PI * (INR N + 1)) ltac:(nra)) as [A1 _]. destruct (L (2 * PI * INR N - x) ltac:(nra)) as [_ A2].
  replace (- (2 * PI * INR N - x)) with (x - 2 * PI * INR N) in A2 by ring.
  pose proof (wU_range Phi m sg (x + 2 * PI * (INR N + 1)) H). pose proof (wU_range Phi m sg (x - 2 * PI * INR N) H). apply Rabs_le. lra.
Qed.
Lemma u_cauchy Phi m sg k x : is_ndtr Phi -> 0 < sg -> 0 <= x + 2 * PI * INR k -> Cauchy_crit (fun N => uN Phi m sg N x).
Proof.
  intros H Hs. revert x. induction k as [|k IH]; intros x Hx.
  - cbn [INR] in Hx. pose proof PI_gt3 as HPI. destruct (INR_unbounded x) as [J HJ]. intros e He.
    destruct (u_unif Phi m sg J (e / 2) H Hs ltac:(lra)) as [N0 H0]. exists N0. intros n p Hn Hp. unfold R_dist.
    pose proof (pos_INR J). assert (x <= 2 * PI * INR J) by nra. eapply Rle_lt_trans; [apply H0; try assumption; lra|lra].
  - rewrite S_INR in Hx. assert (C : Cauchy_crit (fun N => uN Phi m sg N (x + 2 * PI))) by (apply IH; lra).
    intros e He. destruct (C (e / 3) ltac:(lra)) as [N1 H1]. destruct (u_turn Phi m sg x (e / 4) H Hs ltac:(lra)) as [N2 H2].
    exists (N1 + N2)%nat. intros n p Hn Hp. specialize (H1 n p ltac:(lia) ltac:(lia)).
    pose proof (H2 n ltac:(lia)) as A. pose proof (H2 p ltac:(lia)) as B. unfold R_dist in *.
    apply abs_le_inv in A. apply abs_le_inv in B. apply Rabs_def2 in H1. apply Rabs_def1; lra.
Qed.
Lemma u_cauchy_all Phi m sg x : is_ndtr Phi -> 0 < sg -> Cauchy_crit (fun N => uN Phi m sg N x).
Proof.
  intros H Hs. destruct (INR_unbounded (Rabs x)) as [k Hk]. apply (u_cauchy Phi m sg k); try assumption.
  pose proof PI_gt3 as HPI. pose proof (Rle_abs (- x)) as Q. rewrite Rabs_Ropp in Q. pose proof (pos_INR k). nra.
Qed.
Definition uh (Phi : R -> R) (m sg : R) (H : is_ndtr Phi) (Hs : 0 < sg) (x : R) : R := proj1_sig (R_complete _ (u_cauchy_all Phi m sg x H Hs)).
Lemma uh_cv Phi m sg H Hs x : Un_cv (fun N => uN Phi m sg N x) (uh Phi m sg H Hs x).
Proof. unfold uh. destruct (R_complete _ (u_cauchy_all Phi m sg x H Hs)) as [l Hl]. exact Hl. Qed.
Lemma uh_unif Phi m sg H Hs J e : 0 < e -> exists N0, forall N x, (N0 <= N)%nat -> 0 <= x <= 2 * PI * INR J -> Rabs (uN Phi m sg N x - uh Phi m sg H Hs x) <= e.
Proof.
  intros He. destruct (u_unif Phi m sg J (e / 2) H Hs ltac:(lra)) as [N0 H0]. exists N0. intros N x HN Hx.
  destruct (uh_cv Phi m sg H Hs x (e / 2) ltac:(lra)) as [N1 H1]. specialize (H1 (N0 + N1)%nat ltac:(lia)). specialize (H0 N (N0 + N1)%nat x HN ltac:(lia) Hx).
  unfold R_dist in H1. apply Rabs_def2 in H1. apply abs_le_inv in H0. apply Rabs_le. lra.
Qed.
Lemma uh_turn Phi m sg H Hs x : uh Phi m sg H Hs (x + 2 * PI) = uh Phi m sg H Hs x.
Proof.
  apply (UL_sequence (fun N => uN Phi m sg N (x + 2 * PI))); [apply uh_cv|]. intros e He.
  destruct (uh_cv Phi m sg H Hs x (e / 2) ltac:(lra)) as [N1 H1]. destruct (u_turn Phi m sg x (e / 4) H Hs ltac:(lra)) as [N2 H2].
  exists (N1 + N2)%nat. intros n Hn. specialize (H1 n ltac:(lia)). specialize (H2 n ltac:(lia)). unfold R_dist in *.
  apply Rabs_def2 in H1. apply abs_le_inv in H2. apply Rabs_def1; lra.
Qed.
Lemma uh_nat Phi m sg H Hs x (k : nat) : uh Phi m sg H Hs (x + 2 * PI * INR k) = uh Phi m sg H Hs x.
Proof.
  induction k as [|k IH]; [cbn [INR]; f_equal; ring|]. rewrite S_INR. replace (x + 2 * PI * (INR k + 1)) with (x + 2 * PI * INR k + 2 * PI) by ring. rewrite uh_turn. exact IH.
Qed.
Lemma uh_per Phi m sg H Hs x (z : Z) : uh Phi m sg H Hs (x + 2 * PI * IZR z) = uh Phi m sg H Hs x.
Proof.
  destruct (Z_le_gt_dec 0 z) as [P|P].
  - replace z with (Z.of_nat (Z.to_nat z)) by lia. rewrite <- INR_IZR_INZ. apply uh_nat.
  - rewrite <- (uh_nat Phi m sg H Hs (x + 2 * PI * IZR z) (Z.to_nat (- z))). f_equal. rewrite INR_IZR_INZ, Z2Nat.id by lia. rewrite opp_IZR. ring.
Qed.
Lemma uh_cont_pos Phi m sg H Hs x : 0 < x -> continuity_pt (uh Phi m sg H Hs) x.
Proof.
  intros Hx e He. destruct (INR_unbounded (x + 1)) as [J HJ]. pose proof PI_gt3 as HPI. pose proof (pos_INR J) as PJ. assert (BJ : x + 1 < 2 * PI * INR J) by nra.
  destruct (uh_unif Phi m sg H Hs J (e / 4) ltac:(lra)) as [N0 H0]. specialize (H0 N0).
  destruct (uN_cont Phi m sg N0 x H (e / 4) ltac:(lra)) as (d & Hd & D). exists (Rmin d (Rmin x 1)).
  split; [repeat apply Rmin_pos; lra|]. intros y [Dy Hy]. cbn in Hy |- *. unfold R_dist in *.
  pose proof (Rmin_l d (Rmin x 1)). pose proof (Rmin_r d (Rmin x 1)). pose proof (Rmin_l x 1). pose proof (Rmin_r x 1).
  assert (D' : Rabs (uN Phi m sg N0 y - uN Phi m sg N0 x) < e / 4) by (apply (D y); split; [exact Dy|cbn; unfold R_dist; lra]).
  apply Rabs_def2 in Hy. pose proof (H0 y (le_n _) ltac:(lra)) as A. pose proof (H0 x (le_n _) ltac:(lra)) as B.
  apply abs_le_inv in A. apply abs_le_inv in B. apply Rabs_def2 in D'. apply Rabs_def1; lra.
Qed.
Lemma uh_cont Phi m sg H Hs x : continuity_pt (uh Phi m sg H Hs) x.
Proof.
  destruct (INR_unbounded (Rabs x)) as [k Hk]. pose proof PI_gt3 as HPI. pose proof (Rle_abs (- x)) as Q. rewrite Rabs_Ropp in Q. pose proof (pos_INR k).
  apply (cont_ext (fun y => uh Phi m sg H Hs (y - - (2 * PI * INR k)))).
  - intros y. rewrite <- (uh_nat Phi m sg H Hs y k). f_equal. ring.
  - apply (continuity_shift (uh Phi m sg H Hs)). apply uh_cont_pos. pose proof (Rabs_pos x). nra.
Qed.
Lemma uh_0 Phi m sg H Hs : uh Phi m sg H Hs 0 = 0.
Proof.
  apply (UL_sequence (fun N => uN Phi m sg N 0)); [apply uh_cv|]. intros e He. exists O. intros n _. rewrite uN_0. unfold R_dist. rewrite Rminus_diag_eq, Rabs_R0 by reflexivity. exact He.
Qed.

(** ** Coefficients *)
Lemma parts_cos u u' (n : nat) v w : (1 <= n)%nat -> (forall x, derivable_pt_lim u x (u' x)) -> (forall x, continuity_pt u' x) ->
  integral (fun t => cos (INR n * t) * u t) 0 (2 * PI) v -> integral (fun t => cos (INR n * t + - (PI / 2)) * u' t) 0 (2 * PI) w -> INR n * v = - w.
Proof.
  intros Hn D C Iv Iw. pose proof PI_RGT_0 as HP. assert (L : 0 <= 2 * PI) by lra. assert (P : 0 < INR n) by (apply lt_0_INR; lia).
  assert (Cu : forall x, continuity_pt u x) by (intros; eapply dlim_cont, D).
  assert (S1 : forall t, cos (INR n * t + - (PI / 2)) = sin (INR n * t)) by (intros t; rewrite cos_plus, cos_neg, sin_neg, cos_PI2, sin_PI2; ring).
  pose proof (integral_plus _ _ _ _ _ _ L (integral_scal _ _ _ (INR n) _ L Iv) Iw) as I1.
  assert (I2 : integral (fun x => INR n * (cos (INR n * x) * u x) + cos (INR n * x + - (PI / 2)) * u' x) 0 (2 * PI) (sin (INR n * (2 * PI)) * u (2 * PI) - sin (INR n * 0) * u 0)).
  { apply (ftc _ (fun t => sin (INR n * t) * u t)); [exact L| |].
    - intros. apply cont_plus; [apply cont_mult; [apply cont_const|apply cont_mult; [apply cos_n_cont|apply Cu]]|apply cont_mult; [apply cosc_cont|apply C]].
    - intros t _. eapply dlim_eq; [|apply dlim_mult; [apply dlim_sin, dlim_mulc|apply D]]. cbv beta. rewrite S1. ring. }
  pose proof (integral_unique _ _ _ _ _ I1 I2) as E.
  replace (INR n * (2 * PI)) with (0 + 2 * INR n * PI) in E by ring. rewrite sin_period, Rmult_0_r, sin_0 in E. lra.
Qed.
Lemma parts_sin u u' (n : nat) v w : (1 <= n)%nat -> (forall x, derivable_pt_lim u x (u' x)) -> (forall x, continuity_pt u' x) ->
  integral (fun t => sin (INR n * t) * u t) 0 (2 * PI) v -> integral (fun t => cos (INR n * t + 0) * u' t) 0 (2 * PI) w -> INR n * v = w - (u (2 * PI) - u 0).
Proof.
  intros Hn D C Iv Iw. pose proof PI_RGT_0 as HP. assert (L : 0 <= 2 * PI) by lra. assert (P : 0 < INR n) by (apply lt_0_INR; lia).
  assert (Cu : forall x, continuity_pt u x) by (intros; eapply dlim_cont, D).
  pose proof (integral_plus _ _ _ _ _ _ L (integral_scal _ _ _ (- INR n) _ L Iv) Iw) as I1.
  assert (I2 : integral (fun x => - INR n * (sin (INR n * x) * u x) + cos (INR n * x + 0) * u' x) 0 (2 * PI) (cos (INR n * (2 * PI)) * u (2 * PI) - cos (INR n * 0) * u 0)).
  { apply (ftc _ (fun t => cos (INR n * t) * u t)); [exact L| |].
    - intros. apply cont_plus; [apply cont_mult; [apply cont_const|apply cont_mult; [apply sin_n_cont|apply Cu]]|apply cont_mult; [apply cosc_cont|apply C]].
    - intros t _. eapply dlim_eq; [|apply dlim_mult; [apply dlim_cos, dlim_mulc|apply D]]. cbv beta. rewrite Rplus_0_r. ring. }
  pose proof (integral_unique _ _ _ _ _ I1 I2) as E.
  replace (INR n * (2 * PI)) with (0 + 2 * INR n * PI) in E by ring. rewrite cos_period, Rmult_0_r, cos_0 in E. lra.
Qed.
Lemma u'_coeff Phi m sg n c0 e : is_ndtr Phi -> 0 < sg -> 0 <= m <= 2 * PI -> (1 <= n)%nat -> 0 < e -> exists N0, forall N w, (N0 <= N)%nat ->
  integral (fun t => cos (INR n * t + c0) * uN' m sg N t) 0 (2 * PI) w -> Rabs w <= e.
Proof.
  intros H Hs Hm Hn He. pose proof PI_RGT_0 as HP. assert (L : 0 <= 2 * PI) by lra.
  destruct (wf_coeff_lim Phi m sg n c0 e H Hs He) as [N0 H0]. exists (N0 + n)%nat. intros N w HN Iw.
  destruct (continuous_integral (fun t => cos (INR n * t + c0) * wf m sg N t) 0 (2 * PI) L) as [v Iv]; [intros; apply cont_mult; [apply cosc_cont|apply wf_cont]|].
  pose proof (cpoly_coeff (rho_of sg) m N n c0 Hm Hn) as Ic. replace (Nat.leb n N) with true in Ic by (symmetry; apply Nat.leb_le; lia).
  specialize (H0 N v ltac:(lia) Iv). replace w with (v - rho_of sg ^ (n ^ 2) * cos (INR n * m + c0)); [exact H0|].
  apply (integral_unique (fun t => cos (INR n * t + c0) * uN' m sg N t) 0 (2 * PI)); [|exact Iw].
  refine (integral_val _ _ _ _ _ _ (integral_ext _ _ _ _ _ L _ (integral_lin _ _ _ _ (-1) _ _ Iv Ic))); [ring|]. intros t _. cbv beta. unfold uN'. ring.
Qed.
Lemma small_zero v : (forall e, 0 < e -> Rabs v <= e) -> v = 0.
Proof.
  intros H. destruct (Req_dec v 0) as [E|E]; [exact E|]. exfalso. pose proof (Rabs_pos_lt v E). specialize (H (Rabs v / 2) ltac:(lra)). lra.
Qed.
Lemma uh_coeff Phi m sg H Hs (g : R -> R) : (forall x, continuity_pt g x) -> (forall x, Rabs (g x) <= 1) ->
  (forall e, 0 < e -> exists N0, forall N v, (N0 <= N)%nat -> integral (fun t => g t * uN Phi m sg N t) 0 (2 * PI) v -> Rabs v <= e) ->
  integral (fun t => g t * uh Phi m sg H Hs t) 0 (2 * PI) 0.
Proof.
  intros Cg Bg HN. pose proof PI_gt3 as HP. pose proof PI_4 as HP4. assert (L : 0 <= 2 * PI) by lra.
  destruct (continuous_integral (fun t => g t * uh Phi m sg H Hs t) 0 (2 * PI) L) as [w Iw]; [intros; apply cont_mult; [apply Cg|apply uh_cont]|].
  replace 0 with w at 2; [exact Iw|]. apply small_zero. intros e He. destruct (HN (e / 2) ltac:(lra)) as [N1 H1].
  destruct (uh_unif Phi m sg H Hs 1 (e / 16) ltac:(lra)) as [N2 H2]. set (N := (N1 + N2)%nat). cbn [INR] in H2. rewrite Rmult_1_r in H2.
  destruct (continuous_integral (fun t => g t * uN Phi m sg N t) 0 (2 * PI) L) as [v Iv]; [intros; apply cont_mult; [apply Cg|apply uN_cont, H]|].
  specialize (H1 N v ltac:(unfold N; lia) Iv).
  assert (B : Rabs (v + (-1) * w) <= e / 16 * (2 * PI - 0)).
  { apply (integral_abs _ _ _ _ _ _ L) with (2 := integral_lin _ _ _ _ (-1) _ _ Iv Iw) (3 := integral_const 0 (2 * PI) (e / 16)).
    intros x Hx. cbv beta. specialize (H2 N x ltac:(unfold N; lia) Hx). specialize (Bg x).
    replace (g x * uN Phi m sg N x + -1 * (g x * uh Phi m sg H Hs x)) with (g x * (uN Phi m sg N x - uh Phi m sg H Hs x)) by ring.
    rewrite Rabs_mult. pose proof (Rabs_pos (g x)). pose proof (Rabs_pos (uN Phi m sg N x - uh Phi m sg H Hs x)). nra. }
  assert (e / 16 * (2 * PI - 0) <= e / 2) by nra. apply abs_le_inv in B. apply abs_le_inv in H1. apply Rabs_le. lra.
Qed.
Lemma uh_zero Phi m sg H Hs : 0 <= m <= 2 * PI -> forall x, uh Phi m sg H Hs x = 0.
Proof.
  intros Hm. pose proof PI_RGT_0 as HP. assert (L : 0 <= 2 * PI) by lra.
  apply (fourier_const (uh Phi m sg H Hs) 0); [apply uh_cont|apply uh_per| |apply uh_0].
  intros n Hn. assert (P : 1 <= INR n) by (change 1 with (INR 1); apply le_INR; exact Hn). split.
  - apply uh_coeff; [intros; apply cos_n_cont|intros; apply Rabs_le, COS_bound|]. intros e He.
    destruct (u'_coeff Phi m sg n (- (PI / 2)) e H Hs Hm Hn He) as [N0 H0]. exists N0. intros N v HN Iv.
    destruct (continuous_integral (fun t => cos (INR n * t + - (PI / 2)) * uN' m sg N t) 0 (2 * PI) L) as [w Iw]; [intros; apply cont_mult; [apply cosc_cont|apply uN'_cont]|].
    specialize (H0 N w HN Iw). pose proof (parts_cos _ _ n v w Hn (fun x => uN_d Phi m sg N x H) (uN'_cont m sg N) Iv Iw) as E.
    apply abs_le_inv in H0. apply Rabs_le. split; nra.
  - apply uh_coeff; [intros; apply sin_n_cont|intros; apply Rabs_le, SIN_bound|]. intros e He.
    destruct (u'_coeff Phi m sg n 0 (e / 2) H Hs Hm Hn ltac:(lra)) as [N0 H0]. destruct (u_turn Phi m sg 0 (e / 2) H Hs ltac:(lra)) as [N1 H1].
    exists (N0 + N1)%nat. intros N v HN Iv.
    destruct (continuous_integral (fun t => cos (INR n * t + 0) * uN' m sg N t) 0 (2 * PI) L) as [w Iw]; [intros; apply cont_mult; [apply cosc_cont|apply uN'_cont]|].
    specialize (H0 N w ltac:(lia) Iw). pose proof (parts_sin _ _ n v w Hn (fun x => uN_d Phi m sg N x H) (uN'_cont m sg N) Iv Iw) as E.
    specialize (H1 N ltac:(lia)). rewrite Rplus_0_l in H1. apply abs_le_inv in H0. apply abs_le_inv in H1. apply Rabs_le. split; nra.
Qed.
(** The sums over turns minus the integrated series tend to zero, at every point. *)
Lemma poisson Phi m sg x : is_ndtr Phi -> 0 < sg -> 0 <= m <= 2 * PI -> Un_cv (fun N => wF Phi m sg N x - GN (rho_of sg) m N x) 0.
Proof. intros H Hs Hm. rewrite <- (uh_zero Phi m sg H Hs Hm x). apply uh_cv. Qed.
