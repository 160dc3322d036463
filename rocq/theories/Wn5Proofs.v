(** wrapnorm: accuracy of the sums over turns, sign of the truncated series. *)
From Coq Require Import Machin.
From Verif Require Import Prelude NpModel NpProofs UtilsModel UtilsProofs DescModel DescProofs CircleSpec IntSpec IntProofs DistModel DistSpec DistProofs Dist2Proofs Dist4Proofs Dist5Proofs
  Dist6Proofs Dist7Proofs Dist8Proofs KjProofs Kj2Proofs Kj6Proofs Kj7Proofs Von2Proofs Von3Proofs Von6Proofs WnModel WnSpec WnProofs FourierProofs GaussProofs Wn2Proofs Wn3Proofs Wn4Proofs.

(** ** Tail of the series *)
Lemma GN_tail r m N k x : 0 < r < 1 -> Rabs (GN r m (k + N) x - GN r m N x) * (1 - r) <= 2 / (3 * INR (S N)) * r ^ (S N ^ 2) * (1 - r ^ k).
Proof.
  intros Hr. pose proof PI_gt3 as HP. assert (P0 : 1 <= INR (S N)) by (change 1 with (INR 1); apply le_INR; lia).
  induction k as [|k IH]; cbn [Nat.add]; [rewrite Rminus_diag_eq, Rabs_R0 by reflexivity; cbn [pow]; lra|].
  cbn [GN]. replace (S (k + N)) with (k + S N)%nat by lia.
  set (M := (k + S N)%nat) in *. assert (P : INR (S N) <= INR M) by (apply le_INR; unfold M; lia).
  set (d := r ^ (M ^ 2) / (PI * INR M) * (sin (INR M * (x - m)) + sin (INR M * m))). set (c := 2 / (3 * INR (S N)) * r ^ (S N ^ 2)) in *.
  assert (Pc : 0 < r ^ (S N ^ 2)) by (apply pow_lt; lra). assert (Pk : 0 < r ^ k) by (apply pow_lt; lra).
  assert (Hd : Rabs d <= c * r ^ k).
  { unfold d. rewrite Rabs_mult. assert (A : r ^ (M ^ 2) <= r ^ (S N ^ 2) * r ^ k).
    { rewrite <- pow_add. apply pow_mono_dec; [lra|]. unfold M. cbn [Nat.pow]. nia. }
    assert (PM : 0 < r ^ (M ^ 2)) by (apply pow_lt; lra). assert (0 < PI * INR M) by nra.
    rewrite (Rabs_pos_eq (r ^ (M ^ 2) / (PI * INR M))) by (apply Rlt_le, Rdiv_lt_0_compat; assumption).
    pose proof (SIN_bound (INR M * (x - m))). pose proof (SIN_bound (INR M * m)).
    assert (S2 : Rabs (sin (INR M * (x - m)) + sin (INR M * m)) <= 2) by (apply Rabs_le; lra).
    apply Rle_trans with (r ^ (M ^ 2) / (PI * INR M) * 2); [apply Rmult_le_compat_l; [apply Rlt_le, Rdiv_lt_0_compat; assumption|exact S2]|].
    apply Rle_trans with (r ^ (S N ^ 2) * r ^ k * / (3 * INR (S N)) * 2).
    - apply Rmult_le_compat_r; [lra|]. apply Rmult_le_compat; [lra|apply Rlt_le, Rinv_0_lt_compat; assumption|exact A|]. apply Rinv_le_contravar; nra.
    - right. unfold c. field. lra. }
  replace (GN r m (k + N) x + d - GN r m N x) with ((GN r m (k + N) x - GN r m N x) + d) by ring.
  pose proof (Rabs_triang (GN r m (k + N) x - GN r m N x) d) as T. change (r ^ S k) with (r * r ^ k).
  set (A := Rabs (GN r m (k + N) x - GN r m N x + d)) in *. set (B := Rabs (GN r m (k + N) x - GN r m N x)) in *.
  assert (A * (1 - r) <= (B + c * r ^ k) * (1 - r)) by (apply Rmult_le_compat_r; lra). lra.
Qed.
Lemma GN_tail2 r m N M x : 0 < r < 1 -> (N <= M)%nat -> Rabs (GN r m M x - GN r m N x) <= 2 / (3 * INR (S N)) * r ^ (S N ^ 2) / (1 - r).
Proof.
  intros Hr L. pose proof (GN_tail r m N (M - N) x Hr) as T. replace (M - N + N)%nat with M in T by lia.
  assert (P0 : 0 < INR (S N)) by (apply lt_0_INR; lia). assert (Pc : 0 < r ^ (S N ^ 2)) by (apply pow_lt; lra). assert (Pk : 0 < r ^ (M - N)) by (apply pow_lt; lra).
  set (c := 2 / (3 * INR (S N)) * r ^ (S N ^ 2)) in *. assert (0 < c) by (apply Rmult_lt_0_compat; [apply Rdiv_lt_0_compat; lra|lra]).
  apply Rmult_le_reg_r with (1 - r); [lra|]. replace (c / (1 - r) * (1 - r)) with c by (field; lra). nra.
Qed.
Lemma GN_int mu rho x v : 0 <= x -> integral (wn_pdf mu rho) 0 x v -> v = GN rho mu 29 x.
Proof.
  intros Hx I. apply (integral_unique (wn_pdf mu rho) 0 x); [exact I|]. eapply integral_val; [|apply (ftc _ (GN rho mu 29)); [exact Hx|intros; apply wn_cont|intros; rewrite wn_cpoly; apply GN_d]].
  rewrite GN_0. ring.
Qed.

(** ** Decay of the contributions of the turns *)
Definition wq (sg : R) : R := exp (- (2 * PI ^ 2 / sg ^ 2)).
Lemma wu_decay m sg s : 0 < sg -> 0 <= s - m -> wu m sg (s + 2 * PI) <= wq sg * wu m sg s.
Proof.
  intros Hs H. unfold wu, wq, nphi, gz. pose proof c2pi as HC. pose proof PI_RGT_0 as HP. assert (I : 0 < 1 / sg) by (apply Rdiv_lt_0_compat; lra). assert (J : 0 < / sqrt (2 * PI)) by (apply Rinv_0_lt_compat; lra).
  set (a := (s - m) * (1 / sg)). replace ((s + 2 * PI - m) * (1 / sg)) with (a + 2 * PI * (1 / sg)) by (unfold a; ring).
  assert (Ha : 0 <= a) by (apply Rmult_le_pos; lra).
  assert (E : exp (- (1 / 2) * (a + 2 * PI * (1 / sg)) ^ 2) <= exp (- (2 * PI ^ 2 / sg ^ 2)) * exp (- (1 / 2) * a ^ 2)).
  { rewrite <- exp_plus. apply expm_le. replace (2 * PI ^ 2 / sg ^ 2) with (1 / 2 * (2 * PI * (1 / sg)) ^ 2) by (field; lra). pose proof (Rmult_lt_0_compat PI (1 / sg) HP I). nra. }
  replace (exp (- (2 * PI ^ 2 / sg ^ 2)) * (/ sqrt (2 * PI) * exp (- (1 / 2) * a ^ 2) * (1 / sg))) with (/ sqrt (2 * PI) * (exp (- (2 * PI ^ 2 / sg ^ 2)) * exp (- (1 / 2) * a ^ 2)) * (1 / sg)) by ring.
  apply Rmult_le_compat_r; [lra|]. apply Rmult_le_compat_l; [lra|exact E].
Qed.
Lemma wu_mirror m sg s : wu m sg s = wu (- m) sg (- s).
Proof. unfold wu, nphi. rewrite <- gz_even. do 3 f_equal. ring. Qed.
Lemma wu_decay_neg m sg s : 0 < sg -> s - m <= 0 -> wu m sg (s - 2 * PI) <= wq sg * wu m sg s.
Proof.
  intros Hs H. rewrite (wu_mirror m sg s), (wu_mirror m sg (s - 2 * PI)). replace (- (s - 2 * PI)) with (- s + 2 * PI) by ring. apply wu_decay; lra.
Qed.
Lemma wd_d Phi m sg s x : is_ndtr Phi -> derivable_pt_lim (fun x => wn_delta Phi m sg x s) x (wu m sg (x + s)).
Proof.
  intros H. apply (dlim_ext (fun x => wU Phi m sg (x + s) - wU Phi m sg s)); [intros; symmetry; apply wdelta_U|].
  eapply dlim_eq; [|apply dlim_minus; [apply (dlim_comp (wU Phi m sg) (fun x => x + s)); [apply dlim_plus; [apply dlim_id|apply dlim_const]|apply wU_d, H]|apply dlim_const]]. ring.
Qed.
Lemma wd_decay Phi m sg (k : nat) x : is_ndtr Phi -> 0 < sg -> 0 <= m <= 2 * PI -> 0 <= x <= 2 * PI -> (1 <= k)%nat ->
  wn_delta Phi m sg x (2 * PI * INR (S k)) <= wq sg * wn_delta Phi m sg x (2 * PI * INR k) /\
  wn_delta Phi m sg x (- (2 * PI * INR (S k))) <= wq sg * wn_delta Phi m sg x (- (2 * PI * INR k)).
Proof.
  intros H Hs Hm Hx Hk. pose proof PI_RGT_0 as HP. assert (P : 1 <= INR k) by (change 1 with (INR 1); apply le_INR; exact Hk). rewrite S_INR.
  assert (G : forall s s', (forall y, 0 <= y <= 2 * PI -> wu m sg (y + s') <= wq sg * wu m sg (y + s)) -> wn_delta Phi m sg x s' <= wq sg * wn_delta Phi m sg x s).
  { intros s s' Hd. pose proof (mono_of_dlim (fun x => wq sg * wn_delta Phi m sg x s - wn_delta Phi m sg x s') (fun x => wq sg * wu m sg (x + s) - wu m sg (x + s')) 0 (2 * PI)) as Mo.
    assert (T : wq sg * wn_delta Phi m sg 0 s - wn_delta Phi m sg 0 s' <= wq sg * wn_delta Phi m sg x s - wn_delta Phi m sg x s').
    { apply Mo; try lra.
      - intros y _. apply dlim_minus; [apply dlim_scal, wd_d, H|apply wd_d, H].
      - intros y Hy. specialize (Hd y Hy). lra. }
    rewrite !wn_delta_0 in T. lra. }
  split; apply G; intros y Hy.
  - replace (y + 2 * PI * (INR k + 1)) with (y + 2 * PI * INR k + 2 * PI) by ring. apply wu_decay; [exact Hs|]. nra.
  - replace (y + - (2 * PI * (INR k + 1))) with (y + - (2 * PI * INR k) - 2 * PI) by ring. apply wu_decay_neg; [exact Hs|]. nra.
Qed.
Lemma wq_bound sg : 0 < sg -> sg ^ 2 <= 60 -> 0 < wq sg <= 10 / 13.
Proof.
  intros Hs H. unfold wq. split; [apply exp_pos|]. pose proof PI_gt3 as HP. assert (S2 : 0 < sg ^ 2) by (apply pow_lt; lra).
  assert (B : 3 / 10 <= 2 * PI ^ 2 / sg ^ 2).
  { apply Rmult_le_reg_r with (sg ^ 2); [exact S2|]. unfold Rdiv at 2. rewrite Rmult_assoc, Rinv_l by lra. nra. }
  apply Rle_trans with (exp (- (3 / 10))); [apply expm_le; lra|]. rewrite exp_Ropp. replace (10 / 13) with (/ (1 + 3 / 10)) by field. apply Rinv_le_contravar; [lra|].
  left. apply exp_ineq1. lra.
Qed.
Definition small_at (Phi : R -> R) (m sg x : R) (k : nat) : Prop :=
  wn_delta Phi m sg x (2 * PI * INR k) <= / 10 ^ 13 /\ wn_delta Phi m sg x (- (2 * PI * INR k)) <= / 10 ^ 13.
Lemma wd_pow Phi m sg x (j : nat) : is_ndtr Phi -> 0 < sg -> sg ^ 2 <= 60 -> 0 <= m <= 2 * PI -> 0 <= x <= 2 * PI ->
  wn_delta Phi m sg x (2 * PI * INR (S j)) <= (10 / 13) ^ j /\ wn_delta Phi m sg x (- (2 * PI * INR (S j))) <= (10 / 13) ^ j.
Proof.
  intros H Hs H60 Hm Hx. pose proof (wq_bound sg Hs H60) as Q. pose proof (nd_mono Phi H) as M. induction j as [|j [A B]].
  - rewrite !wdelta_U. pose proof (wU_range Phi m sg (x + 2 * PI * INR 1) H). pose proof (wU_range Phi m sg (2 * PI * INR 1) H).
    pose proof (wU_range Phi m sg (x + - (2 * PI * INR 1)) H). pose proof (wU_range Phi m sg (- (2 * PI * INR 1)) H). change ((10 / 13) ^ 0) with 1. lra.
  - destruct (wd_decay Phi m sg (S j) x H Hs Hm Hx ltac:(lia)) as [C D].
    pose proof (wn_delta_pos Phi m sg x (2 * PI * INR (S j)) M Hs ltac:(lra)). pose proof (wn_delta_pos Phi m sg x (- (2 * PI * INR (S j))) M Hs ltac:(lra)).
    change ((10 / 13) ^ S j) with (10 / 13 * (10 / 13) ^ j). split; nra.
Qed.
Lemma small_500 Phi m sg x : is_ndtr Phi -> 0 < sg -> sg ^ 2 <= 60 -> 0 <= m <= 2 * PI -> 0 <= x <= 2 * PI -> small_at Phi m sg x 500.
Proof.
  intros H Hs H60 Hm Hx. destruct (wd_pow Phi m sg x 499 H Hs H60 Hm Hx) as [A B].
  assert (P : (10 / 13) ^ 499 <= / 10 ^ 13).
  { apply Rle_trans with ((10 / 13) ^ 130); [apply pow_mono_dec; [lra|lia]|]. replace 130%nat with (10 * 13)%nat by reflexivity. rewrite pow_mult.
    replace (/ 10 ^ 13) with ((/ 10) ^ 13) by (rewrite pow_inv by lra; reflexivity). apply pow_incr. lra. }
  split; lra.
Qed.
Lemma loop_sum Phi m sg x fuel : is_ndtr Phi -> 0 < sg -> 0 <= x -> forall k c p, c = wF Phi m sg k x ->
  exists K, fst (wn_loop Phi m sg x fuel (S k) c p) = wF Phi m sg K x /\ (K = (k + fuel)%nat \/ (k < K)%nat /\ small_at Phi m sg x K).
Proof.
  intros H Hs Hx. pose proof (nd_mono Phi H) as M. induction fuel as [|f IH]; intros k c p Hc.
  - exists k. cbn [wn_loop fst]. split; [exact Hc|left; lia].
  - cbn [wn_loop]. cbv zeta.
    assert (E : c + (wn_delta Phi m sg x (2 * PI * INR (S k)) + wn_delta Phi m sg x (- (2 * PI * INR (S k)))) = wF Phi m sg (S k) x) by (cbn [wF]; rewrite Hc; reflexivity).
    rewrite E. destruct (Rltb_spec (/ 10 ^ 13) (Rmax (Rabs (wn_delta Phi m sg x (2 * PI * INR (S k)))) (Rabs (wn_delta Phi m sg x (- (2 * PI * INR (S k))))))) as [L|L].
    + destruct (IH (S k) _ (p + wn_gauss m sg x (2 * PI * INR (S k)) + wn_gauss m sg x (- (2 * PI * INR (S k)))) eq_refl) as (K & EK & C). exists K. split; [exact EK|]. destruct C as [C|[C1 C2]]; [left; lia|right; split; [lia|exact C2]].
    + exists (S k). cbn [fst]. split; [reflexivity|right; split; [lia|]]. apply Rnot_lt_le in L.
      pose proof (Rmax_l (Rabs (wn_delta Phi m sg x (2 * PI * INR (S k)))) (Rabs (wn_delta Phi m sg x (- (2 * PI * INR (S k)))))).
      pose proof (Rmax_r (Rabs (wn_delta Phi m sg x (2 * PI * INR (S k)))) (Rabs (wn_delta Phi m sg x (- (2 * PI * INR (S k)))))).
      pose proof (Rle_abs (wn_delta Phi m sg x (2 * PI * INR (S k)))). pose proof (Rle_abs (wn_delta Phi m sg x (- (2 * PI * INR (S k))))). split; lra.
Qed.
Lemma wF_after Phi m sg x K j : is_ndtr Phi -> 0 < sg -> sg ^ 2 <= 60 -> 0 <= m <= 2 * PI -> 0 <= x <= 2 * PI -> (1 <= K)%nat -> small_at Phi m sg x K ->
  wF Phi m sg (j + K) x - wF Phi m sg K x <= 2 * / 10 ^ 13 * (10 / 3) * (1 - (10 / 13) ^ j) /\
  wn_delta Phi m sg x (2 * PI * INR (j + K)) <= / 10 ^ 13 * (10 / 13) ^ j /\ wn_delta Phi m sg x (- (2 * PI * INR (j + K))) <= / 10 ^ 13 * (10 / 13) ^ j.
Proof.
  intros H Hs H60 Hm Hx HK [S1 S2]. pose proof (wq_bound sg Hs H60) as Q. pose proof (nd_mono Phi H) as M. induction j as [|j (A & B & C)].
  - cbn [Nat.add pow]. split; [lra|split; lra].
  - cbn [Nat.add]. destruct (wd_decay Phi m sg (j + K) x H Hs Hm Hx ltac:(lia)) as [D1 D2].
    pose proof (wn_delta_pos Phi m sg x (2 * PI * INR (j + K)) M Hs ltac:(lra)) as P1. pose proof (wn_delta_pos Phi m sg x (- (2 * PI * INR (j + K))) M Hs ltac:(lra)) as P2.
    change ((10 / 13) ^ S j) with (10 / 13 * (10 / 13) ^ j). cbn [wF]. set (q := (10 / 13) ^ j) in *.
    assert (E1 : wn_delta Phi m sg x (2 * PI * INR (S (j + K))) <= 10 / 13 * (/ 10 ^ 13 * q)) by nra.
    assert (E2 : wn_delta Phi m sg x (- (2 * PI * INR (S (j + K)))) <= 10 / 13 * (/ 10 ^ 13 * q)) by nra.
    split; [|split]; lra.
Qed.
(** The value the loop returns is a partial sum that no longer sum exceeds by 7e-13. *)
Lemma cp_sum Phi m sg x : is_ndtr Phi -> 0 < sg -> sg ^ 2 <= 60 -> 0 <= m <= 2 * PI -> 0 <= x <= 2 * PI ->
  exists K, fst (wn_cdf_pdf Phi m sg x) = wF Phi m sg K x /\ forall N, (K <= N)%nat -> 0 <= wF Phi m sg N x - wF Phi m sg K x <= 7 * / 10 ^ 13.
Proof.
  intros H Hs H60 Hm Hx. pose proof PI_RGT_0 as HP.
  destruct (loop_sum Phi m sg x 500 H Hs ltac:(lra) 0 (wn_delta Phi m sg x 0) (wn_gauss m sg x 0) eq_refl) as (K & EK & C). exists K.
  assert (SK : (1 <= K)%nat /\ small_at Phi m sg x K).
  { destruct C as [->|[C1 C2]]; [split; [lia|apply small_500; assumption]|split; [lia|exact C2]]. }
  split.
  - unfold wn_cdf_pdf. destruct (wn_loop Phi m sg x 500 1 (wn_delta Phi m sg x 0) (wn_gauss m sg x 0)) as [c p]. cbn [fst] in *. subst c. apply clip_in.
    pose proof (wF_incr Phi m sg K 0 x H Hs ltac:(lra)) as A. rewrite wF_0 in A. pose proof (wF_incr Phi m sg K x (2 * PI * INR 1) H Hs ltac:(cbn; lra)) as B.
    pose proof (wF_turns_le Phi m sg K 1 H) as T. change (INR 1) with 1 in T, B. lra.
  - intros N HN. pose proof (wF_more Phi m sg K N x H Hs HN ltac:(lra)). destruct (wF_after Phi m sg x K (N - K) H Hs H60 Hm Hx (proj1 SK) (proj2 SK)) as [A _].
    replace (N - K + K)%nat with N in A by lia. assert (0 <= (10 / 13) ^ (N - K)) by (apply pow_le; lra). lra.
Qed.
(** ** Accuracy *)
Definition wn_tail (rho : R) : R := rho ^ 900 / (45 * (1 - rho)).
Lemma cp_close Phi m sg x : is_ndtr Phi -> 0 < sg -> sg ^ 2 <= 60 -> 0 <= m <= 2 * PI -> 0 <= x <= 2 * PI ->
  Rabs (fst (wn_cdf_pdf Phi m sg x) - GN (rho_of sg) m 29 x) <= 7 * / 10 ^ 13 + wn_tail (rho_of sg).
Proof.
  intros H Hs H60 Hm Hx. destruct (cp_sum Phi m sg x H Hs H60 Hm Hx) as (K & -> & C). pose proof (rho_of_range sg Hs) as Hr. set (r := rho_of sg) in *.
  apply le_epsilon. intros e He. destruct (poisson Phi m sg x H Hs Hm e He) as [N0 H0]. set (N := (N0 + K + 29)%nat). specialize (H0 N ltac:(unfold N; lia)). specialize (C N ltac:(unfold N; lia)).
  unfold R_dist in H0. rewrite Rminus_0_r in H0. apply Rabs_def2 in H0. fold r in H0. pose proof (GN_tail2 r m 29 N x Hr ltac:(unfold N; lia)) as T.
  assert (E : 2 / (3 * INR 30) * r ^ (30 ^ 2) / (1 - r) = wn_tail r).
  { unfold wn_tail. change (30 ^ 2)%nat with 900%nat. replace (INR 30) with 30 by (cbn; ring). set (p := r ^ 900). field. lra. }
  rewrite E in T. apply abs_le_inv in T. apply Rabs_le. lra.
Qed.
Lemma ln10_le : ln 10 <= 5 / 2.
Proof.
  destruct (Rle_lt_dec (ln 10) (5 / 2)) as [L|L]; [exact L|exfalso]. apply exp_increasing in L. rewrite exp_ln in L by lra.
  assert (B : 10 < exp (5 / 2)); [|lra]. assert (C : 1 + 1 / 10 < exp (1 / 10)) by (apply exp_ineq1; lra).
  replace (5 / 2) with (INR 25 * (1 / 10)) by (cbn; field). rewrite <- exp_pow. apply Rlt_le_trans with ((1 + 1 / 10) ^ 25); [lra|]. apply pow_incr. lra.
Qed.
Lemma sigma_spec rho : / 10 ^ 12 < rho <= 1 - / 10 ^ 15 -> rho_of (wn_sigma rho) = rho /\ (wn_sigma rho) ^ 2 <= 60.
Proof.
  intros Hr. pose proof ftiny_pos as A. pose proof ftiny_small as B. assert (P12 : 0 < / 10 ^ 12) by (apply Rinv_0_lt_compat, pow_lt; lra). assert (P15 : 0 < / 10 ^ 15) by (apply Rinv_0_lt_compat, pow_lt; lra).
  assert (E : clip rho ftiny (1 - / 10 ^ 15) = rho) by (apply clip_in; lra).
  assert (L0 : ln rho < 0) by (rewrite <- ln_1; apply ln_increasing; lra).
  assert (S2 : wn_sigma rho ^ 2 = - 2 * ln rho).
  { unfold wn_sigma. rewrite E. rewrite <- Rsqr_pow2, Rsqr_sqrt by lra. reflexivity. }
  split.
  - unfold rho_of. rewrite S2. replace (- (1 / 2) * (-2 * ln rho)) with (ln rho) by field. apply exp_ln. lra.
  - rewrite S2. assert (L : ln (/ 10 ^ 12) <= ln rho) by (apply Rlt_le, ln_increasing; lra).
    rewrite ln_Rinv in L by (apply pow_lt; lra). rewrite <- Rpower_pow, ln_Rpower in L by lra || (unfold Rpower in L; rewrite ln_exp in L). pose proof ln10_le. cbn in L. lra.
Qed.
