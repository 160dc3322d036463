(** wrapnorm: Fourier coefficients of the sums over turns and of the cosine series. *)
From Verif Require Import Prelude NpModel NpProofs UtilsModel UtilsProofs DescModel DescProofs CircleSpec IntSpec IntProofs DistModel DistSpec DistProofs Dist2Proofs Dist4Proofs Dist5Proofs
  Dist6Proofs Dist7Proofs Dist8Proofs KjProofs Kj2Proofs Kj6Proofs Kj7Proofs Von2Proofs Von3Proofs Von6Proofs WnModel WnSpec WnProofs FourierProofs GaussProofs Wn2Proofs.

Lemma pow_le1 r n : 0 <= r <= 1 -> r ^ n <= 1.
Proof. intros H. rewrite <- (pow1 n). apply pow_incr, H. Qed.
Lemma pow_mono_dec r (a b : nat) : 0 <= r <= 1 -> (a <= b)%nat -> r ^ b <= r ^ a.
Proof.
  intros H L. replace b with (a + (b - a))%nat by lia. rewrite pow_add. pose proof (pow_le1 r (b - a) H). pose proof (pow_le r a (proj1 H)). nra.
Qed.

(** ** The integrated cosine series *)
Fixpoint GN (r m : R) (N : nat) (x : R) : R :=
  match N with
  | O => x / (2 * PI)
  | S n => GN r m n x + r ^ (N ^ 2) / (PI * INR N) * (sin (INR N * (x - m)) + sin (INR N * m))
  end.
Lemma cpoly_S c n t : cpoly c (S n) t = cpoly c n t + c (S n) * cos (INR (S n) * t) / PI.
Proof.
  unfold cpoly. rewrite seq_S, map_app, Rsum_app. change (Rsum (map ?f [?a])) with (f a + 0). pose proof PI_RGT_0. cbn [Nat.add]. field. lra.
Qed.
Lemma GN_d r m N x : derivable_pt_lim (GN r m N) x (cpoly (fun p => r ^ (p ^ 2)) N (x - m)).
Proof.
  pose proof PI_RGT_0 as HP. induction N as [|N IH].
  - cbn [GN]. eapply dlim_eq; [|apply dlim_divc, dlim_id]. unfold cpoly. cbn. field. lra.
  - rewrite cpoly_S. cbn [GN]. apply dlim_plus; [exact IH|].
    assert (P : 0 < INR (S N)) by (apply lt_0_INR; lia). set (n := INR (S N)) in *.
    eapply dlim_eq; [|apply dlim_scal, dlim_plus; [apply dlim_sin, dlim_scal, dlim_affine_c|apply dlim_const]]. cbv beta. field. lra.
Qed.
Lemma GN_0 r m N : GN r m N 0 = 0.
Proof.
  pose proof PI_RGT_0. induction N as [|N IH]; cbn [GN]; [field; lra|]. rewrite IH.
  replace (INR (S N) * (0 - m)) with (- (INR (S N) * m)) by ring. rewrite sin_neg. ring.
Qed.
Lemma GN_turn r m N x : GN r m N (x + 2 * PI) = GN r m N x + 1.
Proof.
  pose proof PI_RGT_0. induction N as [|N IH]; cbn [GN]; [field; lra|]. rewrite IH.
  replace (x + 2 * PI - m) with (x - m + 2 * PI) by ring. rewrite sin_per. ring.
Qed.
Lemma GN_cauchy r m N k x : 0 < r < 1 -> Rabs (GN r m (k + N) x - GN r m N x) * (1 - r) <= r ^ S N - r ^ (k + S N).
Proof.
  intros Hr. pose proof PI_gt3 as HP. induction k as [|k IH]; cbn [Nat.add]; [rewrite Rminus_diag_eq, Rabs_R0 by reflexivity; lra|].
  cbn [GN]. replace (S (k + N)) with (k + S N)%nat by lia.
  set (M := (k + S N)%nat) in *. assert (HM : (1 <= M)%nat) by (unfold M; lia).
  assert (P : 1 <= INR M) by (change 1 with (INR 1); apply le_INR; exact HM).
  set (d := r ^ (M ^ 2) / (PI * INR M) * (sin (INR M * (x - m)) + sin (INR M * m))).
  assert (Hd : Rabs d <= r ^ M).
  { unfold d. rewrite Rabs_mult. assert (B : 0 <= r ^ (M ^ 2) / (PI * INR M) <= r ^ M / 2).
    { assert (A : r ^ (M ^ 2) <= r ^ M) by (apply pow_mono_dec; [lra|cbn [Nat.pow]; nia]). assert (0 < r ^ (M ^ 2)) by (apply pow_lt; lra).
      assert (0 < PI * INR M) by nra. split; [apply Rlt_le, Rdiv_lt_0_compat; assumption|].
      apply Rle_trans with (r ^ (M ^ 2) / 2); [|lra]. unfold Rdiv. apply Rmult_le_compat_l; [lra|]. apply Rinv_le_contravar; nra. }
    rewrite (Rabs_pos_eq (r ^ (M ^ 2) / (PI * INR M))) by lra.
    pose proof (SIN_bound (INR M * (x - m))). pose proof (SIN_bound (INR M * m)).
    assert (S2 : Rabs (sin (INR M * (x - m)) + sin (INR M * m)) <= 2) by (apply Rabs_le; lra). pose proof (Rabs_pos (sin (INR M * (x - m)) + sin (INR M * m))). nra. }
  replace (GN r m (k + N) x + d - GN r m N x) with ((GN r m (k + N) x - GN r m N x) + d) by ring.
  pose proof (Rabs_triang (GN r m (k + N) x - GN r m N x) d) as T. change (r ^ S M) with (r * r ^ M).
  set (A := Rabs (GN r m (k + N) x - GN r m N x + d)) in *. set (B := Rabs (GN r m (k + N) x - GN r m N x)) in *.
  assert (A * (1 - r) <= (B + r ^ M) * (1 - r)) by (apply Rmult_le_compat_r; lra). lra.
Qed.

(** ** Coefficients of the series *)
Lemma cos_add_per (n : nat) c x : cos (INR n * (x + 2 * PI) + c) = cos (INR n * x + c).
Proof.
  replace (INR n * (x + 2 * PI) + c) with (INR n * x + c + 2 * INR n * PI) by ring. apply cos_period.
Qed.
Lemma cosc_cont (n c x : R) : continuity_pt (fun t => cos (n * t + c)) x.
Proof. eapply dlim_cont. apply dlim_cos, dlim_plus; [apply dlim_scal, dlim_id|apply dlim_const]. Qed.
Lemma cpoly_coeff r m N (n : nat) c0 : 0 <= m <= 2 * PI -> (1 <= n)%nat ->
  integral (fun t => cos (INR n * t + c0) * cpoly (fun p => r ^ (p ^ 2)) N (t - m)) 0 (2 * PI) (if Nat.leb n N then r ^ (n ^ 2) * cos (INR n * m + c0) else 0).
Proof.
  intros Hm Hn. pose proof PI_RGT_0 as HP. assert (L : 0 <= 2 * PI) by lra. destruct (cpoly_moment (fun p => r ^ (p ^ 2)) N n Hn) as [A B].
  set (v := if Nat.leb n N then r ^ (n ^ 2) else 0) in A.
  replace (if Nat.leb n N then r ^ (n ^ 2) * cos (INR n * m + c0) else 0) with (v * cos (INR n * m + c0)) by (unfold v; destruct (Nat.leb n N); ring).
  set (f := fun s => cos (INR n * s + (INR n * m + c0)) * cpoly (fun p => r ^ (p ^ 2)) N s).
  apply (integral_ext (fun t => f (t - m))); [exact L| |].
  - intros t _. unfold f. replace (INR n * (t - m) + (INR n * m + c0)) with (INR n * t + c0) by ring. reflexivity.
  - apply integral_shift; [exact Hm| | |].
    + intros x. apply cont_mult; [apply cosc_cont|apply cpoly_cont].
    + intros x. unfold f. rewrite cos_add_per, cpoly_per. reflexivity.
    + refine (integral_val _ _ _ _ _ _ (integral_ext _ _ _ _ _ L _ (integral_plus _ _ _ _ _ _ L (integral_scal _ _ _ (cos (INR n * m + c0)) _ L A) (integral_scal _ _ _ (- sin (INR n * m + c0)) _ L B)))).
      * ring.
      * intros t _. unfold f. cbv beta. rewrite (cos_plus (INR n * t)). ring.
Qed.

(** ** Coefficients of the sums over turns *)
Definition wg (m sg : R) (n : nat) (c0 s : R) : R := cos (INR n * s + c0) * wu m sg s.
Lemma wg_cont m sg n c0 s : continuity_pt (wg m sg n c0) s.
Proof. apply cont_mult; [apply cosc_cont|apply wu_cont]. Qed.
Fixpoint PF (P : R -> R) (N : nat) (x : R) : R :=
  match N with
  | O => P x
  | S n => PF P n x + (P (x + 2 * PI * INR N) + P (x - 2 * PI * INR N))
  end.
Lemma PF_turn P N x : PF P N (x + 2 * PI) = PF P N x + (P (x + 2 * PI * INR (S N)) - P (x - 2 * PI * INR N)).
Proof.
  induction N as [|N IH].
  - cbn [PF]. cbn [INR]. replace (x + 2 * PI * 1) with (x + 2 * PI) by ring. replace (x - 2 * PI * 0) with x by ring. ring.
  - change (PF P (S N) (x + 2 * PI)) with (PF P N (x + 2 * PI) + (P (x + 2 * PI + 2 * PI * INR (S N)) + P (x + 2 * PI - 2 * PI * INR (S N)))).
    change (PF P (S N) x) with (PF P N x + (P (x + 2 * PI * INR (S N)) + P (x - 2 * PI * INR (S N)))).
    rewrite IH. rewrite (S_INR (S N)), (S_INR N).
    replace (x + 2 * PI + 2 * PI * (INR N + 1)) with (x + 2 * PI * (INR N + 1 + 1)) by ring.
    replace (x + 2 * PI - 2 * PI * (INR N + 1)) with (x - 2 * PI * INR N) by ring. ring.
Qed.
Lemma cos_turns (n k : nat) c x : cos (INR n * (x + 2 * PI * INR k) + c) = cos (INR n * x + c).
Proof.
  replace (INR n * (x + 2 * PI * INR k) + c) with (INR n * x + c + 2 * INR (n * k) * PI) by (rewrite mult_INR; ring). apply cos_period.
Qed.
Lemma PF_d P m sg n c0 N x : (forall s, derivable_pt_lim P s (wg m sg n c0 s)) -> derivable_pt_lim (PF P N) x (cos (INR n * x + c0) * wf m sg N x).
Proof.
  intros D. assert (D1 : forall s, derivable_pt_lim (fun x => P (x + s)) x (wg m sg n c0 (x + s))).
  { intros s. eapply dlim_eq; [|apply (dlim_comp P (fun x => x + s)); [apply dlim_plus; [apply dlim_id|apply dlim_const]|apply D]]. ring. }
  induction N as [|N IH]; [apply D|]. cbn [PF wf]. set (k := S N) in *.
  eapply dlim_eq; [|apply dlim_plus; [exact IH|apply dlim_plus; [apply D1|exact (D1 (- (2 * PI * INR k)))]]].
  unfold wg. rewrite cos_turns.
  replace (cos (INR n * (x + - (2 * PI * INR k)) + c0)) with (cos (INR n * x + c0))
    by (rewrite <- (cos_turns n k c0 (x + - (2 * PI * INR k))); do 3 f_equal; ring).
  unfold Rminus. ring.
Qed.
Lemma wf_coeff P m sg n c0 N : (forall s, derivable_pt_lim P s (wg m sg n c0 s)) ->
  integral (fun t => cos (INR n * t + c0) * wf m sg N t) 0 (2 * PI) (P (2 * PI * INR (S N)) - P (- (2 * PI * INR N))).
Proof.
  intros D. pose proof PI_RGT_0. eapply integral_val; [|apply (ftc _ (PF P N)); [lra|intros; apply cont_mult; [apply cosc_cont|apply wf_cont]|intros; apply PF_d, D]].
  pose proof (PF_turn P N 0) as E. rewrite !Rplus_0_l in E. unfold Rminus in E at 2. rewrite E. replace (0 + - (2 * PI * INR N)) with (- (2 * PI * INR N)) by ring. ring.
Qed.
(** The Gaussian integral behind a coefficient, over a finite range. *)
Lemma wg_gauss Phi P m sg n c0 a b : is_ndtr Phi -> 0 < sg -> a <= b -> (forall s, derivable_pt_lim P s (wg m sg n c0 s)) ->
  Rabs (exp (1 / 2 * (INR n * sg) ^ 2) * (P b - P a) - cos (INR n * m + c0) * (wU Phi m sg b - wU Phi m sg a))
  <= INR n * sg * exp (1 / 2 * (INR n * sg) ^ 2) * (gz ((a - m) * (1 / sg)) + gz ((b - m) * (1 / sg))).
Proof.
  intros H Hs Hab D. set (a' := (a - m) * (1 / sg)). set (b' := (b - m) * (1 / sg)). pose proof c2pi as HC. set (q := sqrt (2 * PI)) in *.
  assert (Hab' : a' <= b') by (unfold a', b'; apply Rmult_le_compat_r; [apply Rlt_le, Rdiv_lt_0_compat; lra|lra]).
  assert (I1 : integral gz a' b' (q * (Phi b' - Phi a'))).
  { eapply integral_val; [|apply (ftc gz (fun z => q * Phi z)); [exact Hab'|intros; apply gz_cont|]]; [ring|].
    intros z _. eapply dlim_eq; [|apply dlim_scal, nd_d, H]. unfold nphi. fold q. field. lra. }
  assert (I2 : integral (fun z => gz z * cos (INR n * sg * z + (INR n * m + c0))) a' b' (q * (P b - P a))).
  { eapply integral_val; [|apply (ftc _ (fun z => q * P (m + sg * z))); [exact Hab'|intros; apply cont_mult; [apply gz_cont|apply cosc_cont]|]].
    - replace (m + sg * b') with b by (unfold b'; field; lra). replace (m + sg * a') with a by (unfold a'; field; lra). ring.
    - intros z _. eapply dlim_eq; [|apply dlim_scal, (dlim_comp P (fun z => m + sg * z)); [apply dlim_plus; [apply dlim_const|apply dlim_scal, dlim_id]|apply D]].
      unfold wg, wu, nphi. fold q. replace ((m + sg * z - m) * (1 / sg)) with z by (field; lra).
      replace (INR n * (m + sg * z) + c0) with (INR n * sg * z + (INR n * m + c0)) by ring. field. lra. }
  assert (Ht : 0 <= INR n * sg) by (apply Rmult_le_pos; [apply pos_INR|lra]).
  pose proof (gauss_fourier a' b' (INR n * m + c0) (INR n * sg) _ _ Hab' Ht I1 I2) as G. fold (wU Phi m sg b) in G.
  change (Phi b') with (wU Phi m sg b) in G. change (Phi a') with (wU Phi m sg a) in G.
  replace (exp (1 / 2 * (INR n * sg) ^ 2) * (q * (P b - P a)) - cos (INR n * m + c0) * (q * (wU Phi m sg b - wU Phi m sg a)))
    with (q * (exp (1 / 2 * (INR n * sg) ^ 2) * (P b - P a) - cos (INR n * m + c0) * (wU Phi m sg b - wU Phi m sg a))) in G by ring.
  rewrite Rabs_mult, (Rabs_pos_eq q) in G by lra. pose proof (Rabs_pos (exp (1 / 2 * (INR n * sg) ^ 2) * (P b - P a) - cos (INR n * m + c0) * (wU Phi m sg b - wU Phi m sg a))). nra.
Qed.
Definition rho_of (sg : R) : R := exp (- (1 / 2) * sg ^ 2).
Lemma rho_of_range sg : 0 < sg -> 0 < rho_of sg < 1.
Proof.
  intros H. unfold rho_of. split; [apply exp_pos|]. replace 1 with (exp 0) at 2 by apply exp_0. apply exp_increasing. nra.
Qed.
Lemma exp_pow x (n : nat) : exp x ^ n = exp (INR n * x).
Proof. induction n as [|n IH]; [cbn; rewrite Rmult_0_l, exp_0; reflexivity|]. rewrite S_INR. cbn [pow]. rewrite IH, <- exp_plus. f_equal. ring. Qed.
Lemma rho_of_pow sg n : rho_of sg ^ (n ^ 2) * exp (1 / 2 * (INR n * sg) ^ 2) = 1.
Proof. unfold rho_of. rewrite exp_pow, <- exp_plus. transitivity (exp 0); [|apply exp_0]. f_equal. rewrite pow_INR. field. Qed.
(** The coefficient converges. *)
Lemma wf_coeff_lim Phi m sg n c0 e : is_ndtr Phi -> 0 < sg -> 0 < e -> exists N0, forall N v, (N0 <= N)%nat ->
  integral (fun t => cos (INR n * t + c0) * wf m sg N t) 0 (2 * PI) v -> Rabs (v - rho_of sg ^ (n ^ 2) * cos (INR n * m + c0)) <= e.
Proof.
  intros H Hs He. set (P := gprim (wg m sg n c0) (wg_cont m sg n c0)). assert (D : forall s, derivable_pt_lim P s (wg m sg n c0 s)) by (intros; apply gprim_d).
  pose proof (pos_INR n) as Pn. set (E := exp (1 / 2 * (INR n * sg) ^ 2)). set (r := rho_of sg ^ (n ^ 2)).
  assert (RE : r * E = 1) by apply rho_of_pow. assert (HE : 0 < E) by apply exp_pos. pose proof (rho_of_range sg Hs) as Rr.
  assert (Hr : 0 < r <= 1) by (split; [apply pow_lt; lra|]; apply pow_le1; lra).
  set (K := INR n * sg * E + 1). assert (Ht : 0 <= INR n * sg) by (apply Rmult_le_pos; lra). assert (HK : 1 <= K) by (unfold K; nra).
  set (d := e / (4 * K)). assert (Hd : 0 < d) by (apply Rdiv_lt_0_compat; lra). assert (Ed : d * K = e / 4) by (unfold d; field; lra).
  destruct (wU_lim Phi m sg d H Hs Hd) as (M1 & P1 & L1). destruct (gz_small d Hd) as (M2 & P2 & L2). pose proof PI_gt3 as HP.
  destruct (INR_unbounded (M1 + sg * M2 + Rabs m)) as [N0 HN0]. exists N0. intros N v HN Hv.
  assert (B : M1 + sg * M2 + Rabs m < INR N) by (eapply Rlt_le_trans; [exact HN0|apply le_INR; lia]).
  pose proof (integral_unique _ _ _ _ _ Hv (wf_coeff P m sg n c0 N D)) as EQ. clear Hv.
  set (b := 2 * PI * INR (S N)) in *. set (a := 2 * PI * INR N) in *. pose proof (Rabs_pos m) as Pm. pose proof (Rle_abs m) as Am. pose proof (Rle_abs (- m)) as Am'. rewrite Rabs_Ropp in Am'.
  assert (Sm : 0 < sg * M2) by (apply Rmult_lt_0_compat; lra). assert (PN : 0 < INR N) by lra.
  assert (Ba : INR N <= a) by (unfold a; nra). assert (Bb : INR N <= b) by (unfold b; rewrite S_INR; nra).
  assert (I : 0 < 1 / sg) by (apply Rdiv_lt_0_compat; lra).
  destruct (L1 a ltac:(lra)) as [_ A1]. destruct (L1 b ltac:(lra)) as [A2 _].
  assert (G1 : gz ((- a - m) * (1 / sg)) < d).
  { rewrite <- gz_even. apply L2. replace M2 with (sg * M2 * (1 / sg)) by (field; lra). replace (- ((- a - m) * (1 / sg))) with ((a + m) * (1 / sg)) by ring. apply Rmult_le_compat_r; lra. }
  assert (G2 : gz ((b - m) * (1 / sg)) < d).
  { apply L2. replace M2 with (sg * M2 * (1 / sg)) by (field; lra). apply Rmult_le_compat_r; lra. }
  pose proof (wg_gauss Phi P m sg n c0 (- a) b H Hs ltac:(lra) D) as G. fold E in G. rewrite <- EQ in G.
  pose proof (wU_range Phi m sg (- a) H) as U1. pose proof (wU_range Phi m sg b H) as U2.
  set (C := cos (INR n * m + c0)) in *. assert (HC : Rabs C <= 1) by (apply Rabs_le, COS_bound).
  pose proof (gz_pos ((- a - m) * (1 / sg))) as Z1. pose proof (gz_pos ((b - m) * (1 / sg))) as Z2.
  set (u := wU Phi m sg b - wU Phi m sg (- a)) in *. assert (Hu : Rabs (u - 1) <= 2 * d) by (unfold u; apply Rabs_le; lra).
  assert (T1 : INR n * sg * E * (gz ((- a - m) * (1 / sg)) + gz ((b - m) * (1 / sg))) <= (K - 1) * (2 * d)).
  { replace (INR n * sg * E) with (K - 1) by (unfold K; ring). apply Rmult_le_compat_l; lra. }
  replace (v - r * C) with (r * ((E * v - C * u) + C * (u - 1))) by (transitivity (r * E * v - r * C); [ring|rewrite RE; ring]).
  rewrite Rabs_mult, (Rabs_pos_eq r) by lra. pose proof (Rabs_triang (E * v - C * u) (C * (u - 1))) as T2. rewrite (Rabs_mult C) in T2.
  pose proof (Rabs_pos C). pose proof (Rabs_pos (u - 1)). pose proof (Rabs_pos (E * v - C * u + C * (u - 1))).
  assert (T3 : Rabs C * Rabs (u - 1) <= 2 * d) by nra. assert (2 * d * K = e / 2) by lra. nra.
Qed.
