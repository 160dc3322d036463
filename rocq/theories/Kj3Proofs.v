(** katojones: the truncated series against the integral of the density. *)
From Verif Require Import Prelude EmModel NpModel NpProofs CircleSpec IntSpec IntProofs DistModel DistSpec DistProofs
  Dist2Proofs Dist4Proofs Dist7Proofs Dist8Proofs KjModel KjProofs Kj2Proofs.

Definition kjT (gamma rho mu lam : R) (p : nat) (x : R) : R :=
  kj_coeff gamma rho p * (sin (INR p * x - (INR p * mu + (INR p - 1) * lam)) + sin (INR p * mu + (INR p - 1) * lam)).
Definition kjS (c : kj) (N : nat) (x : R) : R :=
  x / (2 * PI) + 1 / PI * Rsum (map (fun p => kjT (kj_gamma c) (kj_rho c) (kj_mu c) (kj_lam c) p x) (seq 1 N)).
Definition kjf (c : kj) (N : nat) (x : R) : R :=
  1 / (2 * PI) + 1 / PI * Rsum (map (fun p => kj_gamma c * kj_rho c ^ (p - 1) *
     cos (INR p * (x - kj_mu c - kj_lam c) + kj_lam c)) (seq 1 N)).

Lemma Rsum_seq_S g N : Rsum (map g (seq 1 (S N))) = Rsum (map g (seq 1 N)) + g (S N).
Proof. rewrite seq_S, map_app, Rsum_app. simpl. ring. Qed.

Lemma kjS_0 c N : kjS c N 0 = 0.
Proof.
  unfold kjS. replace (Rsum _) with 0; [field; apply PI_neq0|].
  induction N as [|N IH]; [reflexivity|]. rewrite Rsum_seq_S, <- IH. unfold kjT.
  rewrite Rmult_0_r, Rminus_0_l, sin_neg. ring.
Qed.
Lemma kjS_d c N x : derivable_pt_lim (kjS c N) x (kjf c N x).
Proof.
  pose proof PI_RGT_0. unfold kjS, kjf. apply dlim_plus.
  - eapply dlim_eq; [|apply dlim_divc; apply dlim_id]. field. lra.
  - apply dlim_scal. apply (dlim_Rsum (fun p y => kjT _ _ _ _ p y)
      (fun p => kj_gamma c * kj_rho c ^ (p - 1) * cos (INR p * (x - kj_mu c - kj_lam c) + kj_lam c))).
    intros p Hp. apply in_seq in Hp. assert (Hn : INR p <> 0) by (apply not_0_INR; lia).
    unfold kjT. eapply dlim_eq; [|apply dlim_scal; apply dlim_plus; [apply dlim_sin; apply dlim_minus;
      [apply (dlim_scal (INR p)); apply dlim_id|apply dlim_const]|apply dlim_const]].
    cbv beta. replace (INR p * x - (INR p * kj_mu c + (INR p - 1) * kj_lam c)) with (INR p * (x - kj_mu c - kj_lam c) + kj_lam c) by ring.
    unfold kj_coeff. field. exact Hn.
Qed.
Lemma kj_cos_rec t lam N : cos (INR (S (S N)) * t + lam) + cos (INR N * t + lam) = 2 * cos t * cos (INR (S N) * t + lam).
Proof.
  rewrite !S_INR. replace ((INR N + 1 + 1) * t + lam) with ((INR N + 1) * t + lam + t) by ring.
  replace (INR N * t + lam) with ((INR N + 1) * t + lam - t) by ring. rewrite cos_plus, cos_minus. ring.
Qed.
Lemma kj_geom rho lam t N :
  kjD rho t * Rsum (map (fun p => rho ^ (p - 1) * cos (INR p * t + lam)) (seq 1 N)) =
  cos (t + lam) - rho * cos lam - rho ^ N * cos (INR (S N) * t + lam) + rho ^ (S N) * cos (INR N * t + lam).
Proof.
  induction N as [|N IH].
  - simpl. rewrite Rmult_0_l, Rplus_0_l, !Rmult_1_l. ring.
  - rewrite Rsum_seq_S, Rmult_plus_distr_l, IH. replace (S N - 1)%nat with N by lia.
    pose proof (kj_cos_rec t lam N) as E. unfold kjD. simpl pow.
    set (a := cos (INR (S (S N)) * t + lam)) in *. set (b := cos (INR N * t + lam)) in *. set (d := cos (INR (S N) * t + lam)) in *.
    replace a with (2 * cos t * d - b) by lra. ring.
Qed.
Lemma kjf_rem c N x : 0 <= kj_rho c < 1 -> let t := x - kj_mu c - kj_lam c in
  kjU c x - kjf c N x = kj_gamma c / PI * ((kj_rho c ^ N * cos (INR (S N) * t + kj_lam c)
     - kj_rho c ^ (S N) * cos (INR N * t + kj_lam c)) / kjD (kj_rho c) t).
Proof.
  intros H t. pose proof (kj_geom (kj_rho c) (kj_lam c) t N) as G. pose proof (kjD_pos (kj_rho c) t H) as D.
  pose proof PI_RGT_0. unfold kjU, kjf. fold t.
  rewrite (map_ext _ (fun p => kj_gamma c * (kj_rho c ^ (p - 1) * cos (INR p * t + kj_lam c)))) by (intros p; ring).
  rewrite Rsum_map_scal.
  set (s := Rsum (map (fun p => kj_rho c ^ (p - 1) * cos (INR p * t + kj_lam c)) (seq 1 N))) in *.
  replace (x - kj_mu c) with (t + kj_lam c) by (unfold t; ring).
  replace (kj_rho c ^ N * cos (INR (S N) * t + kj_lam c) - kj_rho c ^ S N * cos (INR N * t + kj_lam c))
    with (cos (t + kj_lam c) - kj_rho c * cos (kj_lam c) - kjD (kj_rho c) t * s) by (rewrite G; ring).
  field. lra.
Qed.
Lemma kjf_cont c N x : continuity_pt (kjf c N) x.
Proof.
  unfold kjf. apply cont_plus; [apply cont_const|]. apply cont_mult; [apply cont_const|].
  induction N as [|N IH]; [simpl; apply (cont_const 0)|].
  apply (cont_ext (fun x => Rsum (map (fun p => kj_gamma c * kj_rho c ^ (p - 1) * cos (INR p * (x - kj_mu c - kj_lam c) + kj_lam c)) (seq 1 N))
     + kj_gamma c * kj_rho c ^ (S N - 1) * cos (INR (S N) * (x - kj_mu c - kj_lam c) + kj_lam c))).
  - intros y. symmetry. apply (Rsum_seq_S (fun p => kj_gamma c * kj_rho c ^ (p - 1) * cos (INR p * (y - kj_mu c - kj_lam c) + kj_lam c))).
  - apply cont_plus; [exact IH|]. apply cont_mult; [apply cont_const|].
    eapply dlim_cont. apply dlim_cos. apply dlim_plus; [apply dlim_scal; apply dlim_minus; [apply dlim_minus; [apply dlim_id|]|]|]; apply dlim_const.
Qed.

(** Crude bound on the remainder, good enough for a limit. *)
Lemma kjf_crude c N x : 0 <= kj_rho c < 1 -> 0 <= kj_gamma c < 1 ->
  Rabs (kjU c x - kjf c N x) <= kj_rho c ^ N * (2 / (PI * (1 - kj_rho c) ^ 2)).
Proof.
  intros H Hg. rewrite kjf_rem by exact H. cbv zeta. set (t := x - kj_mu c - kj_lam c).
  pose proof (kjD_lower (kj_rho c) t H) as D. assert (D1 : 0 < (1 - kj_rho c) ^ 2) by (apply pow_lt; lra).
  pose proof PI_RGT_0 as P0. pose proof (pow_le (kj_rho c) N ltac:(lra)) as HN.
  pose proof (COS_bound (INR (S N) * t + kj_lam c)) as C1. pose proof (COS_bound (INR N * t + kj_lam c)) as C2.
  set (c1 := cos (INR (S N) * t + kj_lam c)) in *. set (c2 := cos (INR N * t + kj_lam c)) in *.
  simpl pow at 2. set (rN := kj_rho c ^ N) in *.
  replace (rN * c1 - kj_rho c * rN * c2) with (rN * (c1 - kj_rho c * c2)) by ring.
  assert (B : Rabs (c1 - kj_rho c * c2) <= 2) by (apply Rabs_le; split; nra).
  unfold Rdiv. rewrite !Rabs_mult, (Rabs_pos_eq (kj_gamma c)), (Rabs_pos_eq rN), !Rabs_inv, (Rabs_pos_eq PI), (Rabs_pos_eq (kjD _ _)) by lra.
  assert (I : / kjD (kj_rho c) t <= / (1 - kj_rho c) ^ 2) by (apply Rinv_le_contravar; lra).
  assert (I0 : 0 < / kjD (kj_rho c) t) by (apply Rinv_0_lt_compat; lra).
  assert (I1 : 0 < / (1 - kj_rho c) ^ 2) by (apply Rinv_0_lt_compat; lra).
  assert (IP : 0 < / PI) by (apply Rinv_0_lt_compat; lra).
  rewrite Rinv_mult. 
  replace (kj_gamma c * / PI * (rN * Rabs (c1 - kj_rho c * c2) * / kjD (kj_rho c) t))
    with ((rN * / PI) * (kj_gamma c * (Rabs (c1 - kj_rho c * c2) * / kjD (kj_rho c) t))) by ring.
  replace (rN * (2 * (/ PI * / (1 - kj_rho c) ^ 2))) with ((rN * / PI) * (1 * (2 * / (1 - kj_rho c) ^ 2))) by ring.
  apply Rmult_le_compat_l; [apply Rmult_le_pos; lra|].
  apply Rmult_le_compat; try lra.
  - apply Rmult_le_pos; [apply Rabs_pos|lra].
  - apply Rmult_le_compat; try lra. apply Rabs_pos.
Qed.

(** [P] is a primitive of the density that starts at 0. *)
Lemma kjS_crude c N P x : 0 <= kj_rho c < 1 -> 0 <= kj_gamma c < 1 -> 0 <= x <= 2 * PI ->
  (forall y, 0 <= y <= 2 * PI -> derivable_pt_lim P y (kjU c y)) -> P 0 = 0 ->
  Rabs (P x - kjS c N x) <= kj_rho c ^ N * (2 / (PI * (1 - kj_rho c) ^ 2) * (2 * PI)).
Proof.
  intros H Hg Hx HP P0. pose proof PI_RGT_0 as Pp.
  set (K := kj_rho c ^ N * (2 / (PI * (1 - kj_rho c) ^ 2))).
  assert (HK : 0 <= K).
  { unfold K. apply Rmult_le_pos; [apply pow_le; lra|]. apply Rlt_le. apply Rdiv_lt_0_compat; [lra|].
    apply Rmult_lt_0_compat; [lra|apply pow_lt; lra]. }
  assert (I1 : integral (kjU c) 0 x (P x - P 0)).
  { apply ftc; [lra| |]; intros y Hy; [apply kjU_cont; exact H|apply HP; lra]. }
  assert (I2 : integral (kjf c N) 0 x (kjS c N x - kjS c N 0)).
  { apply ftc; [lra| |]; intros y Hy; [apply kjf_cont|apply kjS_d]. }
  pose proof (integral_lin _ _ _ _ (-1) _ _ I1 I2) as I3.
  assert (Hb : Rabs ((P x - P 0) + -1 * (kjS c N x - kjS c N 0)) <= K * (x - 0)).
  { apply (integral_abs (fun y => kjU c y + -1 * kjf c N y) (fun _ => K) 0 x); [lra| |exact I3|apply integral_const].
    intros y Hy. cbv beta. replace (kjU c y + -1 * kjf c N y) with (kjU c y - kjf c N y) by ring. apply kjf_crude; assumption. }
  rewrite P0, kjS_0 in Hb. replace (P x - 0 + -1 * (kjS c N x - 0)) with (P x - kjS c N x) in Hb by ring.
  replace (kj_rho c ^ N * (2 / (PI * (1 - kj_rho c) ^ 2) * (2 * PI))) with (K * (2 * PI)) by (unfold K; ring).
  nra.
Qed.

(** The tail of the series. *)
Lemma kjT_bound gamma rho mu lam p x : 0 <= gamma -> 0 <= rho -> (1 <= p)%nat ->
  Rabs (kjT gamma rho mu lam p x) <= 2 * (gamma * rho ^ (p - 1) / INR p).
Proof.
  intros Hg Hr Hp. unfold kjT, kj_coeff. assert (0 < INR p) by (apply lt_0_INR; lia).
  assert (H0 : 0 <= gamma * rho ^ (p - 1) / INR p).
  { apply Rmult_le_pos; [apply Rmult_le_pos; [assumption|apply pow_le; assumption]|]. apply Rlt_le, Rinv_0_lt_compat. assumption. }
  rewrite Rabs_mult, (Rabs_pos_eq _ H0). rewrite (Rmult_comm 2). apply Rmult_le_compat_l; [exact H0|].
  pose proof (SIN_bound (INR p * x - (INR p * mu + (INR p - 1) * lam))). pose proof (SIN_bound (INR p * mu + (INR p - 1) * lam)).
  apply Rabs_le. lra.
Qed.
Lemma kjS_gap c N k x : 0 <= kj_rho c < 1 -> 0 <= kj_gamma c ->
  Rabs (kjS c (N + k) x - kjS c N x) <=
  2 / PI * (kj_gamma c / (INR N + 1)) * ((kj_rho c ^ N - kj_rho c ^ (N + k)) / (1 - kj_rho c)).
Proof.
  intros H Hg. pose proof PI_RGT_0 as P0. assert (HN : 0 <= INR N) by apply pos_INR.
  induction k as [|k IH].
  - rewrite Nat.add_0_r. replace (kjS c N x - kjS c N x) with 0 by ring. rewrite Rabs_R0. apply Req_le. field. lra.
  - replace (N + S k)%nat with (S (N + k)) by lia.
    assert (E : kjS c (S (N + k)) x - kjS c N x = (kjS c (N + k) x - kjS c N x) + 1 / PI * kjT (kj_gamma c) (kj_rho c) (kj_mu c) (kj_lam c) (S (N + k)) x).
    { unfold kjS. rewrite (Rsum_seq_S (fun p => kjT _ _ _ _ p x)). ring. }
    rewrite E. eapply Rle_trans; [apply Rabs_triang|].
    pose proof (kjT_bound (kj_gamma c) (kj_rho c) (kj_mu c) (kj_lam c) (S (N + k)) x Hg ltac:(lra) ltac:(lia)) as B.
    replace (S (N + k) - 1)%nat with (N + k)%nat in B by lia.
    assert (Hpow : 0 <= kj_rho c ^ (N + k)) by (apply pow_le; lra).
    assert (Bn : kj_gamma c * kj_rho c ^ (N + k) / INR (S (N + k)) <= kj_gamma c * kj_rho c ^ (N + k) / (INR N + 1)).
    { apply Rmult_le_compat_l; [apply Rmult_le_pos; assumption|]. apply Rinv_le_contravar; [lra|].
      rewrite S_INR, plus_INR. pose proof (pos_INR k). lra. }
    rewrite Rabs_mult, (Rabs_pos_eq (1 / PI)) by (apply Rlt_le, Rdiv_lt_0_compat; lra).
    assert (B2 : 1 / PI * Rabs (kjT (kj_gamma c) (kj_rho c) (kj_mu c) (kj_lam c) (S (N + k)) x)
                 <= 1 / PI * (2 * (kj_gamma c * kj_rho c ^ (N + k) / (INR N + 1)))).
    { apply Rmult_le_compat_l; [apply Rlt_le, Rdiv_lt_0_compat; lra|lra]. }
    apply Rle_trans with (2 / PI * (kj_gamma c / (INR N + 1)) * ((kj_rho c ^ N - kj_rho c ^ (N + k)) / (1 - kj_rho c))
      + 1 / PI * (2 * (kj_gamma c * kj_rho c ^ (N + k) / (INR N + 1)))); [lra|].
    apply Req_le. simpl pow. field. lra.
Qed.
Lemma kjS_exact c N P x : 0 <= kj_rho c < 1 -> 0 <= kj_gamma c < 1 -> 0 <= x <= 2 * PI ->
  (forall y, 0 <= y <= 2 * PI -> derivable_pt_lim P y (kjU c y)) -> P 0 = 0 ->
  Rabs (P x - kjS c N x) <= 2 / PI * (kj_gamma c / (INR N + 1)) * (kj_rho c ^ N / (1 - kj_rho c)).
Proof.
  intros H Hg Hx HP P0. pose proof PI_RGT_0 as Pp. assert (HN : 0 <= INR N) by apply pos_INR.
  set (B := 2 / PI * (kj_gamma c / (INR N + 1)) * (kj_rho c ^ N / (1 - kj_rho c))).
  apply le_epsilon. intros eps He.
  set (K := 2 / (PI * (1 - kj_rho c) ^ 2) * (2 * PI)).
  assert (HK : 0 < K).
  { unfold K. apply Rmult_lt_0_compat; [|lra]. apply Rdiv_lt_0_compat; [lra|]. apply Rmult_lt_0_compat; [lra|apply pow_lt; lra]. }
  destruct (pow_lt_1_zero (kj_rho c) ltac:(rewrite Rabs_pos_eq; lra) (eps / K) ltac:(apply Rdiv_lt_0_compat; lra)) as [M HM].
  specialize (HM (N + M)%nat ltac:(lia)). rewrite Rabs_pos_eq in HM by (apply pow_le; lra).
  pose proof (kjS_crude c (N + M) P x H Hg Hx HP P0) as C. fold K in C.
  pose proof (kjS_gap c N M x H ltac:(lra)) as G.
  assert (G2 : 2 / PI * (kj_gamma c / (INR N + 1)) * ((kj_rho c ^ N - kj_rho c ^ (N + M)) / (1 - kj_rho c)) <= B).
  { unfold B. apply Rmult_le_compat_l.
    - apply Rmult_le_pos; [apply Rlt_le, Rdiv_lt_0_compat; lra|]. apply Rmult_le_pos; [lra|apply Rlt_le, Rinv_0_lt_compat; lra].
    - apply Rmult_le_compat_r; [apply Rlt_le, Rinv_0_lt_compat; lra|]. pose proof (pow_le (kj_rho c) (N + M) ltac:(lra)). lra. }
  assert (C2 : kj_rho c ^ (N + M) * K < eps).
  { apply (Rmult_lt_compat_r K) in HM; [|exact HK]. replace (eps / K * K) with eps in HM by (field; lra). exact HM. }
  replace (P x - kjS c N x) with ((P x - kjS c (N + M) x) + (kjS c (N + M) x - kjS c N x)) by ring.
  eapply Rle_trans; [apply Rabs_triang|]. lra.
Qed.
