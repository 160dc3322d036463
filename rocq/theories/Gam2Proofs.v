(** The integral of (1 + cos)^s over a turn is 2 pi Gamma(1 + 2 s) / (2^s Gamma(1 + s)^2). *)
From Verif Require Import Prelude NpModel NpProofs IntSpec IntProofs DistModel DistProofs Dist4Proofs Dist7Proofs KjProofs Kj2Proofs JpProofs GaussProofs CwModel CwSpec GamProofs.

Lemma kc_int s : 0 < s -> exists v, integral (kc s) 0 (2 * PI) v.
Proof. intros H. pose proof PI_RGT_0. apply continuous_integral; [lra|intros; apply kc_cont, H]. Qed.
Lemma kc_mass_pos s v : 0 < s -> integral (kc s) 0 (2 * PI) v -> 0 < v.
Proof.
  intros H I. pose proof PI_gt3 as P. destruct (continuous_integral (kc s) 0 1 ltac:(lra) (fun x _ => kc_cont s x H)) as [v1 I1]. destruct (continuous_integral (kc s) 1 (2 * PI) ltac:(lra) (fun x _ => kc_cont s x H)) as [v2 I2].
  pose proof (integral_split _ _ _ _ _ _ I1 I2) as I3. rewrite (integral_unique _ _ _ _ _ I I3).
  assert (0 * (2 * PI - 1) <= v2) by (apply (integral_le (fun _ => 0) (kc s) 1 (2 * PI) _ _ ltac:(lra)); [intros; apply npow_nonneg|apply integral_const|exact I2]).
  assert (1 * (1 - 0) <= v1).
  { apply (integral_le (fun _ => 1) (kc s) 0 1 _ _ ltac:(lra)); [|apply integral_const|exact I1]. intros x Hx. assert (0 <= cos x) by (apply cos_ge_0; lra). unfold kc. rewrite npow_pos by lra.
    unfold Rpower. rewrite <- exp_0 at 1. apply expm_le. assert (0 <= ln (1 + cos x)) by (rewrite <- ln_1; apply ln_mono; lra). nra. }
  lra.
Qed.
Lemma npow_half_mono a b c : 0 < a <= b -> 0 <= c <= 1 -> npow c b <= npow c a.
Proof.
  intros H Hc. destruct (Rlt_dec 0 c) as [L|L]; [|rewrite !npow_0 by lra; lra]. rewrite !npow_pos by exact L. unfold Rpower. apply expm_le. assert (ln c <= 0) by (rewrite <- ln_1; apply ln_mono; lra). nra.
Qed.
(** The integral of ((1 + cos) / 2)^s. *)
Lemma kc_scale s u : kc s u = Rpower 2 s * npow ((1 + cos u) / 2) s.
Proof.
  unfold kc. destruct (Rlt_dec 0 (1 + cos u)) as [L|L]; [|rewrite !npow_0 by lra; ring]. rewrite !npow_pos by lra. rewrite Rpower_mult_distr by lra. f_equal. field.
Qed.
Lemma kc_mono a b v w : 0 < a <= b -> integral (kc a) 0 (2 * PI) v -> integral (kc b) 0 (2 * PI) w -> w * Rpower 2 (- b) <= v * Rpower 2 (- a).
Proof.
  intros H I1 I2. pose proof PI_RGT_0 as P. rewrite (Rmult_comm w), (Rmult_comm v).
  apply (integral_le (fun u => Rpower 2 (- b) * kc b u) (fun u => Rpower 2 (- a) * kc a u) 0 (2 * PI) _ _ ltac:(lra)); [|apply integral_scal; [lra|exact I2]|apply integral_scal; [lra|exact I1]].
  intros u _. rewrite (kc_scale a), (kc_scale b), <- !Rmult_assoc, <- !Rpower_plus. replace (- b + b) with 0 by ring. replace (- a + a) with 0 by ring. rewrite Rpower_O by lra. rewrite !Rmult_1_l.
  apply npow_half_mono; [exact H|]. pose proof (COS_bound u). lra.
Qed.
(** The logarithm of the quotient of the two sides. *)
Definition lrho (g : R -> R) (s v : R) : R := ln v + s * ln 2 + 2 * ln (g (1 + s)) - ln (2 * PI) - ln (g (1 + 2 * s)).
Lemma lrho_step g s v w : is_gamma g -> 0 < s -> integral (kc s) 0 (2 * PI) v -> integral (kc (s + 1)) 0 (2 * PI) w -> lrho g (s + 1) w = lrho g s v.
Proof.
  intros (_ & Hr & _) Hs I1 I2. pose proof (kc_mass_pos s v Hs I1) as V. pose proof (kc_mass_pos (s + 1) w ltac:(lra) I2) as W. pose proof (kc_rec s v w Hs I1 I2) as E.
  assert (El : ln (1 + s) + ln w = ln (1 + 2 * s) + ln v) by (rewrite <- !ln_mult by lra; rewrite E; reflexivity).
  destruct (Hr (1 + s) ltac:(lra)) as [P1 E1]. destruct (Hr (1 + 2 * s) ltac:(lra)) as [P2 E2]. destruct (Hr (1 + 2 * s + 1) ltac:(lra)) as [P3 E3].
  unfold lrho. replace (1 + (s + 1)) with (1 + s + 1) by ring. replace (1 + 2 * (s + 1)) with (1 + 2 * s + 1 + 1) by ring. rewrite E1, E3, E2. rewrite (ln_mult (1 + s)), (ln_mult (1 + 2 * s + 1)), (ln_mult (1 + 2 * s)) by (try apply Rmult_lt_0_compat; lra).
  replace (1 + 2 * s + 1) with (2 * (1 + s)) by ring. rewrite (ln_mult 2 (1 + s)) by lra. lra.
Qed.
Lemma lrho_one g v : is_gamma g -> integral (kc 1) 0 (2 * PI) v -> lrho g 1 v = 0.
Proof.
  intros (H1 & Hr & _) I. pose proof PI_RGT_0 as P. assert (E : v = 2 * PI).
  { apply (integral_unique (kc 1) 0 (2 * PI)); [exact I|]. apply (integral_ext (fun u => 1 + cos u)); [lra| |].
    - intros u _. unfold kc. pose proof (COS_bound u). destruct (Rlt_dec 0 (1 + cos u)) as [L|L]; [rewrite npow_pos, Rpower_1 by exact L; reflexivity|rewrite npow_0 by lra; lra].
    - apply (integral_val _ _ _ (2 * PI + sin (2 * PI) - (0 + sin 0))); [rewrite sin_0, sin_2PI; ring|]. apply (ftc _ (fun t => t + sin t)); [lra| |].
      + intros x _. apply cont_plus; [apply cont_const|apply cos_cont].
      + intros x _. apply (dlim_plus (fun t => t) sin); [apply dlim_id|apply derivable_pt_lim_sin]. }
  destruct (Hr 1 ltac:(lra)) as [_ E1]. destruct (Hr 2 ltac:(lra)) as [_ E2]. unfold lrho. replace (1 + 1) with 2 in * by ring. replace (1 + 2 * 1) with (2 + 1) by ring. rewrite E2, E1, H1, E, !Rmult_1_r, Rmult_1_l. rewrite ln_1. lra.
Qed.
Lemma lrho_nat g n : is_gamma g -> forall v, integral (kc (INR n + 1)) 0 (2 * PI) v -> lrho g (INR n + 1) v = 0.
Proof.
  intros H. induction n as [|n IH]; intros v I.
  - simpl in *. replace (0 + 1) with 1 in * by ring. apply lrho_one; assumption.
  - rewrite S_INR in *. pose proof (pos_INR n). destruct (kc_int (INR n + 1) ltac:(lra)) as [w Iw]. rewrite (lrho_step g (INR n + 1) w v H ltac:(lra) Iw I). apply IH, Iw.
Qed.
Lemma lrho_shift g s n : is_gamma g -> 0 < s -> forall v w, integral (kc s) 0 (2 * PI) v -> integral (kc (INR n + s)) 0 (2 * PI) w -> lrho g (INR n + s) w = lrho g s v.
Proof.
  intros H Hs. induction n as [|n IH]; intros v w Iv Iw.
  - simpl in *. rewrite Rplus_0_l in *. rewrite (integral_unique _ _ _ _ _ Iv Iw). reflexivity.
  - rewrite S_INR in *. pose proof (pos_INR n). replace (INR n + 1 + s) with (INR n + s + 1) in * by ring. destruct (kc_int (INR n + s) ltac:(lra)) as [y Iy].
    rewrite (lrho_step g (INR n + s) y w H ltac:(lra) Iy Iw). apply IH; assumption.
Qed.
Lemma lrho_squeeze g n x v : is_gamma g -> (1 <= n)%nat -> 0 < x <= 1 -> integral (kc (INR n + x)) 0 (2 * PI) v ->
  Rabs (lrho g (INR n + x) v) <= 3 * (ln (INR n + 1) - ln (INR n)).
Proof.
  intros H Hn Hx I. assert (N : 1 <= INR n) by (replace 1 with (INR 1) by reflexivity; apply le_INR, Hn). set (m := INR n) in *.
  assert (Z0 : forall w, integral (kc m) 0 (2 * PI) w -> lrho g m w = 0).
  { destruct n as [|k]; [lia|]. unfold m. rewrite S_INR. apply lrho_nat, H. }
  destruct (kc_int m ltac:(lra)) as [v0 I0]. destruct (kc_int (m + 1) ltac:(lra)) as [v1 I1]. pose proof (Z0 v0 I0) as E0.
  pose proof (kc_mass_pos m v0 ltac:(lra) I0) as P0. pose proof (kc_mass_pos (m + 1) v1 ltac:(lra) I1) as P1. pose proof (kc_mass_pos (m + x) v ltac:(lra) I) as P.
  pose proof (kc_mono m (m + x) v0 v ltac:(lra) I0 I) as M1. pose proof (kc_mono (m + x) (m + 1) v v1 ltac:(lra) I I1) as M2. pose proof (kc_rec m v0 v1 ltac:(lra) I0 I1) as Er.
  assert (R2 : forall y, 0 < Rpower 2 y) by (intros; apply exp_pos). assert (lR : forall y, ln (Rpower 2 y) = y * ln 2) by (intros; unfold Rpower; apply ln_exp).
  assert (L1 : ln v - (m + x) * ln 2 <= ln v0 - m * ln 2).
  { pose proof (ln_mono _ _ (Rmult_lt_0_compat _ _ P (R2 (- (m + x)))) M1) as L. rewrite !ln_mult, !lR in L by (try apply R2; assumption). lra. }
  assert (L2 : ln v1 - (m + 1) * ln 2 <= ln v - (m + x) * ln 2).
  { pose proof (ln_mono _ _ (Rmult_lt_0_compat _ _ P1 (R2 (- (m + 1)))) M2) as L. rewrite !ln_mult, !lR in L by (try apply R2; assumption). lra. }
  assert (L3 : ln (1 + m) + ln v1 = ln (1 + 2 * m) + ln v0) by (rewrite <- !ln_mult by lra; rewrite Er; reflexivity).
  pose proof (gam_bounds1 g m x H ltac:(lra) ltac:(lra)) as G1. pose proof (gam_bounds g (2 * m) (2 * x) H ltac:(lra) ltac:(lra)) as G2.
  replace (2 * m + 1 + 2 * x) with (1 + 2 * (m + x)) in G2 by ring. replace (m + 1 + x) with (1 + (m + x)) in G1 by ring. rewrite (Rplus_comm m 1) in G1. replace (2 * m + 1) with (1 + 2 * m) in G2 by ring.
  replace (2 * m + 2) with (2 * (1 + m)) in G2 by ring. rewrite (ln_mult 2 m), (ln_mult 2 (1 + m)) in G2 by lra.
  assert (D : 0 <= ln (1 + m) - ln m) by (pose proof (ln_mono m (1 + m) ltac:(lra) ltac:(lra)); lra).
  assert (L4 : ln (2 * m) <= ln (1 + 2 * m)) by (apply ln_mono; lra). rewrite ln_mult in L4 by lra. unfold lrho in *. rewrite (Rplus_comm m 1).
  assert (X : x * (ln (1 + m) - ln m) <= ln (1 + m) - ln m) by nra.
  apply Rabs_le. split; lra.
Qed.
Lemma ln_gap n : (1 <= n)%nat -> ln (INR n + 1) - ln (INR n) <= / INR n.
Proof.
  intros Hn. assert (N : 1 <= INR n) by (replace 1 with (INR 1) by reflexivity; apply le_INR, Hn). pose proof (Rinv_0_lt_compat (INR n) ltac:(lra)) as Q.
  replace (INR n + 1) with (INR n * (1 + / INR n)) by (field; lra). rewrite ln_mult by lra. assert (ln (1 + / INR n) <= / INR n); [|lra].
  rewrite <- (ln_exp (/ INR n)) at 2. apply ln_mono; [lra|]. left. apply exp_ineq1. lra.
Qed.
Lemma lrho_unit g x v : is_gamma g -> 0 < x <= 1 -> integral (kc x) 0 (2 * PI) v -> lrho g x v = 0.
Proof.
  intros H Hx I. destruct (Req_dec (lrho g x v) 0) as [E|E]; [exact E|exfalso]. pose proof (Rabs_pos_lt _ E) as Q. set (d := Rabs (lrho g x v)) in *.
  destruct (archimed_cor1 (d / 3) ltac:(lra)) as (n & Hn & n0). destruct (kc_int (INR n + x)) as [w Iw]; [pose proof (pos_INR n); lra|].
  pose proof (lrho_squeeze g n x w H n0 Hx Iw) as S. rewrite (lrho_shift g x n H ltac:(lra) v w I Iw) in S. fold d in S. pose proof (ln_gap n n0). lra.
Qed.
Lemma lrho_all g s v : is_gamma g -> 0 < s -> integral (kc s) 0 (2 * PI) v -> lrho g s v = 0.
Proof.
  intros H Hs I. assert (A : forall n x w, 0 < x <= 1 -> integral (kc (INR n + x)) 0 (2 * PI) w -> lrho g (INR n + x) w = 0).
  { intros n x w Hx Iw. destruct (kc_int x ltac:(lra)) as [y Iy]. rewrite (lrho_shift g x n H ltac:(lra) y w Iy Iw). apply (lrho_unit g x y H Hx Iy). }
  set (z := Rfloor (- s)). destruct (Rfloor_spec (- s)) as [F1 F2]. fold z in F1, F2. set (k := (- z - 1)%Z).
  assert (k0 : (0 <= k)%Z). { unfold k. assert (IZR z < 0) by lra. apply lt_IZR in H0. lia. }
  assert (Ek : IZR k = - IZR z - 1) by (unfold k; rewrite minus_IZR, opp_IZR; ring).
  specialize (A (Z.to_nat k) (s - IZR k) v). rewrite INR_IZR_INZ, Z2Nat.id in A by exact k0. replace (IZR k + (s - IZR k)) with s in A by ring. apply A; [lra|exact I].
Qed.
Theorem kc_mass g s v : is_gamma g -> 0 < s -> integral (kc s) 0 (2 * PI) v -> v = 2 * PI * g (1 + 2 * s) / (Rpower 2 s * g (1 + s) ^ 2).
Proof.
  intros H Hs I. pose proof (lrho_all g s v H Hs I) as E. pose proof (kc_mass_pos s v Hs I) as V. pose proof PI_RGT_0 as P. destruct H as (_ & Hr & _). destruct (Hr (1 + s) ltac:(lra)) as [P1 _]. destruct (Hr (1 + 2 * s) ltac:(lra)) as [P2 _].
  assert (R0 : 0 < Rpower 2 s) by apply exp_pos. assert (Q : 0 < 2 * PI * g (1 + 2 * s) / (Rpower 2 s * g (1 + s) ^ 2)).
  { apply Rmult_lt_0_compat; [apply Rmult_lt_0_compat; lra|]. apply Rinv_0_lt_compat. apply Rmult_lt_0_compat; [exact R0|apply pow_lt, P1]. }
  apply ln_inv; try assumption. assert (lR : ln (Rpower 2 s) = s * ln 2) by (unfold Rpower; apply ln_exp). assert (G2 : 0 < g (1 + s) ^ 2) by apply pow_lt, P1.
  assert (lg : ln (g (1 + s) ^ 2) = 2 * ln (g (1 + s))) by (replace (g (1 + s) ^ 2) with (g (1 + s) * g (1 + s)) by ring; rewrite ln_mult by assumption; ring).
  assert (D0 : 0 < Rpower 2 s * g (1 + s) ^ 2) by (apply Rmult_lt_0_compat; assumption).
  unfold Rdiv. rewrite (ln_mult (2 * PI * g (1 + 2 * s))), ln_Rinv, (ln_mult (2 * PI)), (ln_mult (Rpower 2 s)), lR, lg by (try assumption; try (apply Rinv_0_lt_compat; assumption); try lra; apply Rmult_lt_0_compat; lra).
  unfold lrho in E. lra.
Qed.
