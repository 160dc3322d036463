From Verif Require Import Prelude NpModel NpProofs CircleSpec UtilsModel UtilsProofs HypGof3Proofs EmModel EmSpec.

(** * Regularised Kato-Jones parameters *)
Lemma clip_range x lo hi : lo <= hi -> lo <= clip x lo hi <= hi.
Proof. intros H. unfold clip. split; [apply Rmin_glb; auto; apply Rmax_r|apply Rmin_r]. Qed.
Lemma clip_id x lo hi : lo <= x <= hi -> clip x lo hi = x.
Proof. intros H. unfold clip. rewrite Rmax_left, Rmin_left; lra. Qed.
Lemma clip_cases x hi : 0 <= x -> (clip x 0 hi = x /\ x <= hi) \/ (clip x 0 hi = hi /\ hi < x).
Proof.
  intros H. unfold clip. rewrite Rmax_left by auto. destruct (Rle_dec x hi); [left|right]; (split; [|lra]); [apply Rmin_left|apply Rmin_right]; lra.
Qed.
Lemma mod2pi_range x : 0 <= mod2pi x < 2 * PI.
Proof. apply pymod_range. pose proof PI_RGT_0. lra. Qed.
Lemma mod2pi_cos x : cos (mod2pi x) = cos x.
Proof. apply same_dir_cos, pymod_same_dir. Qed.
Lemma mod2pi_sin x : sin (mod2pi x) = sin x.
Proof. apply same_dir_sin, pymod_same_dir. Qed.
Lemma hypot_nonneg x y : 0 <= hypot x y.
Proof. apply sqrt_pos. Qed.
Lemma polar x y : hypot x y * cos (arctan2 y x) = x /\ hypot x y * sin (arctan2 y x) = y.
Proof.
  destruct (Req_dec x 0) as [->|Hx]; [destruct (Req_dec y 0) as [->|Hy]|].
  - unfold hypot. rewrite !Rmult_0_l, Rplus_0_l, sqrt_0. lra.
  - destruct (arctan2_polar y 0) as [A B]; [right; auto|]. unfold hypot. lra.
  - destruct (arctan2_polar y x) as [A B]; [left; auto|]. unfold hypot. lra.
Qed.
Lemma floor_margins : 0 < gamma_floor /\ gamma_floor < 1 - gamma_margin /\ gamma_margin = 5 / 10000 /\ rho_margin = 5 / 10000 /\ s_shrink = 5 / 1000 /\
  constraint_margin = 5 / 10000 /\ gamma_floor = / 10000.
Proof. unfold gamma_floor, gamma_margin, rho_margin, s_shrink, constraint_margin. repeat split; lra. Qed.
(** The point of [rho_lam_from_aux]: it lies at distance (1 - gamma) s from (gamma, 0). *)
Lemma from_aux gamma s phi : gamma_floor <= gamma <= 1 - gamma_margin -> 0 <= s <= 1 - s_shrink ->
  exists rho lam, rho_lam_from_aux gamma s phi = (rho, lam) /\ 0 <= rho < 1 /\ 0 <= lam < 2 * PI /\
    rho * cos lam = gamma + (1 - gamma) * s * cos phi /\ rho * sin lam = (1 - gamma) * s * sin phi.
Proof.
  intros Hg Hs. destruct floor_margins as (F1 & F2 & F3 & F4 & F5 & F6 & F7). unfold rho_lam_from_aux.
  assert (E9 : 0 < / 10 ^ 9 < / 10 ^ 8) by (split; [lra|]; lra).
  rewrite (clip_id gamma) by lra. rewrite (clip_id s) by lra. rewrite mod2pi_cos, mod2pi_sin.
  set (rc := gamma + (1 - gamma) * s * cos phi). set (rs := (1 - gamma) * s * sin phi).
  assert (T : (1 - gamma) * s <= (1 - gamma) * (1 - s_shrink)) by (apply Rmult_le_compat_l; lra).
  assert (T2 : gamma + (1 - gamma) * (1 - s_shrink) <= 1 - 25 / 10000000) by (rewrite F5; lra).
  assert (T3 : 0 <= (1 - gamma) * s) by (apply Rmult_le_pos; lra).
  assert (B : hypot rc rs <= gamma + (1 - gamma) * s).
  { apply Rsqr_incr_0; [|apply hypot_nonneg|lra]. rewrite !Rsqr_pow2, hypot_sq. unfold rc, rs.
    set (q := (1 - gamma) * s) in *. replace ((gamma + q * cos phi) ^ 2 + (q * sin phi) ^ 2) with (gamma ^ 2 + 2 * gamma * q * cos phi + q ^ 2 * (sin phi ^ 2 + cos phi ^ 2)) by ring.
    pose proof (sin2_cos2 phi) as SC. unfold Rsqr in SC. replace (sin phi ^ 2 + cos phi ^ 2) with 1 by nra.
    assert (gamma * q * cos phi <= gamma * q * 1). { apply Rmult_le_compat_l; [apply Rmult_le_pos; lra|]. apply COS_bound. } nra. }
  pose proof (hypot_nonneg rc rs). assert (HB : 0 <= hypot rc rs <= 1 - 25 / 10000000) by lra.
  rewrite (clip_id (hypot rc rs)) by lra.
  exists (hypot rc rs), (mod2pi (arctan2 rs rc)). split; [reflexivity|]. split; [lra|]. split; [apply mod2pi_range|].
  rewrite mod2pi_cos, mod2pi_sin. apply polar.
Qed.
Lemma shorter g c s rho hi : c ^ 2 + s ^ 2 = 1 -> 0 <= g <= hi -> hi < rho ->
  (hi * c - g) ^ 2 + (hi * s) ^ 2 <= (rho * c - g) ^ 2 + (rho * s) ^ 2.
Proof.
  intros E H1 H2. replace ((hi * c - g) ^ 2 + (hi * s) ^ 2) with (hi ^ 2 * (c ^ 2 + s ^ 2) - 2 * hi * g * c + g ^ 2) by ring.
  replace ((rho * c - g) ^ 2 + (rho * s) ^ 2) with (rho ^ 2 * (c ^ 2 + s ^ 2) - 2 * rho * g * c + g ^ 2) by ring. rewrite E.
  assert (c <= 1) by nra. assert (g * c <= g). { pose proof (Rmult_le_compat_l g c 1). lra. } nra.
Qed.
Lemma regularise_space q : kj_space (kj_mu (regularise q)) (kj_gamma (regularise q)) (kj_rho (regularise q)) (kj_lam (regularise q)) /\
  gamma_floor <= kj_gamma (regularise q) <= 1 - gamma_margin /\ kj_rho (regularise q) <= 1 - rho_margin.
Proof.
  destruct floor_margins as (F1 & F2 & F3 & F4 & F5 & F6 & F7). unfold regularise.
  pose proof (clip_range (kj_gamma q) gamma_floor (1 - gamma_margin) ltac:(lra)) as G. set (g := clip (kj_gamma q) gamma_floor (1 - gamma_margin)) in *.
  pose proof (clip_range (kj_rho q) 0 (1 - rho_margin) ltac:(lra)) as R0. set (r := clip (kj_rho q) 0 (1 - rho_margin)) in *.
  assert (L : 0 < (1 - g) ^ 2) by (apply pow_lt; lra). destruct (Rleb_spec ((1 - g) ^ 2) 0) as [Z|_]; [lra|].
  pose proof (mod2pi_range (kj_mu q)) as Mu. pose proof (mod2pi_range (kj_lam q)) as La.
  destruct (Rleb_spec ((1 - g) ^ 2 - constraint_margin) (kj_constraint g r (mod2pi (kj_lam q)))) as [Z|Z].
  - destruct (aux_from_rho_lam g r (mod2pi (kj_lam q))) as [s0 phi]. 
    pose proof (clip_range s0 0 (1 - s_shrink) ltac:(lra)) as S0. set (s := clip s0 0 (1 - s_shrink) * (1 - s_shrink)).
    assert (Hs : 0 <= s <= 1 - s_shrink) by (unfold s; split; [apply Rmult_le_pos; lra|]; rewrite F5 in *; nra).
    destruct (from_aux g s phi G Hs) as (rho & lam & -> & Hr & Hl & E1 & E2). cbn [kj_mu kj_gamma kj_rho kj_lam].
    pose proof (clip_range rho 0 (1 - rho_margin) ltac:(lra)) as R1.
    split; [|split; [lra|lra]]. split; [lra|]. split; [lra|]. split; [lra|]. split; [apply mod2pi_range|]. rewrite mod2pi_cos, mod2pi_sin.
    assert (D : (rho * cos lam - g) ^ 2 + (rho * sin lam) ^ 2 <= (1 - g) ^ 2).
    { rewrite E1, E2. pose proof (sin2_cos2 phi) as SC. unfold Rsqr in SC.
      replace ((g + (1 - g) * s * cos phi - g) ^ 2 + ((1 - g) * s * sin phi) ^ 2) with ((1 - g) ^ 2 * s ^ 2 * (sin phi * sin phi + cos phi * cos phi)) by ring.
      rewrite SC. assert (s ^ 2 <= 1) by nra. nra. }
    destruct (clip_cases rho (1 - rho_margin)) as [[-> _]|[-> B]]; [lra|exact D|].
    eapply Rle_trans; [|exact D]. apply shorter; [|lra|lra]. pose proof (sin2_cos2 lam) as SC. unfold Rsqr in SC. lra.
  - cbn [kj_mu kj_gamma kj_rho kj_lam]. unfold kj_constraint in Z. split; [|lra]. repeat (split; [lra|]). lra.
Qed.
Lemma space_argcheck c : kj_space (kj_mu c) (kj_gamma c) (kj_rho c) (kj_lam c) -> kj_argcheck c = true.
Proof.
  intros (A & B & C & D & E). unfold kj_argcheck, kj_constraint.
  repeat (apply andb_true_intro; split); try (apply Rleb_true; lra); try (apply Rltb_true; lra).
Qed.
(** Parameters with a margin are only wrapped. *)
Lemma regularise_keeps q : gamma_floor <= kj_gamma q <= 1 - gamma_margin -> 0 <= kj_rho q <= 1 - rho_margin ->
  kj_constraint (kj_gamma q) (kj_rho q) (kj_lam q) < (1 - kj_gamma q) ^ 2 - constraint_margin ->
  regularise q = {| kj_mu := mod2pi (kj_mu q); kj_gamma := kj_gamma q; kj_rho := kj_rho q; kj_lam := mod2pi (kj_lam q) |}.
Proof.
  intros G R0 C. destruct floor_margins as (F1 & F2 & F3 & F4 & F5 & F6 & F7). unfold regularise. rewrite (clip_id (kj_gamma q)), (clip_id (kj_rho q)) by lra.
  assert (L : 0 < (1 - kj_gamma q) ^ 2) by (apply pow_lt; lra). destruct (Rleb_spec ((1 - kj_gamma q) ^ 2) 0) as [Z|_]; [lra|].
  assert (E : kj_constraint (kj_gamma q) (kj_rho q) (mod2pi (kj_lam q)) = kj_constraint (kj_gamma q) (kj_rho q) (kj_lam q)).
  { unfold kj_constraint. now rewrite mod2pi_cos, mod2pi_sin. }
  rewrite E. destruct (Rleb_spec ((1 - kj_gamma q) ^ 2 - constraint_margin) (kj_constraint (kj_gamma q) (kj_rho q) (kj_lam q))); [lra|reflexivity].
Qed.
(** Admissible parameters that are changed. *)
Definition near_one : kj := {| kj_mu := 0; kj_gamma := 99/100; kj_rho := 985/1000; kj_lam := 0 |}.
Lemma near_one_space : kj_space (kj_mu near_one) (kj_gamma near_one) (kj_rho near_one) (kj_lam near_one).
Proof. pose proof PI_RGT_0. unfold kj_space. cbn [near_one kj_mu kj_gamma kj_rho kj_lam]. rewrite cos_0, sin_0. repeat split; lra. Qed.
Lemma near_one_moved : kj_rho (regularise near_one) <> kj_rho near_one \/ kj_lam (regularise near_one) <> kj_lam near_one.
Proof.
  destruct (Req_dec (kj_rho (regularise near_one)) (kj_rho near_one)) as [E1|]; [|now left].
  destruct (Req_dec (kj_lam (regularise near_one)) (kj_lam near_one)) as [E2|]; [exfalso|now right]. revert E1 E2.
  destruct floor_margins as (F1 & F2 & F3 & F4 & F5 & F6 & F7). pose proof PI_RGT_0.
  assert (M0 : mod2pi 0 = 0) by (apply pymod_small; lra).
  unfold regularise. cbn [near_one kj_mu kj_gamma kj_rho kj_lam]. rewrite (clip_id (99/100)), (clip_id (985/1000)), M0 by lra.
  destruct (Rleb_spec ((1 - 99/100) ^ 2) 0) as [Z|_]; [lra|]. unfold kj_constraint. rewrite cos_0, sin_0.
  destruct (Rleb_spec ((1 - 99/100) ^ 2 - constraint_margin) ((985/1000 * 1 - 99/100) ^ 2 + (985/1000 * 0) ^ 2)) as [_|Z]; [|lra].
  unfold aux_from_rho_lam. rewrite (clip_id (99/100)), (clip_id (985/1000)), M0, cos_0, sin_0 by lra.
  destruct (Rleb_spec (1 - / 10 ^ 12) (99/100)) as [Z|_]; [lra|]. rewrite (Rmax_right (/ 10 ^ 12)) by lra.
  set (phi := if Rltb _ _ then _ else _).
  replace (hypot (985/1000 * 1 - 99/100) (985/1000 * 0)) with (5/1000).
  2:{ unfold hypot. replace ((985/1000 * 1 - 99/100) * (985/1000 * 1 - 99/100) + 985/1000 * 0 * (985/1000 * 0)) with (5/1000 * (5/1000)) by field. now rewrite sqrt_square by lra. }
  rewrite (clip_id (5/1000 / (1 - 99/100)) 0 (1 - / 10 ^ 9)) by lra.
  rewrite (clip_id (5/1000 / (1 - 99/100))) by lra.
  destruct (from_aux (99/100) (5/1000 / (1 - 99/100) * (1 - s_shrink)) phi ltac:(lra) ltac:(lra)) as (rho & lam & -> & Hr & Hl & E1 & E2).
  cbn [kj_rho kj_lam]. intros R1 L1. assert (Rr : rho = 985/1000).
  { destruct (clip_cases rho (1 - rho_margin)) as [[E _]|[E _]]; [lra|lra|lra]. }
  rewrite <- (mod2pi_cos lam), L1, cos_0 in E1. rewrite <- (mod2pi_sin lam), L1, sin_0 in E2. subst rho.
  pose proof (sin2_cos2 phi) as SC. unfold Rsqr in SC. rewrite F5 in *. nra.
Qed.
