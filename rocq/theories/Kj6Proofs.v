(** katojones: moment conversions, projection and the method-of-moments fit. *)
From Verif Require Import Prelude EmModel NpModel NpProofs CircleSpec UtilsModel DescModel IntSpec IntProofs DistModel DistSpec DistProofs
  Dist2Proofs Dist4Proofs Dist5Proofs Dist7Proofs Dist8Proofs KjModel KjSpec KjProofs Kj2Proofs Kj4Proofs.

Lemma hypot_scale r t : 0 <= r -> hypot (r * cos t) (r * sin t) = r.
Proof.
  intros H. unfold hypot. replace (r * cos t * (r * cos t) + r * sin t * (r * sin t)) with (r * r * (sin t * sin t + cos t * cos t)) by ring.
  pose proof (sin2_cos2 t) as E. unfold Rsqr in E. rewrite E, Rmult_1_r. apply sqrt_square. exact H.
Qed.
Lemma hypot_sq a b : hypot a b * hypot a b = a ^ 2 + b ^ 2.
Proof. unfold hypot. rewrite sqrt_sqrt; [ring|]. nra. Qed.
Lemma hypot_nonneg a b : 0 <= hypot a b.
Proof. apply sqrt_pos. Qed.
Lemma polar_mod a b : a <> 0 \/ b <> 0 ->
  a = hypot a b * cos (mod2pi (arctan2 b a)) /\ b = hypot a b * sin (mod2pi (arctan2 b a)).
Proof.
  intros H. destruct (arctan2_polar b a H) as [Ea Eb]. unfold mod2pi.
  rewrite (same_dir_cos _ _ (pymod_same_dir (arctan2 b a))), (same_dir_sin _ _ (pymod_same_dir (arctan2 b a))).
  unfold hypot. split; assumption.
Qed.
Lemma mod2pi_range x : 0 <= mod2pi x < 2 * PI.
Proof. apply pymod_range. pose proof PI_RGT_0. lra. Qed.
Lemma arctan2_mod r t : 0 < r -> 0 <= t < 2 * PI -> mod2pi (arctan2 (r * sin t) (r * cos t)) = t.
Proof.
  intros Hr Ht. pose proof PI_RGT_0. unfold mod2pi.
  rewrite (proj1 (same_dir_pymod _ t) (arctan2_unique r t _ _ Hr eq_refl eq_refl)). apply pymod_small. exact Ht.
Qed.

Lemma kj_disk gamma rho lam : (gamma * rho * cos lam - gamma * gamma) ^ 2 + (gamma * rho * sin lam) ^ 2 =
  gamma ^ 2 * kj_constraint gamma rho lam.
Proof. unfold kj_constraint. ring. Qed.

Lemma kj_there_and_back gamma rho lam verify : / 10 ^ 12 < gamma < 1 -> 0 <= rho <= 1 - / 10 ^ 12 -> 0 <= lam < 2 * PI ->
  (rho * cos lam - gamma) ^ 2 + (rho * sin lam) ^ 2 <= (1 - gamma) ^ 2 -> / 10 ^ 12 < gamma * rho ->
  exists a b, kj_to_alpha_beta gamma rho lam verify = Ok (a, b) /\ kj_to_rho_lam gamma a b verify = Ok (rho, lam).
Proof.
  intros Hg Hr Hl Hc Hgr. pose proof kj_tol_pos as T. unfold kj_tol in T.
  exists (gamma * rho * cos lam), (gamma * rho * sin lam). split.
  - unfold kj_to_alpha_beta. destruct (Rleb_spec 0 gamma); [|lra]. destruct (Rltb_spec gamma 1); [|lra].
    destruct (Rleb_spec 0 rho); [|lra]. destruct (Rltb_spec rho 1); [|lra]. cbn [andb negb].
    unfold kj_constraint. destruct (Rltb_spec ((1 - gamma) ^ 2 + / 10 ^ 12) ((rho * cos lam - gamma) ^ 2 + (rho * sin lam) ^ 2)); [lra|].
    rewrite andb_false_r. reflexivity.
  - unfold kj_to_rho_lam. destruct (Rleb_spec 0 gamma); [|lra]. destruct (Rltb_spec gamma 1); [|lra]. cbn [andb negb]. cbv zeta.
    rewrite kj_disk. assert (G2 : gamma ^ 2 * kj_constraint gamma rho lam <= gamma ^ 2 * (1 - gamma) ^ 2)
      by (apply Rmult_le_compat_l; [apply pow2_ge_0|exact Hc]).
    destruct (Rltb_spec ((gamma * (1 - gamma)) ^ 2 + / 10 ^ 12) (gamma ^ 2 * kj_constraint gamma rho lam)) as [B|B];
      [replace ((gamma * (1 - gamma)) ^ 2) with (gamma ^ 2 * (1 - gamma) ^ 2) in B by ring; lra|].
    rewrite andb_false_r. destruct (Rleb_spec gamma (/ 10 ^ 12)); [lra|].
    rewrite hypot_scale by lra. replace (gamma * rho / gamma) with rho by (field; lra). rewrite clip_in by lra.
    destruct (Rleb_spec (gamma * rho) (/ 10 ^ 12)); [lra|]. rewrite arctan2_mod by lra. reflexivity.
Qed.
Lemma kj_back_and_there gamma a b verify : / 10 ^ 12 < gamma < 1 ->
  (a - gamma ^ 2) ^ 2 + b ^ 2 <= (gamma * (1 - gamma)) ^ 2 ->
  / 10 ^ 12 < sqrt (a ^ 2 + b ^ 2) <= gamma * (1 - / 10 ^ 12) ->
  exists rho lam, kj_to_rho_lam gamma a b verify = Ok (rho, lam) /\ 0 <= rho < 1 /\ 0 <= lam < 2 * PI /\
    (rho * cos lam - gamma) ^ 2 + (rho * sin lam) ^ 2 <= (1 - gamma) ^ 2 /\
    kj_to_alpha_beta gamma rho lam verify = Ok (a, b).
Proof.
  intros Hg Hd Hr. pose proof kj_tol_pos as T. unfold kj_tol in T.
  assert (Eh : sqrt (a ^ 2 + b ^ 2) = hypot a b) by (unfold hypot; f_equal; ring). rewrite Eh in Hr.
  assert (Hne : a <> 0 \/ b <> 0).
  { destruct (Req_dec a 0) as [->|]; [|left; assumption]. right. intros ->. unfold hypot in Hr.
    replace (0 * 0 + 0 * 0) with 0 in Hr by ring. rewrite sqrt_0 in Hr. lra. }
  destruct (polar_mod a b Hne) as [Ea Eb]. set (r2 := hypot a b) in *. set (lam := mod2pi (arctan2 b a)) in *.
  assert (Hl : 0 <= lam < 2 * PI) by apply mod2pi_range.
  set (rho := r2 / gamma).
  assert (Hrho : 0 <= rho <= 1 - / 10 ^ 12).
  { unfold rho. split; [apply Rlt_le, Rdiv_lt_0_compat; lra|]. apply Rmult_le_reg_r with gamma; [lra|].
    unfold Rdiv. rewrite Rmult_assoc, Rinv_l by lra. lra. }
  assert (Er : r2 = gamma * rho) by (unfold rho; field; lra).
  assert (Hc : (rho * cos lam - gamma) ^ 2 + (rho * sin lam) ^ 2 <= (1 - gamma) ^ 2).
  { pose proof (kj_disk gamma rho lam) as D. rewrite <- Er, <- Ea, <- Eb in D. unfold kj_constraint in D.
    apply Rmult_le_reg_l with (gamma ^ 2); [apply pow_lt; lra|]. rewrite <- D.
    replace (gamma * gamma) with (gamma ^ 2) by ring. replace (gamma ^ 2 * (1 - gamma) ^ 2) with ((gamma * (1 - gamma)) ^ 2) by ring. exact Hd. }
  exists rho, lam. split; [|split; [lra|split; [exact Hl|split; [exact Hc|]]]].
  - unfold kj_to_rho_lam. destruct (Rleb_spec 0 gamma); [|lra]. destruct (Rltb_spec gamma 1); [|lra]. cbn [andb negb]. cbv zeta.
    destruct (Rltb_spec ((gamma * (1 - gamma)) ^ 2 + / 10 ^ 12) ((a - gamma * gamma) ^ 2 + b ^ 2)) as [B|B];
      [replace (gamma * gamma) with (gamma ^ 2) in B by ring; lra|].
    rewrite andb_false_r. destruct (Rleb_spec gamma (/ 10 ^ 12)); [lra|]. fold r2 rho. rewrite clip_in by lra.
    destruct (Rleb_spec r2 (/ 10 ^ 12)); [lra|]. reflexivity.
  - unfold kj_to_alpha_beta. destruct (Rleb_spec 0 gamma); [|lra]. destruct (Rltb_spec gamma 1); [|lra].
    destruct (Rleb_spec 0 rho); [|lra]. destruct (Rltb_spec rho 1); [|lra]. cbn [andb negb].
    unfold kj_constraint. destruct (Rltb_spec ((1 - gamma) ^ 2 + / 10 ^ 12) ((rho * cos lam - gamma) ^ 2 + (rho * sin lam) ^ 2)); [lra|].
    rewrite andb_false_r, <- Er, <- Ea, <- Eb. reflexivity.
Qed.

(** ** Projection *)
Lemma cauchy_plane u v x y : u * x + v * y <= hypot u v * hypot x y.
Proof.
  pose proof (hypot_nonneg u v). pose proof (hypot_nonneg x y).
  pose proof (hypot_sq u v) as E1. pose proof (hypot_sq x y) as E2.
  set (p := hypot u v) in *. set (q := hypot x y) in *.
  destruct (Rle_dec (u * x + v * y) (p * q)); [assumption|].
  assert (0 <= (u * y - v * x) ^ 2) by apply pow2_ge_0.
  assert ((u * x + v * y) ^ 2 <= (p * q) ^ 2) by (replace ((p * q) ^ 2) with ((p * p) * (q * q)) by ring; rewrite E1, E2; nra).
  assert (0 <= p * q) by (apply Rmult_le_pos; assumption). nra.
Qed.
Lemma kj_project_spec gamma a b : 0 <= gamma < 1 ->
  let (a', b') := kj_project gamma a b in
  (a' - gamma ^ 2) ^ 2 + b' ^ 2 <= (gamma * (1 - gamma)) ^ 2 /\
  forall x y, (x - gamma ^ 2) ^ 2 + y ^ 2 <= (gamma * (1 - gamma)) ^ 2 ->
    sqrt ((a' - a) ^ 2 + (b' - b) ^ 2) <= sqrt ((x - a) ^ 2 + (y - b) ^ 2).
Proof.
  intros Hg. unfold kj_project. set (rad := gamma * (1 - gamma)). set (d := hypot (a - gamma * gamma) b).
  assert (Hrad : 0 <= rad) by (apply Rmult_le_pos; lra).
  replace (gamma ^ 2) with (gamma * gamma) by ring. set (ct := gamma * gamma) in *.
  destruct (Rleb_spec rad 0) as [R0|R0].
  - assert (E : rad = 0) by lra. rewrite E. split; [nra|]. intros x y H.
    assert (x = ct) by (assert (0 <= (x - ct) ^ 2) by apply pow2_ge_0; assert (0 <= y ^ 2) by apply pow2_ge_0;
      assert ((x - ct) * (x - ct) = 0) by nra; apply Rmult_integral in H2; lra).
    assert (y = 0) by (assert (0 <= (x - ct) ^ 2) by apply pow2_ge_0; assert (y * y = 0) by nra; apply Rmult_integral in H2; lra).
    subst. right. reflexivity.
  - assert (Hd0 : 0 <= d) by apply hypot_nonneg. assert (Hd2 : d * d = (a - ct) ^ 2 + b ^ 2) by apply hypot_sq.
    destruct (Rleb_spec d rad) as [D|D].
    + split; [rewrite <- Hd2; nra|]. intros x y H.
      replace ((a - a) ^ 2 + (b - b) ^ 2) with 0 by ring. rewrite sqrt_0. apply sqrt_pos.
    + destruct (Reqb_spec d 0) as [Z|Z]; [lra|].
      assert (Hd : 0 < d) by lra. split.
      * replace ((ct + (a - ct) * (rad / d) - ct) ^ 2 + (b * (rad / d)) ^ 2) with (((a - ct) ^ 2 + b ^ 2) * (rad / d) ^ 2) by ring.
        rewrite <- Hd2. right. field. lra.
      * intros x y H.
        assert (E1 : sqrt ((ct + (a - ct) * (rad / d) - a) ^ 2 + (b * (rad / d) - b) ^ 2) = d - rad).
        { rewrite <- (sqrt_square (d - rad)) by lra. f_equal.
          replace ((ct + (a - ct) * (rad / d) - a) ^ 2 + (b * (rad / d) - b) ^ 2) with (((a - ct) ^ 2 + b ^ 2) * (1 - rad / d) ^ 2) by ring.
          rewrite <- Hd2. field. lra. }
        rewrite E1.
        rewrite <- (sqrt_square (d - rad)) by lra. apply sqrt_le_1_alt.
        pose proof (cauchy_plane (a - ct) b (x - ct) y) as CS. fold d in CS.
        assert (Hh : hypot (x - ct) y <= rad).
        { unfold hypot. rewrite <- (sqrt_square rad) by lra. apply sqrt_le_1_alt. nra. }
        pose proof (hypot_nonneg (x - ct) y). pose proof (hypot_sq (x - ct) y) as Eh. set (h := hypot (x - ct) y) in *.
        assert (d * h <= d * h) by lra.
        replace ((x - a) ^ 2 + (y - b) ^ 2) with (((x - ct) ^ 2 + y ^ 2) + ((a - ct) ^ 2 + b ^ 2) - 2 * ((a - ct) * (x - ct) + b * y)) by ring.
        rewrite <- Eh, <- Hd2. nra.
Qed.
Lemma kj_project_id gamma a b : 0 < gamma < 1 -> (a - gamma ^ 2) ^ 2 + b ^ 2 <= (gamma * (1 - gamma)) ^ 2 -> kj_project gamma a b = (a, b).
Proof.
  intros Hg H. unfold kj_project. assert (Hr : 0 < gamma * (1 - gamma)) by (apply Rmult_lt_0_compat; lra).
  destruct (Rleb_spec (gamma * (1 - gamma)) 0); [lra|].
  destruct (Rleb_spec (hypot (a - gamma * gamma) b) (gamma * (1 - gamma))) as [|N]; [reflexivity|exfalso]. apply N.
  unfold hypot. rewrite <- (sqrt_square (gamma * (1 - gamma))) by lra. apply sqrt_le_1_alt. 
  replace (gamma ^ 2) with (gamma * gamma) in H by ring. nra.
Qed.

(** ** Fit *)
Lemma kj_v_shrink gamma rho rho' lam : 0 <= gamma -> gamma <= rho' -> rho' <= rho ->
  kj_constraint gamma rho' lam <= kj_constraint gamma rho lam.
Proof.
  intros Hg H1 H2. rewrite <- !kj_norm. pose proof (COS_bound lam).
  enough (rho' * (rho' - 2 * gamma * cos lam) <= rho * (rho - 2 * gamma * cos lam)) by nra.
  assert (gamma * cos lam <= gamma) by nra. nra.
Qed.
Lemma kj_fit_constraint gamma a b : / 10 ^ 12 <= gamma <= 1 - / 10 ^ 9 ->
  (a - gamma ^ 2) ^ 2 + b ^ 2 <= (gamma * (1 - gamma)) ^ 2 ->
  let rho := clip (hypot a b / Rmax gamma (/ 10 ^ 12)) 0 (1 - / 10 ^ 9) in
  let lam := if Rltb rho (/ 10 ^ 12) then 0 else mod2pi (arctan2 b a) in
  0 <= rho < 1 /\ 0 <= lam < 2 * PI /\ kj_constraint gamma rho lam <= (1 - gamma) ^ 2 /\
  (/ 10 ^ 12 <= rho -> hypot a b <= gamma * (1 - / 10 ^ 9) -> a = gamma * rho * cos lam /\ b = gamma * rho * sin lam).
Proof.
  intros Hg Hd. pose proof PI_RGT_0. pose proof kj_tol_pos as T. unfold kj_tol in T.
  rewrite Rmax_left by lra. set (r2 := hypot a b). set (rho0 := r2 / gamma).
  assert (Hr2 : 0 <= r2) by apply hypot_nonneg.
  assert (Hr0 : 0 <= rho0) by (apply Rmult_le_pos; [assumption|apply Rlt_le, Rinv_0_lt_compat; lra]).
  intros rho lam.
  assert (Hrho : 0 <= rho <= 1 - / 10 ^ 9) by (apply clip_range; lra).
  assert (Hl : 0 <= lam < 2 * PI) by (unfold lam; destruct (Rltb rho (/ 10 ^ 12)); [lra|apply mod2pi_range]).
  assert (Hpol : exists l, a = gamma * rho0 * cos l /\ b = gamma * rho0 * sin l /\ (0 < rho0 -> l = mod2pi (arctan2 b a))).
  { assert (Er : gamma * rho0 = r2) by (unfold rho0; field; lra). rewrite Er.
    destruct (Req_dec r2 0) as [Z|Z].
    - exists 0. pose proof (hypot_sq a b) as E. fold r2 in E. rewrite Z in E.
      assert (a * a = 0) by (pose proof (pow2_ge_0 a); pose proof (pow2_ge_0 b); nra).
      assert (b * b = 0) by (pose proof (pow2_ge_0 a); pose proof (pow2_ge_0 b); nra).
      apply Rmult_integral in H0, H1. rewrite Z. split; [lra|split; [lra|]]. intros P. unfold rho0 in P. rewrite Z in P. lra.
    - assert (Hne : a <> 0 \/ b <> 0).
      { destruct (Req_dec a 0) as [E|]; [|left; assumption]. right. intros Eb. apply Z. unfold r2, hypot. rewrite E, Eb.
        replace (0 * 0 + 0 * 0) with 0 by ring. apply sqrt_0. }
      destruct (polar_mod a b Hne) as [Ea Eb]. exists (mod2pi (arctan2 b a)). fold r2 in Ea, Eb. auto. }
  destruct Hpol as (l & Ea & Eb & El).
  assert (V0 : kj_constraint gamma rho0 l <= (1 - gamma) ^ 2).
  { pose proof (kj_disk gamma rho0 l) as D. rewrite <- Ea, <- Eb in D.
    apply Rmult_le_reg_l with (gamma ^ 2); [apply pow_lt; lra|]. rewrite <- D.
    replace (gamma * gamma) with (gamma ^ 2) by ring. replace (gamma ^ 2 * (1 - gamma) ^ 2) with ((gamma * (1 - gamma)) ^ 2) by ring. exact Hd. }
  assert (V1 : kj_constraint gamma rho l <= (1 - gamma) ^ 2).
  { unfold rho. destruct (Rle_dec rho0 (1 - / 10 ^ 9)) as [L|L].
    - rewrite clip_in by lra. exact V0.
    - assert (Ecl : clip rho0 0 (1 - / 10 ^ 9) = 1 - / 10 ^ 9) by (unfold clip; rewrite Rmax_left by lra; apply Rmin_right; lra).
      rewrite Ecl. eapply Rle_trans; [apply (kj_v_shrink gamma rho0)|exact V0]; lra. }
  split; [lra|]. split; [exact Hl|]. split.
  - unfold lam. destruct (Rltb_spec rho (/ 10 ^ 12)) as [S0|S0].
    + eapply Rle_trans; [|exact V1]. eapply Rle_trans; [|apply kj_v_lower; lra].
      unfold kj_constraint. rewrite cos_0, sin_0. right. ring.
    + assert (0 < rho0).
      { destruct (Rlt_dec 0 rho0); [assumption|]. exfalso. apply S0. unfold rho. rewrite clip_in by lra. lra. }
      rewrite <- El by assumption. exact V1.
  - intros Hlo Hhi. unfold lam. destruct (Rltb_spec rho (/ 10 ^ 12)) as [S0|S0]; [lra|].
    assert (L : rho0 <= 1 - / 10 ^ 9).
    { unfold rho0. apply Rmult_le_reg_r with gamma; [lra|]. unfold Rdiv. rewrite Rmult_assoc, Rinv_l by lra. fold r2 in Hhi. lra. }
    assert (Er : rho = rho0) by (unfold rho; apply clip_in; lra). rewrite Er in *.
    rewrite <- El by lra. split; assumption.
Qed.
