(** katojones: the method-of-moments fit. *)
From Verif Require Import Prelude EmModel NpModel NpProofs CircleSpec UtilsModel UtilsProofs DescModel DescProofs IntSpec IntProofs DistModel DistSpec DistProofs
  Dist2Proofs Dist4Proofs Dist5Proofs Dist7Proofs Dist8Proofs KjModel KjSpec KjProofs Kj2Proofs Kj4Proofs Kj6Proofs.

Lemma same_dir_mult (n : nat) a b : same_dir a b -> same_dir (INR n * a) (INR n * b).
Proof.
  intros [k H]. exists (Z.of_nat n * k)%Z. rewrite H, mult_IZR, <- INR_IZR_INZ. ring.
Qed.
Lemma wrap_moment (s : wsample) (n : nat) m :
  let s' := map (fun p => (wrap_angles (fst p), snd p)) s in
  Rsum (map (fun x => snd x * cos (INR n * (fst x - m))) s') = Rsum (map (fun x => snd x * cos (INR n * (fst x - m))) s) /\
  Rsum (map (fun x => snd x * sin (INR n * (fst x - m))) s') = Rsum (map (fun x => snd x * sin (INR n * (fst x - m))) s).
Proof.
  cbv zeta. rewrite !map_map. cbn [fst snd]. split; f_equal; apply map_ext; intros [x w]; cbn [fst snd]; f_equal.
  - apply same_dir_cos, same_dir_mult. destruct (wrap_same x) as [k H]. exists k. rewrite H. ring.
  - apply same_dir_sin, same_dir_mult. destruct (wrap_same x) as [k H]. exists k. rewrite H. ring.
Qed.
Lemma wrap_total (s : wsample) : wtotal (map (fun p => (wrap_angles (fst p), snd p)) s) = wtotal s.
Proof. unfold wtotal. rewrite map_map. reflexivity. Qed.
Lemma angmod_moment (s : wsample) m :
  Rsum (map (fun p => snd p * cos (2 * angmod0 (fst p - m))) s) = Rsum (map (fun x => snd x * cos (2 * (fst x - m))) s) /\
  Rsum (map (fun p => snd p * sin (2 * angmod0 (fst p - m))) s) = Rsum (map (fun x => snd x * sin (2 * (fst x - m))) s).
Proof.
  split; f_equal; apply map_ext; intros [x w]; cbn [fst snd]; f_equal.
  - apply same_dir_cos. apply (same_dir_mult 2 _ _ (angmod0_same_dir (x - m))).
  - apply same_dir_sin. apply (same_dir_mult 2 _ _ (angmod0_same_dir (x - m))).
Qed.
Lemma Rsum_lin2 (A : Type) (f g : A -> R) c d (l : list A) : Rsum (map (fun x => c * f x + d * g x) l) = c * Rsum (map f l) + d * Rsum (map g l).
Proof. induction l as [|a l IH]; cbn [map]; [unfold Rsum; simpl; ring|].
  change (c * f a + d * g a + Rsum (map (fun x => c * f x + d * g x) l) = c * (f a + Rsum (map f l)) + d * (g a + Rsum (map g l))).
  rewrite IH. ring. Qed.
(** Moments about [m] and about 0. *)
Lemma moment_turn s p m : fst (sample_moment s p 0) = fst (sample_moment s p m) * cos (p * m) - snd (sample_moment s p m) * sin (p * m) /\
  snd (sample_moment s p 0) = snd (sample_moment s p m) * cos (p * m) + fst (sample_moment s p m) * sin (p * m).
Proof.
  unfold sample_moment. cbn [fst snd]. split.
  - transitivity ((cos (p * m) * Rsum (map (fun x => snd x * cos (p * (fst x - m))) s) +
      - sin (p * m) * Rsum (map (fun x => snd x * sin (p * (fst x - m))) s)) / Rsum (map snd s)); [|unfold Rdiv; ring].
    rewrite <- Rsum_lin2. f_equal. f_equal. apply map_ext. intros [x w]; cbn [fst snd].
    replace (p * (x - 0)) with (p * (x - m) + p * m) by ring. rewrite cos_plus. ring.
  - transitivity ((cos (p * m) * Rsum (map (fun x => snd x * sin (p * (fst x - m))) s) +
      sin (p * m) * Rsum (map (fun x => snd x * cos (p * (fst x - m))) s)) / Rsum (map snd s)); [|unfold Rdiv; ring].
    rewrite <- Rsum_lin2. f_equal. f_equal. apply map_ext. intros [x w]; cbn [fst snd].
    replace (p * (x - 0)) with (p * (x - m) + p * m) by ring. rewrite sin_plus. ring.
Qed.

Lemma kj_fit_spec s mu g rho lam : kj_fit_moments s = Ok (Fin mu, g, Fin rho, Fin lam) ->
  let c := {| kj_mu := mu; kj_gamma := g; kj_rho := rho; kj_lam := lam |} in
  let (a1, b1) := sample_moment s 1 0 in
  let (a2, b2) := sample_moment s 2 mu in
  kj_documented c /\
  (sqrt (a1 ^ 2 + b1 ^ 2) <= 1 - / 10 ^ 9 -> kj_trig_moment c 1 = (a1, b1) /\
    ((a2 - g ^ 2) ^ 2 + b2 ^ 2 <= (g * (1 - g)) ^ 2 -> g / 10 ^ 12 <= sqrt (a2 ^ 2 + b2 ^ 2) <= g * (1 - / 10 ^ 9) ->
      kj_trig_moment c 2 = sample_moment s 2 0)).
Proof.
  intros H. pose proof PI_RGT_0. pose proof kj_tol_pos as T. unfold kj_tol in T. unfold kj_fit_moments in H. cbv zeta in H.
  destruct s as [|p0 s0]; [discriminate|]. set (s := p0 :: s0) in *. clearbody s. clear p0 s0.
  destruct (existsb _ s); [discriminate|].
  destruct (Rleb_spec (wtotal s) 0) as [|W]; [discriminate|].
  set (s' := map (fun p => (wrap_angles (fst p), snd p)) s) in *.
  assert (W' : wtotal s' = wtotal s) by apply wrap_total.
  assert (C1 : compute_C s' 1 0 = fst (sample_moment s 1 0)).
  { unfold compute_C, sample_moment. cbn [fst]. rewrite W'. unfold wtotal. f_equal. apply (wrap_moment s 1 0). }
  assert (S1 : compute_S s' 1 0 = snd (sample_moment s 1 0)).
  { unfold compute_S, sample_moment. cbn [snd]. rewrite W'. unfold wtotal. f_equal. apply (wrap_moment s 1 0). }
  assert (P10 : / 1000000000000 = / 10 ^ 12) by lra.
  destruct (circ_mean_and_r_s_cases s') as [[Hr Em]|[Hr Em]]; rewrite Em in H.
  { destruct (Rltb (clip (circ_r_s s') 0 (1 - / 10 ^ 9)) (/ 10 ^ 12)); discriminate. }
  rewrite P10 in Hr. set (m := mean_dir s') in *. set (r := circ_r_s s') in *.
  assert (Hm : 0 <= m < 2 * PI) by apply mean_dir_range.
  assert (Ew : wrap_direction m = m) by (apply wrap_in; lra). rewrite Ew in H.
  assert (Hg : / 10 ^ 12 <= clip r 0 (1 - / 10 ^ 9) <= 1 - / 10 ^ 9).
  { split; [|apply clip_range; lra]. unfold clip. apply Rmin_glb; [|lra]. rewrite Rmax_left; lra. }
  destruct (Rle_dec 0 r) as [r0|]; [|lra].
  assert (Eg : r <= 1 - / 10 ^ 9 -> clip r 0 (1 - / 10 ^ 9) = r) by (intros; apply clip_in; lra).
  set (gam := clip r 0 (1 - / 10 ^ 9)) in *.
  assert (M2 : (Rsum (map (fun p => snd p * cos (2 * angmod0 (fst p - m))) s') / wtotal s',
     Rsum (map (fun p => snd p * sin (2 * angmod0 (fst p - m))) s') / wtotal s') = sample_moment s 2 m).
  { destruct (angmod_moment s' m) as [-> ->]. destruct (wrap_moment s 2 m) as [E1 E2]. fold s' in E1, E2. change (INR 2) with 2 in *.
    rewrite E1, E2, W'. reflexivity. }
  destruct (sample_moment s 1 0) as [a1 b1] eqn:E1. cbn [fst snd] in C1, S1.
  assert (Polar : a1 = r * cos m /\ b1 = r * sin m).
  { unfold r, m, mean_dir, circ_r_s. rewrite C1, S1. 
    assert (Hne : a1 <> 0 \/ b1 <> 0).
    { destruct (Req_dec a1 0) as [Z|]; [|left; assumption]. right. intros Z'. unfold r, circ_r_s in Hr. rewrite C1, S1, Z, Z' in Hr.
      replace (0 ^ 2 + 0 ^ 2) with 0 in Hr by ring. rewrite sqrt_0 in Hr. lra. }
    destruct (polar_mod a1 b1 Hne) as [Pa Pb]. rewrite !angmod0_eq. unfold mod2pi in Pa, Pb. unfold hypot in Pa, Pb.
    replace (a1 ^ 2 + b1 ^ 2) with (a1 * a1 + b1 * b1) by ring. split; assumption. }
  assert (Er : sqrt (a1 ^ 2 + b1 ^ 2) = r) by (unfold r, circ_r_s; rewrite C1, S1; reflexivity).
  pose proof (kj_project_spec gam (fst (sample_moment s 2 m)) (snd (sample_moment s 2 m)) ltac:(lra)) as PS.
  assert (Emu : mu = m).
  { destruct (kj_project _ _ _) as [a b] in H. destruct (Rltb gam (/ 10 ^ 12)) in H; congruence. }
  subst mu.
  destruct (sample_moment s 2 m) as [a2 b2] eqn:E2. cbn [fst snd] in PS. injection M2 as M2a M2b. rewrite M2a, M2b in H.
  destruct (kj_project gam a2 b2) as [a b] eqn:Epr. destruct PS as [PS _].
  destruct (Rltb_spec gam (/ 10 ^ 12)) as [|G]; [lra|].
  pose proof (kj_fit_constraint gam a b Hg PS) as FC. cbv zeta in FC.
  set (rho' := clip (hypot a b / Rmax gam (/ 10 ^ 12)) 0 (1 - / 10 ^ 9)) in *.
  set (lam' := if Rltb rho' (/ 10 ^ 12) then 0 else mod2pi (arctan2 b a)) in *.
  assert (Eg' : gam = g) by congruence. assert (Erho : rho' = rho) by congruence. assert (Elam : lam' = lam) by congruence. subst g.
  rewrite Elam in FC. rewrite Erho in FC. destruct FC as (F1 & F2 & F3 & F4). 
  split; [|intros Hle; split].
  - repeat split; cbn [kj_mu kj_gamma kj_rho kj_lam]; try lra. exact F3.
  - rewrite Er in Hle. rewrite (Eg Hle). destruct Polar as [-> ->]. unfold kj_trig_moment. cbn [kj_mu kj_gamma kj_rho kj_lam].
    change (1 =? 0)%Z with false. change (1 <? 0)%Z with false. cbn iota. change (Z.abs_nat 1) with 1%nat. cbn [Nat.eqb].
    change (INR 1) with 1. replace (1 * m + (1 - 1) * lam) with m by ring. reflexivity.
  - intros D2 B2. rewrite (kj_project_id gam a2 b2) in Epr by (lra || exact D2). injection Epr as <- <-.
    assert (Eh : sqrt (a2 ^ 2 + b2 ^ 2) = hypot a2 b2) by (unfold hypot; f_equal; ring). rewrite Eh in B2.
    assert (Hlo : / 10 ^ 12 <= rho).
    { rewrite <- Erho. unfold rho'. rewrite Rmax_left by lra. unfold clip. apply Rmin_glb; [|lra].
      eapply Rle_trans; [|apply Rmax_l]. apply Rmult_le_reg_r with gam; [lra|]. unfold Rdiv. rewrite Rmult_assoc, Rinv_l by lra. lra. }
    destruct (F4 Hlo (proj2 B2)) as [Fa Fb].
    destruct (moment_turn s 2 m) as [T1 T2]. rewrite E2 in T1, T2. cbn [fst snd] in T1, T2.
    rewrite (surjective_pairing (sample_moment s 2 0)), T1, T2. unfold kj_trig_moment. cbn [kj_mu kj_gamma kj_rho kj_lam].
    change (2 =? 0)%Z with false. change (2 <? 0)%Z with false. cbn iota. change (Z.abs_nat 2) with 2%nat. cbn [Nat.eqb Nat.sub].
    change (INR 2) with 2. replace (2 * m + (2 - 1) * lam) with (lam + 2 * m) by ring. rewrite cos_plus, sin_plus.
    replace (gam * rho ^ 1) with (gam * rho) by ring. f_equal; rewrite Fa, Fb; ring.
Qed.
Lemma kj_fit_total s : s <> [] -> (forall p, In p s -> 0 <= snd p) -> 0 < Rsum (map snd s) ->
  exists mu g rho lam, kj_fit_moments s = Ok (mu, g, rho, lam).
Proof.
  intros Hs Hp HW. unfold kj_fit_moments. destruct s as [|p0 s0]; [contradiction|]. set (s := p0 :: s0) in *. clearbody s. cbv zeta.
  destruct (existsb _ s) eqn:E.
  { apply existsb_exists in E. destruct E as (p & Hin & Hb). specialize (Hp p Hin). destruct (Rltb_spec (snd p) 0); [lra|discriminate]. }
  destruct (Rleb_spec (wtotal s) 0) as [|_]; [unfold wtotal in *; lra|].
  destruct (circ_mean_and_r_s _) as [[m| | |] r1]; [destruct (kj_project _ _ _) as [a b]| | |];
    match goal with |- context [Rltb ?u ?v] => destruct (Rltb u v) end; eauto.
Qed.
(** Balanced angles: NaN. *)
Lemma kj_fit_nan : exists g rho lam, kj_fit_moments [(0, 1); (PI, 1)] = Ok (NaN, g, rho, lam).
Proof.
  pose proof PI_RGT_0.
  unfold kj_fit_moments. cbv zeta. cbn [existsb snd]. destruct (Rltb_spec 1 0); [lra|]. cbn [orb].
  destruct (Rleb_spec (wtotal [(0, 1); (PI, 1)]) 0) as [B|_]; [unfold wtotal in B; simpl in B; lra|].
  cbn [map fst snd]. rewrite !wrap_in by lra.
  assert (E : circ_r_s [(0, 1); (PI, 1)] = 0).
  { unfold circ_r_s, compute_C, compute_S. cbn [map fst snd Rsum fold_right]. unfold wtotal. cbn [map snd].
    replace (1 * (0 - 0)) with 0 by ring. replace (1 * (PI - 0)) with PI by ring. rewrite cos_0, cos_PI, sin_0, sin_PI.
    unfold Rsum. cbn [fold_right]. replace (_ + _) with 0 by field. apply sqrt_0. }
  destruct (circ_mean_and_r_s_cases [(0, 1); (PI, 1)]) as [[Hr Em]|[Hr Em]]; [|rewrite E in Hr; lra].
  rewrite Em. match goal with |- context [Rltb ?u ?v] => destruct (Rltb u v) end; eauto.
Qed.
Lemma kj_project_admissible gamma a b : / 10 ^ 12 < gamma <= 1 - / 10 ^ 12 ->
  let (a', b') := kj_project gamma a b in
  exists rho lam, kj_to_rho_lam gamma a' b' true = Ok (rho, lam) /\ 0 <= rho < 1 /\ 0 <= lam < 2 * PI /\
    (rho * cos lam - gamma) ^ 2 + (rho * sin lam) ^ 2 <= (1 - gamma) ^ 2.
Proof.
  intros Hg. pose proof kj_tol_pos as T. unfold kj_tol in T. pose proof PI_RGT_0.
  pose proof (kj_project_spec gamma a b ltac:(lra)) as PS. destruct (kj_project gamma a b) as [a' b']. destruct PS as [Hd _]. clear a b.
  set (r2 := hypot a' b'). assert (Hr2 : 0 <= r2) by apply hypot_nonneg. set (rho0 := r2 / gamma).
  assert (Hr0 : 0 <= rho0) by (apply Rmult_le_pos; [assumption|apply Rlt_le, Rinv_0_lt_compat; lra]).
  set (rho := clip rho0 0 (1 - / 10 ^ 12)).
  set (lam := if Rleb r2 (/ 10 ^ 12) then 0 else mod2pi (arctan2 b' a')).
  assert (Hrho : 0 <= rho <= 1 - / 10 ^ 12) by (apply clip_range; lra).
  exists rho, lam. split; [|split; [lra|split]].
  - unfold kj_to_rho_lam. destruct (Rleb_spec 0 gamma); [|lra]. destruct (Rltb_spec gamma 1); [|lra]. cbn [andb negb]. cbv zeta.
    destruct (Rltb_spec ((gamma * (1 - gamma)) ^ 2 + / 10 ^ 12) ((a' - gamma * gamma) ^ 2 + b' ^ 2)) as [B|B];
      [replace (gamma * gamma) with (gamma ^ 2) in B by ring; lra|].
    destruct (Rleb_spec gamma (/ 10 ^ 12)); [lra|]. reflexivity.
  - unfold lam. destruct (Rleb r2 _); [lra|apply mod2pi_range].
  - assert (Hpol : exists l, a' = gamma * rho0 * cos l /\ b' = gamma * rho0 * sin l /\ (0 < r2 -> l = mod2pi (arctan2 b' a'))).
    { assert (Er : gamma * rho0 = r2) by (unfold rho0; field; lra). rewrite Er.
      destruct (Req_dec r2 0) as [Z|Z].
      - exists 0. pose proof (hypot_sq a' b') as E. fold r2 in E. rewrite Z in E.
        assert (a' * a' = 0) by (pose proof (pow2_ge_0 a'); pose proof (pow2_ge_0 b'); nra).
        assert (b' * b' = 0) by (pose proof (pow2_ge_0 a'); pose proof (pow2_ge_0 b'); nra).
        apply Rmult_integral in H0, H1. rewrite Z. split; [lra|split; [lra|]]. intros P. lra.
      - assert (Hne : a' <> 0 \/ b' <> 0).
        { destruct (Req_dec a' 0) as [E|]; [|left; assumption]. right. intros Eb. apply Z. unfold r2, hypot. rewrite E, Eb.
          replace (0 * 0 + 0 * 0) with 0 by ring. apply sqrt_0. }
        destruct (polar_mod a' b' Hne) as [Ea Eb]. exists (mod2pi (arctan2 b' a')). fold r2 in Ea, Eb. auto. }
    destruct Hpol as (l & Ea & Eb & El).
    assert (V0 : kj_constraint gamma rho0 l <= (1 - gamma) ^ 2).
    { pose proof (kj_disk gamma rho0 l) as D. rewrite <- Ea, <- Eb in D.
      apply Rmult_le_reg_l with (gamma ^ 2); [apply pow_lt; lra|]. rewrite <- D.
      replace (gamma * gamma) with (gamma ^ 2) by ring. replace (gamma ^ 2 * (1 - gamma) ^ 2) with ((gamma * (1 - gamma)) ^ 2) by ring. exact Hd. }
    assert (V1 : kj_constraint gamma rho l <= (1 - gamma) ^ 2).
    { unfold rho. destruct (Rle_dec rho0 (1 - / 10 ^ 12)) as [L|L].
      - rewrite clip_in by lra. exact V0.
      - assert (Ecl : clip rho0 0 (1 - / 10 ^ 12) = 1 - / 10 ^ 12) by (unfold clip; rewrite Rmax_left by lra; apply Rmin_right; lra).
        rewrite Ecl. eapply Rle_trans; [apply (kj_v_shrink gamma rho0)|exact V0]; lra. }
    unfold lam. destruct (Rleb_spec r2 (/ 10 ^ 12)) as [S0|S0].
    + eapply Rle_trans; [|exact V1]. eapply Rle_trans; [|apply kj_v_lower; lra]. rewrite cos_0, sin_0. right. ring.
    + rewrite <- El by lra. exact V1.
Qed.
