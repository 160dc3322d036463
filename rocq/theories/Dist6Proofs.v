(** Proofs about the gradients of the cardioid and wrapcauchy objectives and about
    wrapcauchy's sampler. *)
From Verif Require Import Prelude NpModel NpProofs CircleSpec IntSpec IntProofs DistModel DistSpec DistProofs Dist2Proofs Dist4Proofs Dist5Proofs.

Lemma dlim_cos_mu x mu : derivable_pt_lim (fun m => cos (x - m)) mu (sin (x - mu)).
Proof.
  eapply dlim_eq; [|apply dlim_cos; apply dlim_minus; [apply dlim_const|apply dlim_id]]. ring.
Qed.

Lemma car_den_pos mu rho x : 0 <= rho < 1 / 2 -> 0 < car_den mu rho x.
Proof. intros H. unfold car_den. pose proof (COS_bound (x - mu)). nra. Qed.
Lemma car_den_existsb mu rho s : 0 <= rho < 1 / 2 ->
  existsb (fun p : R * R => Rleb (car_den mu rho (fst p)) 0) s = false.
Proof.
  intros H. induction s as [|p s IH]; [reflexivity|]. cbn [existsb]. rewrite IH.
  destruct (Rleb_spec (car_den mu rho (fst p)) 0) as [L|]; [|reflexivity].
  pose proof (car_den_pos mu rho (fst p) H). lra.
Qed.

Lemma Rsum_scal_map {A} (c : R) (f : A -> R) l : Rsum (map (fun a => c * f a) l) = c * Rsum (map f l).
Proof.
  induction l as [|a l IH]; [cbn; ring|]. cbn [map]. change (c * f a + Rsum (map (fun a => c * f a) l) = c * (f a + Rsum (map f l))).
  rewrite IH. ring.
Qed.
Lemma Rsum_plus_map {A} (f g : A -> R) l : Rsum (map (fun a => f a + g a) l) = Rsum (map f l) + Rsum (map g l).
Proof.
  induction l as [|a l IH]; [cbn; ring|]. cbn [map].
  change (f a + g a + Rsum (map (fun a => f a + g a) l) = f a + Rsum (map f l) + (g a + Rsum (map g l))).
  rewrite IH. ring.
Qed.
Lemma Rsum_ext_map {A} (f g : A -> R) l : (forall a, In a l -> f a = g a) -> Rsum (map f l) = Rsum (map g l).
Proof. intros H. f_equal. apply map_ext_in. exact H. Qed.

Lemma car_gradient s mu rho : 0 < rho < 1 / 2 -> is_gradient (car_nll s) mu rho (car_grad s mu rho).
Proof.
  intros H.
  exists (fun m r => - Rsum (map (fun p => snd p * ln (car_den m r (fst p))) s) + Rsum (map snd s) * ln (2 * PI)).
  split; [|].
  - exists (Rmin rho (1 / 2 - rho)). split; [apply Rmin_glb_lt; lra|].
    intros x y _ Hy. pose proof (Rmin_l rho (1 / 2 - rho)). pose proof (Rmin_r rho (1 / 2 - rho)).
    apply Rabs_def2 in Hy. unfold car_nll.
    destruct (Rleb_spec 0 y); [|lra]. destruct (Rleb_spec y (1 / 2)); [|lra]. cbn [andb negb].
    rewrite car_den_existsb by lra. reflexivity.
  - unfold car_grad. rewrite car_den_existsb by lra. cbn [fst snd]. split.
    + eapply dlim_eq; [|apply dlim_plus; [apply dlim_opp; apply (dlim_Rsum (fun p m => snd p * ln (car_den m rho (fst p))));
        intros p _; apply dlim_scal; apply dlim_ln; [apply car_den_pos; lra|];
        unfold car_den; apply dlim_plus; [apply dlim_const|apply dlim_scal; apply dlim_cos_mu]|apply dlim_const]].
      rewrite Rplus_0_r, <- (Rsum_scal_map (- 2 * rho)).
      rewrite (Rsum_ext_map _ (fun a => -1 * (- 2 * rho * (snd a / car_den mu rho (fst a) * sin (fst a - mu))))).
      2:{ intros p _. unfold Rdiv. ring. }
      rewrite Rsum_scal_map. ring.
    + eapply dlim_eq; [|apply dlim_plus; [apply dlim_opp; apply (dlim_Rsum (fun p r => snd p * ln (car_den mu r (fst p))));
        intros p _; apply dlim_scal; apply dlim_ln; [apply car_den_pos; lra|];
        unfold car_den; apply dlim_plus; [apply dlim_const|
          apply dlim_mult; [apply dlim_scal; apply dlim_id|apply dlim_const]]|apply dlim_const]].
      rewrite Rplus_0_r, <- (Rsum_scal_map (- 2)).
      rewrite (Rsum_ext_map _ (fun a => -1 * (- 2 * (snd a / car_den mu rho (fst a) * cos (fst a - mu))))).
      2:{ intros p _. cbv beta. unfold Rdiv. ring. }
      rewrite Rsum_scal_map. ring.
Qed.

Lemma wc_den_big mu rho x : 0 <= rho <= 1 - / 10 ^ 7 -> wc_den mu rho x = 1 + rho ^ 2 - 2 * rho * cos (x - mu) /\
  0 < wc_den mu rho x.
Proof.
  intros H. pose proof (COS_bound (x - mu)) as C.
  assert (T7 : 0 < / 10 ^ 7) by (apply Rinv_0_lt_compat; lra).
  assert (L : / 10 ^ 15 <= 1 + rho ^ 2 - 2 * rho * cos (x - mu)).
  { apply Rle_trans with ((/ 10 ^ 7) ^ 2).
    - rewrite pow_inv. rewrite <- pow_mult. apply Rinv_le_contravar; [apply pow_lt; lra|]. apply Rle_pow; [lra|lia].
    - apply Rle_trans with ((1 - rho) ^ 2); [|nra]. apply pow_incr. lra. }
  unfold wc_den. rewrite Rmax_left by exact L. split; [reflexivity|].
  assert (0 < / 10 ^ 15) by (apply Rinv_0_lt_compat; lra). lra.
Qed.

Lemma wc_gradient s mu rho : 0 < rho < 1 - / 10 ^ 7 -> is_gradient (wc_nll s) mu rho (wc_grad s mu rho).
Proof.
  intros H.
  assert (T7 : 0 < / 10 ^ 7) by (apply Rinv_0_lt_compat; lra).
  set (D := fun m r x : R => 1 + r ^ 2 - 2 * r * cos (x - m)).
  assert (E : forall m r x, 0 <= r <= 1 - / 10 ^ 7 -> wc_den m r x = D m r x) by (intros; apply wc_den_big; lra).
  assert (P : forall x, 0 < D mu rho x).
  { intros x. rewrite <- E by lra. apply wc_den_big. lra. }
  exists (fun m r => - Rsum (map (fun p => snd p * (ln (1 + - r ^ 2) - ln (2 * PI) - ln (D m r (fst p)))) s)).
  split; [|].
  - exists (Rmin rho (1 - / 10 ^ 7 - rho)). split; [apply Rmin_glb_lt; lra|].
    intros x y _ Hy. pose proof (Rmin_l rho (1 - / 10 ^ 7 - rho)). pose proof (Rmin_r rho (1 - / 10 ^ 7 - rho)).
    apply Rabs_def2 in Hy. unfold wc_nll.
    destruct (Rleb_spec 0 y); [|lra]. destruct (Rltb_spec y 1); [|lra]. cbn [andb negb].
    f_equal. f_equal. apply Rsum_ext_map. intros p _. rewrite E by lra. reflexivity.
  - unfold wc_grad. cbn [fst snd]. split.
    + eapply dlim_eq; [|apply dlim_opp; apply (dlim_Rsum (fun p m => snd p * (ln (1 + - rho ^ 2) - ln (2 * PI) - ln (D m rho (fst p)))));
        intros p _; apply dlim_scal; apply dlim_minus; [apply dlim_const|apply dlim_ln; [apply P|]];
        unfold D; apply dlim_minus; [apply dlim_const|apply dlim_scal; apply dlim_cos_mu]].
      rewrite <- (Rsum_scal_map (- 2 * rho)).
      rewrite (Rsum_ext_map _ (fun a => -1 * (- 2 * rho * (snd a / wc_den mu rho (fst a) * sin (fst a - mu))))).
      2:{ intros p _. rewrite E by lra. unfold D. field. apply Rgt_not_eq. apply (P (fst p)). }
      rewrite Rsum_scal_map. ring.
    + assert (Q : 0 < 1 - rho ^ 2) by nra.
      assert (Q' : Rmax (1 - rho ^ 2) (/ 10 ^ 15) = 1 - rho ^ 2).
      { apply Rmax_left. apply Rle_trans with (/ 10 ^ 7); [apply Rinv_le_contravar; lra|]. nra. }
      rewrite Q'.
      eapply dlim_eq; [|apply dlim_opp; apply (dlim_Rsum (fun p r => snd p * (ln (1 + - r ^ 2) - ln (2 * PI) - ln (D mu r (fst p)))));
        intros p _; apply dlim_scal; apply dlim_minus; [apply dlim_minus; [|apply dlim_const]|]].
      2:{ apply dlim_ln; [lra|]. apply dlim_plus; [apply dlim_const|apply dlim_opp; apply dlim_sq]. }
      2:{ apply dlim_ln; [apply P|]. unfold D. apply dlim_minus; [apply dlim_plus; [apply dlim_const|apply dlim_sq]|].
          apply dlim_mult; [apply dlim_scal; apply dlim_id|apply dlim_const]. }
      rewrite (Rsum_ext_map _ (fun a => -1 * (2 * rho / (1 - rho ^ 2) * snd a + snd a / wc_den mu rho (fst a) * (2 * rho - 2 * cos (fst a - mu))))).
      2:{ intros p _. rewrite E by lra. pose proof (P (fst p)) as Pp. unfold D in *. field. split; lra. }
      rewrite Rsum_scal_map, Rsum_plus_map, Rsum_scal_map. ring.
Qed.

(** ** The sampler *)
(** The angle the Moebius map sends u to, followed continuously. *)
Definition wc_lift (mu rho u : R) : R := u - 2 * atan (rho * sin (u - mu) / (1 + rho * cos (u - mu))).

Lemma wc_lift_facts rho phi : 0 <= rho < 1 ->
  let psi := phi - 2 * atan (rho * sin phi / (1 + rho * cos phi)) in
  let D := 1 + rho ^ 2 + 2 * rho * cos phi in
  0 < D /\ cos psi = ((1 + rho ^ 2) * cos phi + 2 * rho) / D /\ sin psi = (1 - rho ^ 2) * sin phi / D.
Proof.
  intros H psi D. pose proof (COS_bound phi) as Cb.
  assert (Hc : 0 < 1 + rho * cos phi) by nra.
  assert (HD : 0 < D) by (unfold D; nra).
  split; [exact HD|].
  set (t := rho * sin phi / (1 + rho * cos phi)) in *. set (b := atan t) in *.
  set (m := sqrt (1 + t * t)).
  assert (Tm : m * m = 1 + t * t).
  { apply sqrt_sqrt. pose proof (Rle_0_sqr t) as K. unfold Rsqr in K. lra. }
  assert (Hm : 0 < m) by (apply sqrt_lt_R0; pose proof (Rle_0_sqr t) as K; unfold Rsqr in K; lra).
  assert (Cc : cos b = / m) by (apply cos_atan_pos).
  assert (Sb : sin b = t / m) by (apply sin_atan_eq).
  assert (C2 : cos (2 * b) = (1 - t * t) / (1 + t * t)).
  { rewrite cos_2a, Cc, Sb, <- Tm. field. lra. }
  assert (S2 : sin (2 * b) = 2 * t / (1 + t * t)).
  { rewrite sin_2a, Cc, Sb, <- Tm. field. lra. }
  assert (T : sin phi * sin phi = 1 - cos phi * cos phi) by (pose proof (sin2_cos2 phi); unfold Rsqr in *; lra).
  assert (E : 1 + t * t = D / (1 + rho * cos phi) ^ 2).
  { unfold t. replace (rho * sin phi / (1 + rho * cos phi) * (rho * sin phi / (1 + rho * cos phi)))
      with (rho ^ 2 * (sin phi * sin phi) / (1 + rho * cos phi) ^ 2) by (field; lra).
    rewrite T. unfold D. field. lra. }
  assert (E2 : 1 - t * t = ((1 + rho * cos phi) ^ 2 - rho ^ 2 * (1 - cos phi * cos phi)) / (1 + rho * cos phi) ^ 2).
  { unfold t. replace (rho * sin phi / (1 + rho * cos phi) * (rho * sin phi / (1 + rho * cos phi)))
      with (rho ^ 2 * (sin phi * sin phi) / (1 + rho * cos phi) ^ 2) by (field; lra).
    rewrite T. field. lra. }
  split.
  - unfold psi. rewrite cos_minus, C2, S2, E, E2. unfold t.
    replace (cos phi * (((1 + rho * cos phi) ^ 2 - rho ^ 2 * (1 - cos phi * cos phi)) / (1 + rho * cos phi) ^ 2 / (D / (1 + rho * cos phi) ^ 2)) +
       sin phi * (2 * (rho * sin phi / (1 + rho * cos phi)) / (D / (1 + rho * cos phi) ^ 2)))
      with ((cos phi * ((1 + rho * cos phi) ^ 2 - rho ^ 2 * (1 - cos phi * cos phi)) + 2 * rho * (sin phi * sin phi) * (1 + rho * cos phi)) / D)
      by (field; lra).
    rewrite T. field. lra.
  - unfold psi. rewrite sin_minus, C2, S2, E, E2. unfold t.
    replace (sin phi * (((1 + rho * cos phi) ^ 2 - rho ^ 2 * (1 - cos phi * cos phi)) / (1 + rho * cos phi) ^ 2 / (D / (1 + rho * cos phi) ^ 2)) -
       cos phi * (2 * (rho * sin phi / (1 + rho * cos phi)) / (D / (1 + rho * cos phi) ^ 2)))
      with (sin phi * (((1 + rho * cos phi) ^ 2 - rho ^ 2 * (1 - cos phi * cos phi)) - 2 * rho * cos phi * (1 + rho * cos phi)) / D)
      by (field; lra).
    field. lra.
Qed.

Lemma wcF_lift mu rho u : 0 <= rho < 1 -> wcF rho (wc_lift mu rho u - mu) = (u - mu) / (2 * PI).
Proof.
  intros H. pose proof PI_pos as Hp. set (phi := u - mu).
  destruct (wc_lift_facts rho phi H) as [HD [Ec Es]]. cbv zeta in Ec, Es, HD.
  replace (wc_lift mu rho u - mu) with (phi - 2 * atan (rho * sin phi / (1 + rho * cos phi))) by (unfold wc_lift, phi; ring).
  set (psi := phi - 2 * atan (rho * sin phi / (1 + rho * cos phi))) in *.
  pose proof (COS_bound phi) as Cb. assert (Hc : 0 < 1 + rho * cos phi) by nra.
  unfold wcF.
  assert (E : rho * sin psi / (1 - rho * cos psi) = rho * sin phi / (1 + rho * cos phi)).
  { rewrite Ec, Es. 
    assert (Q : 0 < 1 - rho ^ 2) by nra.
    replace (1 - rho * (((1 + rho ^ 2) * cos phi + 2 * rho) / (1 + rho ^ 2 + 2 * rho * cos phi)))
      with ((1 - rho ^ 2) * (1 + rho * cos phi) / (1 + rho ^ 2 + 2 * rho * cos phi)) by (field; lra).
    field. repeat split; lra. }
  rewrite E. unfold psi. field. lra.
Qed.

Lemma wc_lift_incr mu rho u v : 0 <= rho < 1 -> u < v -> wc_lift mu rho u < wc_lift mu rho v.
Proof.
  intros H Huv. pose proof PI_pos as Hp. destruct (Rlt_dec (wc_lift mu rho u) (wc_lift mu rho v)) as [L|L]; [exact L|exfalso].
  pose proof (wcF_mono rho (wc_lift mu rho v - mu) (wc_lift mu rho u - mu) H ltac:(lra)) as K.
  rewrite !wcF_lift in K by exact H.
  assert ((u - mu) / (2 * PI) < (v - mu) / (2 * PI)); [|lra].
  unfold Rdiv. apply Rmult_lt_compat_r; [apply Rinv_0_lt_compat; lra|lra].
Qed.

Lemma wc_lift_turn mu rho u : wc_lift mu rho (u + 2 * PI) = wc_lift mu rho u + 2 * PI.
Proof.
  unfold wc_lift. replace (u + 2 * PI - mu) with (u - mu + 2 * PI * IZR 1) by ring.
  rewrite sin_turns, cos_turns. ring.
Qed.

Lemma wc_lift_integral mu rho u v : 0 <= rho < 1 -> u <= v ->
  integral (wc_pdf mu rho) (wc_lift mu rho u) (wc_lift mu rho v) ((v - u) / (2 * PI)).
Proof.
  intros H Huv. pose proof PI_pos as Hp.
  replace ((v - u) / (2 * PI)) with (wcI mu rho (wc_lift mu rho v) - wcI mu rho (wc_lift mu rho u)).
  - apply ftc.
    + destruct Huv as [L| ->]; [|lra]. pose proof (wc_lift_incr mu rho u v H L). lra.
    + intros. apply wc_pdf_cont. exact H.
    + intros. apply wcI_d. exact H.
  - unfold wcI. rewrite !wcF_lift by exact H. field. lra.
Qed.

Lemma wc_rvs_lift mu rho u v : / 10 ^ 15 < rho <= 1 - 2 / 100000 ->
  same_dir (wc_rvs mu rho u v) (wc_lift mu rho u) /\ 0 <= wc_rvs mu rho u v < 2 * PI.
Proof.
  intros Hr. pose proof PI2_pos as Hp2. pose proof tiny15 as T15.
  assert (H : 0 <= rho < 1) by lra.
  unfold wc_rvs.
  assert (Z : close_0 (/ 10 ^ 15) rho = false) by (apply close_0_false; lra). rewrite Z.
  assert (O : isclose_tol (/ 100000) (/ 10 ^ 15) rho 1 = false).
  { unfold isclose_tol. apply Rleb_false. rewrite (Rabs_left (rho - 1)) by lra. rewrite Rabs_R1. lra. }
  rewrite O. cbv zeta.
  split; [|apply pymod_range; exact Hp2].
  set (phi := u - mu).
  destruct (wc_lift_facts rho phi H) as [HD [Ec Es]]. cbv zeta in Ec, Es, HD.
  set (psi := phi - 2 * atan (rho * sin phi / (1 + rho * cos phi))) in *.
  assert (El : wc_lift mu rho u = mu + psi) by (unfold wc_lift, psi, phi; ring).
  assert (Eu : u = mu + phi) by (unfold phi; ring).
  assert (T : sin phi * sin phi = 1 - cos phi * cos phi) by (pose proof (sin2_cos2 phi); unfold Rsqr in *; lra).
  assert (Em : (1 + rho * cos phi) ^ 2 + (rho * sin phi) ^ 2 = 1 + rho ^ 2 + 2 * rho * cos phi).
  { replace ((rho * sin phi) ^ 2) with (rho ^ 2 * (sin phi * sin phi)) by ring. rewrite T. ring. }
  rewrite Em. eapply same_dir_trans; [apply pymod_same_dir|].
  rewrite El. apply (arctan2_unique 1); [lra| |].
  - rewrite cos_plus, Ec, Es, Eu, cos_plus, sin_plus.
    replace ((cos mu * cos phi - sin mu * sin phi + rho * cos mu) * (1 + rho * cos phi) +
              (sin mu * cos phi + cos mu * sin phi + rho * sin mu) * (rho * sin phi))
      with (cos mu * (cos phi + rho + rho * cos phi * cos phi + rho ^ 2 * cos phi + rho * (sin phi * sin phi)) - sin mu * sin phi * (1 - rho ^ 2)) by ring.
    rewrite T. field. lra.
  - rewrite sin_plus, Ec, Es, Eu, cos_plus, sin_plus.
    replace ((sin mu * cos phi + cos mu * sin phi + rho * sin mu) * (1 + rho * cos phi) -
              (cos mu * cos phi - sin mu * sin phi + rho * cos mu) * (rho * sin phi))
      with (sin mu * (cos phi + rho + rho * cos phi * cos phi + rho ^ 2 * cos phi + rho * (sin phi * sin phi)) + cos mu * sin phi * (1 - rho ^ 2)) by ring.
    rewrite T. field. lra.
Qed.

(** Near rho = 1 the sampler returns the centre. *)
Lemma wc_rvs_stuck mu rho u v : 1 - / 100000 <= rho < 1 -> wc_rvs mu rho u v = pymod mu (2 * PI).
Proof.
  intros Hr. unfold wc_rvs. pose proof tiny15 as T15.
  assert (Z : close_0 (/ 10 ^ 15) rho = false) by (apply close_0_false; lra). rewrite Z.
  assert (O : isclose_tol (/ 100000) (/ 10 ^ 15) rho 1 = true).
  { unfold isclose_tol. apply Rleb_true. rewrite (Rabs_left (rho - 1)) by lra. rewrite Rabs_R1. lra. }
  rewrite O. reflexivity.
Qed.
