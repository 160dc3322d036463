(** wrapstable: where pdf is positive, where it is negative, and what cdf makes of it. *)
From Verif Require Import Prelude NpModel NpProofs UtilsModel UtilsProofs DescModel DescProofs CircleSpec IntSpec IntProofs DistModel DistSpec DistProofs Dist2Proofs Dist4Proofs Dist5Proofs
  Dist6Proofs Dist7Proofs Dist8Proofs KjProofs Kj2Proofs Kj6Proofs Kj7Proofs Von6Proofs WnModel WnProofs GaussProofs WsModel WsSpec WsProofs Ws2Proofs.

(** ** Positive values *)
Lemma ws_rho_geo a g p : 1 <= a -> 0 < g -> (1 <= p)%nat -> ws_rho a g p <= ws_rho a g 1 ^ p.
Proof.
  intros Ha Hg Hp. apply le_INR in Hp. change (INR 1) with 1 in Hp. unfold ws_rho. change (INR 1) with 1. rewrite Rmult_1_r.
  assert (K : INR p * Rpower g a <= Rpower (g * INR p) a).
  { rewrite <- Rpower_mult_distr by lra. rewrite Rmult_comm. apply Rmult_le_compat_l; [left; apply exp_pos|].
    rewrite <- (Rpower_1 (INR p)) at 1 by lra. apply Rle_Rpower; lra. }
  apply Rle_trans with (exp (- (INR p * Rpower g a))); [apply expm_le; lra|]. apply Req_le.
  generalize (Rpower g a). intros c. clear. induction p as [|p IH]; [simpl; rewrite Rmult_0_l, Ropp_0, exp_0; reflexivity|].
  cbn [pow]. rewrite <- IH, S_INR, <- exp_plus. f_equal. ring.
Qed.
Lemma geo_third (r : nat -> R) P : (forall p, (1 <= p)%nat -> r p <= (/ 3) ^ p) -> Rsum (map r (seq 1 P)) <= / 2 * (1 - (/ 3) ^ P).
Proof.
  intros H. induction P as [|P IH]; [simpl; lra|]. rewrite seq_S, map_app, Rsum_app. cbn [map]. pose proof (H (S P) ltac:(lia)) as K.
  replace (Rsum [r (1 + P)%nat]) with (r (S P)) by (cbn; ring). cbn [pow] in *. set (z := (/ 3) ^ P) in *. lra.
Qed.
Lemma Rsum_abs_cos (r m : nat -> R) t P : (forall p, 0 <= r p) -> Rabs (Rsum (map (fun p => r p * cos (INR p * t - m p)) (seq 1 P))) <= Rsum (map r (seq 1 P)).
Proof.
  intros H. induction (seq 1 P) as [|p l IH]; [cbn; rewrite Rabs_R0; lra|]. cbn [map]. change (Rsum (?a :: ?l)) with (a + Rsum l) in *.
  eapply Rle_trans; [apply Rabs_triang|]. apply Rplus_le_compat; [|exact IH]. rewrite Rabs_mult, (Rabs_pos_eq (r p)) by apply H.
  pose proof (COS_bound (INR p * t - m p)) as C. assert (Rabs (cos (INR p * t - m p)) <= 1) by (apply Rabs_le; lra). pose proof (H p). nra.
Qed.
Lemma ws_pos d a b g x : 1 <= a -> 0 < g -> ws_rho a g 1 <= / 3 -> 0 < ws_pdf d a b g x.
Proof.
  intros Ha Hg Hr. rewrite ws_pdf_eq. unfold spoly. pose proof PI_RGT_0 as P0. set (P := ws_order a g).
  pose proof (Rsum_abs_cos (ws_rho a g) (ws_mu d a b g) x P (fun p => Rlt_le _ _ (ws_rho_pos a g p))) as A.
  assert (G : Rsum (map (ws_rho a g) (seq 1 P)) <= / 2 * (1 - (/ 3) ^ P)).
  { apply geo_third. intros p Hp. eapply Rle_trans; [apply ws_rho_geo; assumption|]. apply pow_incr. split; [apply Rlt_le, ws_rho_pos|exact Hr]. }
  assert (0 < (/ 3) ^ P) by (apply pow_lt; lra). apply abs_le_inv in A. apply Rdiv_lt_0_compat; lra.
Qed.
Lemma ws_cont d a b g x : continuity_pt (ws_pdf d a b g) x.
Proof. apply (cont_ext (spoly (ws_rho a g) (ws_mu d a b g) (ws_order a g))); [intros; symmetry; apply ws_pdf_eq|apply spoly_cont]. Qed.
Lemma ws_per d a b g x : ws_pdf d a b g (x + 2 * PI) = ws_pdf d a b g x.
Proof. rewrite !ws_pdf_eq. apply spoly_per. Qed.
Lemma ws_density d a b g : ws_ok d a b g = true -> 1 <= a -> exp (- Rpower g a) <= / 3 ->
  pdf_is_density (public_pdf (ws_ok d a b g) (ws_pdf d a b g)) /\ forall x, 0 < ws_pdf d a b g x.
Proof.
  intros Hok Ha Hr. destruct (ws_ok_spec _ _ _ _ Hok) as (Hd & Ha' & Hb & Hg).
  assert (K : forall x, 0 < ws_pdf d a b g x).
  { intros x. apply ws_pos; try lra. unfold ws_rho. change (INR 1) with 1. rewrite Rmult_1_r. exact Hr. }
  split; [|exact K]. rewrite Hok. apply density_intro.
  - intros. apply ws_cont.
  - intros. apply Rlt_le, K.
  - rewrite <- (ws_per d a b g 0), Rplus_0_l. reflexivity.
  - apply ws_total.
Qed.

(** ** Negative values *)
Lemma ln_le_mono x y : 0 < x -> x <= y -> ln x <= ln y.
Proof. intros H [L| ->]; [left; apply ln_increasing; assumption|apply Rle_refl]. Qed.
Lemma cos_half_turns (p : nat) : cos (INR p * PI) = (-1) ^ p.
Proof.
  induction p as [|p IH]; [simpl; rewrite Rmult_0_l; apply cos_0|]. rewrite S_INR. replace ((INR p + 1) * PI) with (INR p * PI + PI) by ring.
  rewrite neg_cos, IH. cbn [pow]. ring.
Qed.
Lemma alt_sum (r : nat -> R) m : (forall p, (1 <= p)%nat -> r (S p) <= r p) ->
  Rsum (map (fun p => r p * (-1) ^ p) (seq 1 (2 * m + 1))) <= - r (2 * m + 1)%nat.
Proof.
  intros H. induction m as [|m IH]; [cbn; lra|]. replace (2 * S m + 1)%nat with (S (S (2 * m + 1))) by lia. rewrite seq_S, map_app, Rsum_app, seq_S, map_app, Rsum_app.
  set (q := (2 * m + 1)%nat) in *. cbn [map]. change (1 + q)%nat with (S q). change (1 + S q)%nat with (S (S q)).
  assert (E : (-1) ^ q = -1). { unfold q. rewrite pow_add, pow_mult. replace ((-1) ^ 2) with 1 by ring. rewrite pow1. ring. }
  replace (Rsum [r (S q) * (-1) ^ S q]) with (r (S q)) by (cbn [pow]; rewrite E; cbn; ring).
  replace (Rsum [r (S (S q)) * (-1) ^ S (S q)]) with (- r (S (S q))) by (cbn [pow]; rewrite E; cbn; ring).
  pose proof (H q ltac:(unfold q; lia)). lra.
Qed.
Definition ws_tiny : R := / 10 ^ 9.
Lemma tiny_bounds : 0 < ws_tiny <= / 10 ^ 9.
Proof. unfold ws_tiny. split; [apply Rinv_0_lt_compat, pow_lt; lra|lra]. Qed.
Lemma ws_rho_tiny p : (1 <= p <= S ws_max)%nat -> 99 / 100 <= ws_rho 2 ws_tiny p.
Proof.
  intros [H1 H2]. pose proof tiny_bounds as [T0 T1]. apply le_INR in H1, H2. rewrite S_INR, INR_ws_max in H2. change (INR 1) with 1 in H1.
  unfold ws_rho. assert (E : Rpower (ws_tiny * INR p) 2 = (ws_tiny * INR p) ^ 2).
  { rewrite <- Rpower_pow by (apply Rmult_lt_0_compat; lra). reflexivity. }
  rewrite E. assert (B : 0 < ws_tiny * INR p <= / 100) by (split; [apply Rmult_lt_0_compat; lra|nra]).
  pose proof (exp_ge1 (- (ws_tiny * INR p) ^ 2)). nra.
Qed.
Lemma ws_loop_last a g fuel P : (1 <= fuel)%nat -> (ws_max <= S P)%nat -> / 10 ^ 12 < ws_rho a g P -> ws_loop a g fuel P = S P.
Proof.
  intros F M R1. destruct fuel as [|f]; [lia|]. cbn [ws_loop]. rewrite (proj2 (Rleb_false (ws_rho a g P) _)) by lra. cbn [andb].
  rewrite (proj2 (Nat.leb_le _ _)) by exact M. reflexivity.
Qed.
Lemma ws_order_tiny : ws_order 2 ws_tiny = S ws_max.
Proof.
  assert (L10 : 1 <= ln 10). { rewrite <- (ln_exp 1). apply ln_le_mono; [apply exp_pos|]. pose proof exp_le_3. lra. }
  assert (I : ws_initial 2 ws_tiny (/ 10 ^ 12) = ws_max).
  { unfold ws_initial. rewrite (proj2 (Rltb_true _ _)); [reflexivity|]. rewrite INR_ws_max. unfold ws_tiny. rewrite !ln_Rinv by (apply pow_lt; lra).
    rewrite !ln_pow10, !Ropp_involutive.
    assert (A : 0 <= ln (INR 12 * ln 10)). { rewrite <- ln_1. apply ln_le_mono; [lra|]. simpl. lra. }
    assert (B : ln 20000 <= INR 5 * ln 10). { rewrite <- ln_pow10. apply ln_le_mono; lra. }
    replace (INR 9) with 9 by (simpl; ring). replace (INR 5) with 5 in B by (simpl; ring). lra. }
  unfold ws_order. rewrite I. pose proof ws_max_ge as M. replace (Nat.max 1 (Nat.max ws_max ws_max)) with ws_max by lia. cbv zeta.
  apply ws_loop_last; [lia|lia|]. pose proof (ws_rho_tiny ws_max ltac:(lia)) as R1. lra.
Qed.
Lemma ws_max_half : S ws_max = (2 * Z.to_nat 10000 + 1)%nat.
Proof. unfold ws_max. lia. Qed.
Lemma ws_mu_two d b g p : ws_mu d 2 b g p = d * INR p.
Proof.
  unfold ws_mu, ws_atol. rewrite (proj2 (Rleb_false _ _)) by (replace (2 - 1) with 1 by ring; rewrite Rabs_R1; lra).
  replace (1 / 2 * PI * 2) with PI by field. unfold tan. rewrite sin_PI. unfold Rdiv. ring.
Qed.
(** Opposite the centre the density is negative. *)
Lemma ws_neg0 b : ws_pdf PI 2 b ws_tiny 0 <= - (/ 10).
Proof.
  rewrite ws_pdf_eq, ws_order_tiny, ws_max_half. unfold spoly. pose proof PI_gt3 as P3. pose proof tiny_bounds as [T0 _].
  rewrite (Rsum_ext_map _ (fun p => ws_rho 2 ws_tiny p * (-1) ^ p)).
  2:{ intros p _. f_equal. rewrite ws_mu_two, Rmult_0_r, <- cos_half_turns, <- cos_neg. f_equal. ring. }
  pose proof (alt_sum (ws_rho 2 ws_tiny) (Z.to_nat 10000) (fun p Hp => ws_rho_anti 2 ws_tiny p (S p) ltac:(lra) T0 ltac:(lia))) as A.
  rewrite <- ws_max_half in *. pose proof (ws_rho_tiny (S ws_max) ltac:(lia)) as R1. set (S0 := Rsum _) in *.
  apply (Rmult_le_reg_r (2 * PI)); [lra|]. replace ((1 + 2 * S0) / (2 * PI) * (2 * PI)) with (1 + 2 * S0) by (field; lra).
  pose proof PI_4. lra.
Qed.
Lemma ws_negative : exists d a b g x v, ws_ok d a b g = true /\ public_pdf (ws_ok d a b g) (ws_pdf d a b g) x = Fin v /\ v < 0.
Proof.
  pose proof PI_gt3 as P3. pose proof tiny_bounds as [T0 _].
  exists PI, 2, 0, ws_tiny, 0, (ws_pdf PI 2 0 ws_tiny 0). assert (O : ws_ok PI 2 0 ws_tiny = true) by (apply ws_ok_intro; lra). split; [exact O|].
  rewrite O, public_pdf_fin, wrap_in by lra. split; [reflexivity|]. pose proof (ws_neg0 0). lra.
Qed.

(** ** cdf *)
Lemma ws_raw_d d a b g x : derivable_pt_lim (ws_raw d a b g) x (ws_pdf d a b g x).
Proof. rewrite ws_pdf_eq. eapply dlim_ext; [|apply sprim_d]. intros. symmetry. apply ws_raw_eq. Qed.
Lemma ws_raw_0 d a b g : ws_raw d a b g 0 = 0. Proof. rewrite ws_raw_eq. apply sprim_0. Qed.
Lemma ws_raw_2pi d a b g : ws_raw d a b g (2 * PI) = 1. Proof. rewrite ws_raw_eq. apply sprim_2pi. Qed.
Lemma ws_int d a b g x y : x <= y -> integral (ws_pdf d a b g) x y (ws_raw d a b g y - ws_raw d a b g x).
Proof. intros L. eapply integral_fun; [exact L|apply ws_pdf_eq|]. rewrite !ws_raw_eq. apply spoly_int. exact L. Qed.
Lemma ws_raw_range d a b g x : (forall t, 0 <= t <= 2 * PI -> 0 <= ws_pdf d a b g t) -> 0 <= x <= 2 * PI -> 0 <= ws_raw d a b g x <= 1.
Proof.
  intros N Hx. pose proof (mono_of_dlim (ws_raw d a b g) (ws_pdf d a b g) 0 (2 * PI) (fun y _ => ws_raw_d d a b g y) N) as M.
  split; [rewrite <- (ws_raw_0 d a b g)|rewrite <- (ws_raw_2pi d a b g)]; apply M; lra.
Qed.
Lemma ws_cdf_val d a b g x : (forall t, 0 <= t <= 2 * PI -> 0 <= ws_pdf d a b g t) -> 0 <= x <= 2 * PI ->
  ws_cdf d a b g x = if isclose_tol (/ 100000) (/ 10 ^ 12) x (2 * PI) then 1 else if isclose_tol (/ 100000) (/ 10 ^ 12) x 0 then 0 else ws_raw d a b g x.
Proof.
  intros N Hx. unfold ws_cdf. cbv zeta. pose proof (ws_raw_range d a b g x N Hx) as K. rewrite (proj2 (Rltb_false _ _)) by lra. rewrite clip_in by exact K. reflexivity.
Qed.
Lemma ws_cdf_int d a b g x : ws_ok d a b g = true -> (forall t, 0 <= t <= 2 * PI -> 0 <= ws_pdf d a b g t) -> / 10 ^ 12 < x < 2 * PI ->
  / 10 ^ 12 + / 10 ^ 5 * (2 * PI) < 2 * PI - x ->
  exists u, public_cdf (ws_ok d a b g) (ws_cdf d a b g) x = Fin u /\ integral (ws_pdf d a b g) 0 x u.
Proof.
  intros Hok N Hx W. assert (T : 0 < / 10 ^ 12) by (apply Rinv_0_lt_compat, pow_lt; lra). pose proof PI_gt3 as P3.
  rewrite Hok, public_cdf_fin. eexists. split; [reflexivity|]. unfold pub_F. rewrite wrap_in by lra. rewrite (proj2 (Rleb_false _ _)) by lra.
  rewrite (proj2 (Rltb_true _ _)) by lra. rewrite ws_cdf_val by (try assumption; lra).
  assert (C1 : isclose_tol (/ 100000) (/ 10 ^ 12) x (2 * PI) = false).
  { apply not_true_is_false. unfold isclose_tol. rewrite Rleb_true, (Rabs_minus_sym x), !Rabs_pos_eq by lra. lra. }
  assert (C2 : isclose_tol (/ 100000) (/ 10 ^ 12) x 0 = false).
  { apply not_true_is_false. unfold isclose_tol. rewrite Rleb_true, Rabs_R0, Rabs_pos_eq by lra. lra. }
  rewrite C1, C2. replace (ws_raw d a b g x) with (ws_raw d a b g x - ws_raw d a b g 0) by (rewrite ws_raw_0; ring). apply ws_int. lra.
Qed.
