(** katojones: the public pdf and its moments. *)
From Verif Require Import Prelude EmModel NpModel NpProofs CircleSpec IntSpec IntProofs DistModel DistSpec DistProofs
  Dist2Proofs Dist4Proofs Dist7Proofs Dist8Proofs KjModel KjSpec KjProofs.

(** The documented range, away from rho = 1. *)
Definition kj_inside (c : kj) : Prop := kj_documented c /\ kj_rho c <= 1 - / 10 ^ 7.

Lemma kj_documented_ok c : kj_documented c -> kj_argcheck c = true.
Proof.
  intros (H1 & H2 & H3 & H4 & H5). unfold kj_argcheck, kj_constraint. pose proof (pow_lt 10 12 ltac:(lra)) as T. apply Rinv_0_lt_compat in T.
  repeat (apply andb_true_intro; split); first [apply Rleb_true|apply Rltb_true]; lra.
Qed.
Lemma kj_argcheck_spec c : kj_argcheck c = true ->
  0 <= kj_mu c < 2 * PI /\ 0 <= kj_gamma c < 1 /\ 0 <= kj_rho c < 1 /\ 0 <= kj_lam c < 2 * PI /\
  kj_constraint (kj_gamma c) (kj_rho c) (kj_lam c) <= (1 - kj_gamma c) ^ 2 + / 10 ^ 12.
Proof.
  unfold kj_argcheck. intros H. repeat (apply andb_prop in H; destruct H as [H ?]).
  repeat match goal with h : Rleb _ _ = true |- _ => apply Rleb_true in h | h : Rltb _ _ = true |- _ => apply Rltb_true in h end.
  repeat split; assumption.
Qed.
Lemma kj_pdf_U c x : 0 <= kj_rho c <= 1 - / 10 ^ 7 -> kj_pdf c x = Rmax (kjU c x) 0.
Proof.
  intros H. assert (T : 0 < / 10 ^ 7 < 1) by (split; [apply Rinv_0_lt_compat; apply pow_lt; lra|lra]).
  pose proof (kjD_lower (kj_rho c) (x - kj_mu c - kj_lam c) ltac:(lra)) as D.
  assert ((/ 10 ^ 7) ^ 2 <= (1 - kj_rho c) ^ 2) by (apply pow_incr; lra).
  assert (/ 10 ^ 15 <= (/ 10 ^ 7) ^ 2) by lra.
  unfold kj_pdf, kjU. fold (kjD (kj_rho c) (x - kj_mu c - kj_lam c)).
  rewrite (Rmax_left (kjD _ _)) by lra. reflexivity.
Qed.
Lemma kj_pdf_U' c x : kj_inside c -> kj_pdf c x = kjU c x.
Proof.
  intros ((? & ? & ? & ? & Hv) & Hr).
  rewrite kj_pdf_U by lra. apply Rmax_left. apply kjU_nonneg; assumption.
Qed.
Lemma kjU_turn c x : 0 <= kj_rho c < 1 -> kjU c (x + 2 * PI) = kjU c x.
Proof.
  intros H. rewrite !kjU_kj0 by exact H.
  replace (x + 2 * PI - kj_mu c - kj_lam c) with (x - kj_mu c - kj_lam c + 2 * PI) by ring. apply kj0_per.
Qed.

Lemma density_intro f : (forall x, 0 <= x <= 2 * PI -> continuity_pt f x) ->
  (forall x, 0 <= x <= 2 * PI -> 0 <= f x) -> f 0 = f (2 * PI) -> integral f 0 (2 * PI) 1 ->
  pdf_is_density (public_pdf true f).
Proof.
  intros Hc Hn Hp Hi. pose proof PI_RGT_0 as P0. destruct (primitive_exists f 0 (2 * PI) ltac:(lra) Hc) as [P HP].
  assert (H1 : P (2 * PI) - P 0 = 1).
  { pose proof (ftc f P 0 (2 * PI) ltac:(lra) Hc HP) as I. exact (integral_unique _ _ _ _ _ I Hi). }
  eapply describes_density. apply (describes_intro f (fun x => P x - P 0) (fun x => P x - P 0)); try assumption; try lra.
  - intros x Hx. eapply dlim_eq; [|apply dlim_minus; [apply HP; exact Hx|apply dlim_const]]. ring.
  - reflexivity.
Qed.

Lemma kj_density c : kj_inside c -> pdf_is_density (public_pdf (kj_argcheck c) (kj_pdf c)).
Proof.
  intros H. pose proof H as ((Hm & Hg & Hrr & Hl & Hv) & Hr). pose proof (kj_documented_ok c (proj1 H)) as Ha.
  rewrite Ha. pose proof PI_RGT_0.
  assert (E : forall x, kjU c x = kj_pdf c x) by (intros x; symmetry; apply kj_pdf_U'; exact H).
  apply density_intro.
  - intros x _. apply (cont_ext (kjU c) _ x E). apply kjU_cont. lra.
  - intros x _. rewrite <- E. apply kjU_nonneg; assumption.
  - rewrite <- !E. replace (2 * PI) with (0 + 2 * PI) by ring. symmetry. apply kjU_turn. lra.
  - eapply integral_ext; [lra| |apply (kjU_total c)]; try lra. intros x _. apply E.
Qed.

Lemma zero_integral h a b : a < b -> (forall x, a <= x <= b -> continuity_pt h x) ->
  (forall x, a <= x <= b -> 0 <= h x) -> integral h a b 0 -> forall x, a < x < b -> h x = 0.
Proof.
  intros Hab Hc Hn Hi x Hx. destruct (primitive_exists h a b ltac:(lra) Hc) as [P HP].
  assert (H0 : P b - P a = 0) by (pose proof (ftc h P a b ltac:(lra) Hc HP) as I; exact (integral_unique _ _ _ _ _ I Hi)).
  assert (Hmono : forall u v, a <= u -> u <= v -> v <= b -> P u <= P v) by (apply (mono_of_dlim P h a b); assumption).
  assert (HPc : forall y, a < y < b -> (fun _ => P a) y = P y).
  { intros y Hy. cbv beta. pose proof (Hmono a y). pose proof (Hmono y b). lra. }
  apply (dlim_unique P x); [apply HP; lra|].
  apply (dlim_ext_loc (fun _ => P a) P x 0 a b Hx HPc). apply dlim_const.
Qed.

(** With the slack the clipped density integrates to more than 1. *)
Definition kj_slack : kj := {| kj_mu := 0; kj_gamma := 1 / 4; kj_rho := 1 / 2 + / 10 ^ 13; kj_lam := PI |}.
Lemma kj_slack_ok : kj_argcheck kj_slack = true.
Proof.
  pose proof PI_RGT_0.
  unfold kj_argcheck, kj_slack, kj_constraint; simpl kj_mu; simpl kj_gamma; simpl kj_rho; simpl kj_lam. rewrite cos_PI, sin_PI.
  repeat (apply andb_true_intro; split); first [apply Rleb_true|apply Rltb_true]; try lra.
Qed.
Lemma kj_slack_not_density : exists c, kj_argcheck c = true /\ ~ pdf_is_density (public_pdf (kj_argcheck c) (kj_pdf c)).
Proof.
  exists kj_slack. split; [exact kj_slack_ok|]. rewrite kj_slack_ok. intros (f & Hf & _ & Hd).
  destruct Hd as [_ Hi]. pose proof PI_RGT_0 as P0.
  pose proof (pub_pdf_on _ _ Hf) as E.
  assert (Hr : 0 <= kj_rho kj_slack <= 1 - / 10 ^ 7) by (simpl kj_rho; lra).
  assert (E2 : forall x, 0 <= x <= 2 * PI -> f x = Rmax (kjU kj_slack x) 0) by (intros x Hx; rewrite E by exact Hx; apply kj_pdf_U; exact Hr).
  assert (Hr' : 0 <= kj_rho kj_slack < 1) by lra.
  assert (IU : integral (kjU kj_slack) 0 (2 * PI) 1) by (apply kjU_total; simpl kj_mu; simpl kj_lam; lra).
  assert (Ih : integral (fun x => Rmax (kjU kj_slack x) 0 + -1 * kjU kj_slack x) 0 (2 * PI) 0).
  { eapply integral_val; [|apply integral_lin; [|exact IU]]; [|eapply integral_ext; [| |exact Hi]; [lra|exact E2]]. ring. }
  assert (Hz : Rmax (kjU kj_slack PI) 0 + -1 * kjU kj_slack PI = 0).
  { apply (zero_integral (fun x => Rmax (kjU kj_slack x) 0 + -1 * kjU kj_slack x) 0 (2 * PI)); try lra; try exact Ih.
    - intros x _. apply (cont_ext (fun x => / 2 * (Rabs (kjU kj_slack x) + -1 * kjU kj_slack x))).
      + intros y. unfold Rmax, Rabs. destruct (Rle_dec (kjU kj_slack y) 0), (Rcase_abs (kjU kj_slack y)); lra.
      + apply cont_mult; [apply cont_const|]. apply cont_plus; [apply cont_abs; apply kjU_cont; exact Hr'|].
        apply cont_mult; [apply cont_const|apply kjU_cont; exact Hr'].
    - intros x _. pose proof (Rmax_l (kjU kj_slack x) 0). lra. }
  assert (Hneg : kjU kj_slack PI < 0).
  { pose proof (kjU_num kj_slack PI Hr') as N. cbv zeta in N.
    unfold kj_constraint in N. simpl kj_mu in N; simpl kj_gamma in N; simpl kj_rho in N; simpl kj_lam in N.
    replace (PI - 0 - PI) with 0 in N by ring. rewrite cos_PI, sin_PI, cos_0, sin_0 in N.
    unfold kjD in N. rewrite cos_0 in N. nra. }
  pose proof (Rmax_r (kjU kj_slack PI) 0). lra.
Qed.

Lemma kj_moments c f p : kj_inside c -> (forall x, public_pdf (kj_argcheck c) (kj_pdf c) x = Fin (f x)) ->
  trig_moment_of f p (fst (kj_trig_moment c p)) (snd (kj_trig_moment c p)).
Proof.
  intros H Hf. pose proof H as ((Hm & Hg & Hrr & Hl & Hv) & Hr). pose proof (kj_documented_ok c (proj1 H)) as Ha.
  rewrite Ha in Hf. pose proof PI_RGT_0 as P0.
  assert (E : forall x, 0 <= x <= 2 * PI -> kjU c x = f x)
    by (intros x Hx; rewrite (pub_pdf_on _ _ Hf) by exact Hx; symmetry; apply kj_pdf_U'; exact H).
  assert (Hpos : forall m, trig_moment_of f (Z.of_nat (S m))
     (kj_gamma c * kj_rho c ^ m * cos (INR (S m) * kj_mu c + INR m * kj_lam c))
     (kj_gamma c * kj_rho c ^ m * sin (INR (S m) * kj_mu c + INR m * kj_lam c))).
  { intros m. destruct (kjU_moment c m ltac:(lra) ltac:(lra) ltac:(lra)) as [Ic Is]. unfold trig_moment_of.
    split; eapply integral_ext; [lra| |exact Ic|lra| |exact Is]; intros x Hx; cbv beta; rewrite <- INR_IZR_INZ, E by exact Hx; reflexivity. }
  assert (Hmag : forall m, (if Nat.eqb (S m) 1 then kj_gamma c else kj_gamma c * kj_rho c ^ (S m - 1)) = kj_gamma c * kj_rho c ^ m).
  { intros m. replace (S m - 1)%nat with m by lia. destruct m; simpl; ring. }
  unfold kj_trig_moment. destruct (Z.eqb_spec p 0) as [->|Hp0].
  - cbn [fst snd]. pose proof (kjU_total c ltac:(lra) ltac:(lra) ltac:(lra)) as I. split.
    + eapply integral_ext; [lra| |exact I]. intros x Hx. cbv beta. rewrite Rmult_0_l, cos_0, E by exact Hx. ring.
    + eapply integral_val; [|eapply integral_ext; [lra| |exact (integral_const 0 (2 * PI) 0)]]; [ring|].
      intros x Hx. cbv beta. rewrite Rmult_0_l, sin_0. ring.
  - destruct (Z.ltb_spec p 0) as [Hn|Hn].
    + destruct (Z_of_nat_complete (- p) ltac:(lia)) as [k Hk]. destruct k as [|m]; [simpl in Hk; lia|].
      replace (Z.abs_nat p) with (S m) by lia. cbv zeta. rewrite Hmag. rewrite (S_INR m).
      replace (INR m + 1 - 1) with (INR m) by ring. rewrite <- (S_INR m). cbn [fst snd].
      destruct (Hpos m) as [Ic Is]. rewrite <- Hk in Ic, Is.
      assert (Ep : IZR p = - IZR (- p)) by (rewrite opp_IZR; ring).
      split.
      * eapply integral_ext; [lra| |exact Ic]. intros x _. cbv beta. rewrite Ep.
        replace (- IZR (- p) * x) with (- (IZR (- p) * x)) by ring. rewrite cos_neg. reflexivity.
      * eapply integral_val; [|eapply integral_ext; [lra| |apply (integral_scal _ 0 (2 * PI) (-1) _ (Rlt_le _ _ (Rmult_lt_0_compat 2 PI Rlt_0_2 P0)) Is)]]; [ring|].
        intros x _. cbv beta. rewrite Ep.
        replace (- IZR (- p) * x) with (- (IZR (- p) * x)) by ring. rewrite sin_neg. ring.
    + destruct (Z_of_nat_complete p ltac:(lia)) as [k Hk]. destruct k as [|m]; [simpl in Hk; lia|].
      replace (Z.abs_nat p) with (S m) by lia. cbv zeta. rewrite Hmag. rewrite (S_INR m).
      replace (INR m + 1 - 1) with (INR m) by ring. rewrite <- (S_INR m). cbn [fst snd].
      rewrite Hk. apply Hpos.
Qed.
