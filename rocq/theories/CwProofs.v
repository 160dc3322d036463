(** cartwright: the density, its primitive and the incomplete beta function. *)
From Verif Require Import Prelude NpModel NpProofs CircleSpec IntSpec IntProofs DistModel DistSpec DistProofs Dist4Proofs Dist7Proofs KjProofs Kj2Proofs JpProofs Desc6Proofs Von3Proofs GaussProofs CwModel CwSpec GamProofs Gam2Proofs.

Lemma cw_ok_spec mu zeta : cw_ok mu zeta = true <-> 0 <= mu <= 2 * PI /\ 0 < zeta.
Proof. unfold cw_ok. rewrite !andb_true_iff, !Rleb_true, Rltb_true. tauto. Qed.
Lemma inv_pos zeta : 0 < zeta -> 0 < 1 / zeta.
Proof. intros H. unfold Rdiv. rewrite Rmult_1_l. apply Rinv_0_lt_compat, H. Qed.
Definition cw_C (g : R -> R) (s : R) : R := Rpower 2 (- 1 + s) * g (1 + s) ^ 2 / (PI * g (1 + 2 * s)).
Lemma cw_C_mass g s v : is_gamma g -> 0 < s -> integral (kc s) 0 (2 * PI) v -> cw_C g s = 1 / v.
Proof.
  intros H Hs I. rewrite (kc_mass g s v H Hs I). destruct H as (_ & Hr & _). destruct (Hr (1 + s) ltac:(lra)) as [P1 _]. destruct (Hr (1 + 2 * s) ltac:(lra)) as [P2 _]. pose proof PI_RGT_0 as P. assert (R0 : 0 < Rpower 2 s) by apply exp_pos.
  assert (R1 : Rpower 2 (- 1) = / 2) by (replace (- 1) with (- (1)) by ring; rewrite Rpower_Ropp, Rpower_1 by lra; reflexivity). unfold cw_C. rewrite Rpower_plus, R1. field. repeat split; try lra.
Qed.
Lemma cw_pdf_C g mu zeta x : cw_pdf g mu zeta x = cw_C g (1 / zeta) * kc (1 / zeta) (x - mu).
Proof. unfold cw_pdf, cw_C, kc. replace (2 * (1 / zeta)) with (2 / zeta) by (unfold Rdiv; ring). unfold Rdiv. ring. Qed.
Lemma cw_pdf_kernel g mu zeta : is_gamma g -> 0 < zeta -> exists v, 0 < v /\ integral (kc (1 / zeta)) 0 (2 * PI) v /\ cw_C g (1 / zeta) = 1 / v /\ forall x, cw_pdf g mu zeta x = 1 / v * kc (1 / zeta) (x - mu).
Proof.
  intros H Hz. pose proof (inv_pos zeta Hz) as Hs. destruct (kc_int _ Hs) as [v I]. pose proof (cw_C_mass g _ v H Hs I) as E. exists v. split; [apply (kc_mass_pos _ _ Hs I)|]. split; [exact I|]. split; [exact E|]. intros x. rewrite cw_pdf_C, E. reflexivity.
Qed.
Lemma cw_pdf_turns g mu zeta x (z : Z) : cw_pdf g mu zeta (x + 2 * PI * IZR z) = cw_pdf g mu zeta x.
Proof. rewrite !cw_pdf_C. replace (x + 2 * PI * IZR z - mu) with (x - mu + 2 * PI * IZR z) by ring. rewrite kc_turns. reflexivity. Qed.
Lemma cw_pdf_wrap g mu zeta x : cw_pdf g mu zeta (wrap_angles x) = cw_pdf g mu zeta x.
Proof. destruct (wrap_same x) as [z ->]. apply cw_pdf_turns. Qed.
Lemma cw_public g mu zeta x : cw_ok mu zeta = true -> public_pdf (cw_ok mu zeta) (cw_pdf g mu zeta) x = Fin (cw_pdf g mu zeta x).
Proof. intros ->. rewrite public_pdf_fin, cw_pdf_wrap. reflexivity. Qed.
Lemma kc_shift_int s m v : 0 < s -> 0 <= m <= 2 * PI -> integral (kc s) 0 (2 * PI) v -> integral (fun x => kc s (x - m)) 0 (2 * PI) v.
Proof.
  intros Hs Hm I. apply integral_shift; [exact Hm|intros; apply kc_cont, Hs| |exact I]. intros x. pose proof (kc_turns s x 1) as T. rewrite Rmult_1_r in T. exact T.
Qed.
Lemma cw_density g mu zeta : is_gamma g -> cw_ok mu zeta = true -> pdf_is_density (public_pdf (cw_ok mu zeta) (cw_pdf g mu zeta)).
Proof.
  intros H Hok. pose proof (proj1 (cw_ok_spec _ _) Hok) as [Hm Hz]. exists (cw_pdf g mu zeta). split; [intros x; apply cw_public, Hok|]. split; [intros x y [z ->]; apply cw_pdf_turns|].
  destruct (cw_pdf_kernel g mu zeta H Hz) as (v & v0 & I & _ & E). assert (c0 : 0 < 1 / v) by (apply inv_pos, v0). split.
  - intros x. rewrite E. apply Rmult_le_pos; [lra|apply npow_nonneg].
  - pose proof PI_RGT_0. apply (integral_ext (fun x => 1 / v * kc (1 / zeta) (x - mu))); [lra|intros; symmetry; apply E|]. apply (integral_val _ _ _ (1 / v * v)); [field; lra|]. apply integral_scal; [lra|]. apply kc_shift_int; [apply inv_pos, Hz|exact Hm|exact I].
Qed.
(** ** The first trigonometric moment *)
Lemma kc_cos s v : 0 < s -> integral (kc s) 0 (2 * PI) v -> integral (fun u => cos u * kc s u) 0 (2 * PI) (s / (1 + s) * v).
Proof.
  intros Hs I. pose proof PI_RGT_0 as P. destruct (kc_int (s + 1) ltac:(lra)) as [w J]. pose proof (kc_rec s v w Hs I J) as E.
  apply (integral_ext (fun u => kc (s + 1) u + - (1) * kc s u)); [lra|intros u _; rewrite kc_S; ring|]. apply (integral_val _ _ _ (w + - (1) * v)); [|apply integral_plus; [lra|exact J|apply integral_scal; [lra|exact I]]].
  apply Rmult_eq_reg_l with (1 + s); [|lra]. replace ((1 + s) * (w + - (1) * v)) with ((1 + s) * w - (1 + s) * v) by ring. rewrite E. field. lra.
Qed.
Lemma kc_sin s : 0 < s -> integral (fun u => sin u * kc s u) 0 (2 * PI) 0.
Proof.
  intros Hs. pose proof PI_RGT_0 as P. set (f := fun u => sin u * kc s u). assert (C : forall x, continuity_pt f x) by (intros x; apply cont_mult; [apply derivable_continuous_pt, derivable_pt_sin|apply kc_cont, Hs]).
  destruct (primitive_exists f (- (2 * PI)) (2 * PI) ltac:(lra) (fun x _ => C x)) as [Q HQ].
  assert (I1 : integral f 0 (2 * PI) (Q (2 * PI) - Q 0)) by (apply ftc; [lra|intros; apply C|intros; apply HQ; lra]).
  assert (O : forall x, f (- x) = - f x) by (intros x; unfold f, kc; rewrite sin_neg, cos_neg; ring).
  assert (I2 : integral f 0 (2 * PI) (Q (- (2 * PI)) - Q (- 0))).
  { apply (ftc f (fun x => Q (- x))); [lra|intros; apply C|]. intros x Hx. eapply dlim_eq; [|apply (dlim_comp Q (fun x => - x)); [apply (dlim_opp (fun x => x)); apply dlim_id|apply HQ; lra]]. rewrite O. ring. }
  assert (I3 : integral f (- (2 * PI)) 0 (Q 0 - Q (- (2 * PI)))) by (apply ftc; [lra|intros; apply C|intros; apply HQ; lra]).
  assert (T : forall x (z : Z), f (x + 2 * PI * IZR z) = f x) by (intros x z; unfold f; rewrite kc_turns, NpProofs.sin_turns; reflexivity).
  pose proof (int_turn f (- (2 * PI)) _ C T I1) as I4. replace (- (2 * PI) + 2 * PI) with 0 in I4 by ring. pose proof (integral_unique _ _ _ _ _ I3 I4) as E1. rewrite Ropp_0 in I2. pose proof (integral_unique _ _ _ _ _ I1 I2) as E2.
  apply (integral_val _ _ _ (Q (2 * PI) - Q 0)); [lra|exact I1].
Qed.
Lemma cw_moment g mu zeta : is_gamma g -> cw_ok mu zeta = true -> trig_moment_of (cw_pdf g mu zeta) 1 (1 / (1 + zeta) * cos mu) (1 / (1 + zeta) * sin mu).
Proof.
  intros H Hok. apply cw_ok_spec in Hok. destruct Hok as [Hm Hz]. pose proof (inv_pos zeta Hz) as Hs. destruct (cw_pdf_kernel g mu zeta H Hz) as (v & v0 & I & _ & E). pose proof PI_RGT_0 as P. set (s := 1 / zeta) in *.
  assert (Es : s / (1 + s) = 1 / (1 + zeta)) by (unfold s; field; lra). assert (iv : 0 < / v) by (apply Rinv_0_lt_compat, v0).
  pose proof (kc_cos s v Hs I) as Ic. pose proof (kc_sin s Hs) as Is.
  assert (Cc : forall x, continuity_pt (fun u => cos u * kc s u) x) by (intros x; apply cont_mult; [apply cos_cont|apply kc_cont, Hs]).
  assert (Cs : forall x, continuity_pt (fun u => sin u * kc s u) x) by (intros x; apply cont_mult; [apply derivable_continuous_pt, derivable_pt_sin|apply kc_cont, Hs]).
  assert (T : forall x, kc s (x + 2 * PI) = kc s x) by (intros x; pose proof (kc_turns s x 1) as T; rewrite Rmult_1_r in T; exact T).
  assert (Jc := integral_shift (fun u => cos u * kc s u) mu _ Hm Cc ltac:(intros x; cbv beta; rewrite T, cos_plus, cos_2PI, sin_2PI; ring) Ic).
  assert (Js := integral_shift (fun u => sin u * kc s u) mu _ Hm Cs ltac:(intros x; cbv beta; rewrite T, sin_plus, cos_2PI, sin_2PI; ring) Is). cbv beta in Jc, Js. split.
  - apply (integral_ext (fun x => / v * cos mu * (cos (x - mu) * kc s (x - mu)) + - (/ v * sin mu) * (sin (x - mu) * kc s (x - mu)))); [lra| |].
    + intros x _. rewrite E. replace (IZR 1 * x) with (x - mu + mu) by ring. rewrite cos_plus. unfold Rdiv. ring.
    + apply (integral_val _ _ _ (/ v * cos mu * (s / (1 + s) * v) + - (/ v * sin mu) * 0)); [rewrite Es; field; lra|]. apply integral_plus; [lra| |]; apply integral_scal; try lra; assumption.
  - apply (integral_ext (fun x => / v * sin mu * (cos (x - mu) * kc s (x - mu)) + / v * cos mu * (sin (x - mu) * kc s (x - mu)))); [lra| |].
    + intros x _. rewrite E. replace (IZR 1 * x) with (x - mu + mu) by ring. rewrite sin_plus. unfold Rdiv. ring.
    + apply (integral_val _ _ _ (/ v * sin mu * (s / (1 + s) * v) + / v * cos mu * 0)); [rewrite Es; field; lra|]. apply integral_plus; [lra| |]; apply integral_scal; try lra; assumption.
Qed.

(** ** The incomplete beta function in angles *)
Definition kn (s u : R) : R := npow ((1 + cos u) / 2) s.
Lemma kn_cont s u : 0 < s -> continuity_pt (kn s) u.
Proof.
  intros H. apply (cont_ext (fun u => Rpower 2 (- s) * kc s u)); [intros y; rewrite kc_scale, <- Rmult_assoc, <- Rpower_plus; replace (- s + s) with 0 by ring; rewrite Rpower_O by lra; unfold kn; ring|].
  apply cont_mult; [apply cont_const|apply kc_cont, H].
Qed.
Lemma kn_range s u : 0 < s -> 0 <= kn s u <= 1.
Proof.
  intros H. split; [apply npow_nonneg|]. unfold kn. pose proof (COS_bound u) as C. destruct (Rlt_dec 0 ((1 + cos u) / 2)) as [L|L]; [|rewrite npow_0 by lra; lra]. rewrite npow_pos by exact L. unfold Rpower.
  apply Rle_trans with (exp 0); [|rewrite exp_0; lra]. apply expm_le. assert (ln ((1 + cos u) / 2) <= 0) by (rewrite <- ln_1; apply ln_mono; lra). nra.
Qed.
Lemma half_sq u : sin (1 / 2 * u) ^ 2 = (1 - cos u) / 2.
Proof. replace u with (2 * (1 / 2 * u)) at 2 by field. rewrite cos_2a_sin. field. Qed.
Lemma beta_kernel b u : 0 < u < PI -> Rpower ((1 - cos u) / 2) (- (1 / 2)) * Rpower (1 - (1 - cos u) / 2) (b - 1) * (sin u / 2) = kn (b - 1 / 2) u.
Proof.
  intros H. set (c := cos (1 / 2 * u)). set (t := sin (1 / 2 * u)). assert (c0 : 0 < c) by (apply cos_gt_0; lra). assert (t0 : 0 < t) by (apply sin_gt_0; lra).
  pose proof (half_sq u) as E1. fold t in E1. pose proof (sin2_cos2 (1 / 2 * u)) as T. unfold Rsqr in T. fold c t in T. assert (E2 : (1 + cos u) / 2 = c ^ 2) by nra. assert (E3 : sin u = 2 * t * c) by (unfold t, c; rewrite <- sin_2a; f_equal; field).
  unfold kn. rewrite <- E1, E2, E3. replace (1 - t ^ 2) with (c ^ 2) by nra. rewrite npow_pos by nra. rewrite <- !Rpower_pow with (n := 2%nat) by assumption. rewrite !Rpower_mult.
  replace (INR 2 * - (1 / 2)) with (- (1)) by (simpl; field). rewrite Rpower_Ropp, Rpower_1 by exact t0. replace (INR 2 * (b - 1 / 2)) with (INR 2 * (b - 1) + 1) by (simpl; field). rewrite Rpower_plus, Rpower_1 by exact c0. field. lra.
Qed.
Lemma beta_open beta I s G : is_betainc beta I -> 0 < s -> (forall x, 0 <= x <= PI -> derivable_pt_lim G x (kn s x)) -> forall a p, 0 < a -> a <= p -> p < PI ->
  beta (1 / 2) (s + 1 / 2) * (I (1 / 2) (s + 1 / 2) ((1 - cos p) / 2) - I (1 / 2) (s + 1 / 2) ((1 - cos a) / 2)) = G p - G a.
Proof.
  intros HB Hs HG a p Ha Hap Hp. destruct (HB (s + 1 / 2) ltac:(lra)) as (_ & _ & _ & _ & HI). set (X := fun u => (1 - cos u) / 2).
  assert (Ca : cos a < 1) by (rewrite <- cos_0; apply cos_decreasing_1; lra). assert (Cp : - 1 < cos p) by (rewrite <- cos_PI; apply cos_decreasing_1; lra).
  assert (Mo : forall u w, 0 <= u -> u <= w -> w <= PI -> X u <= X w) by (intros u w U1 U2 U3; unfold X; pose proof (cos_decr_1 u w U1 ltac:(lra) ltac:(lra) U3 U2); lra).
  assert (Xa : 0 < X a) by (unfold X; lra). assert (Xp : X p < 1) by (unfold X; lra). pose proof (HI (X a) (X p) Xa (Mo a p ltac:(lra) Hap ltac:(lra)) Xp) as J.
  set (f := fun t => Rpower t (- (1 / 2)) * Rpower (1 - t) (s + 1 / 2 - 1)) in *.
  assert (Cf : forall x, X a <= x <= X p -> continuity_pt f x).
  { intros x Hx. unfold f, Rpower. apply (cont_mult (fun t => exp (- (1 / 2) * ln t)) (fun t => exp ((s + 1 / 2 - 1) * ln (1 - t)))).
    - apply (cont_comp exp (fun t => - (1 / 2) * ln t)); [|apply exp_cont]. apply cont_mult; [apply cont_const|apply ln_cont; lra].
    - apply (cont_comp exp (fun t => (s + 1 / 2 - 1) * ln (1 - t))); [|apply exp_cont]. apply cont_mult; [apply cont_const|]. apply (cont_comp ln (fun t => 1 - t)); [|apply ln_cont; lra].
      apply (cont_ext (fun t => 1 + - (1) * t)); [intros; ring|]. apply cont_plus; [apply cont_const|apply cont_mult; [apply cont_const|apply derivable_continuous_pt, derivable_pt_id]]. }
  destruct (primitive_exists f (X a) (X p) (Mo a p ltac:(lra) Hap ltac:(lra)) Cf) as [Q HQ].
  assert (J2 : integral f (X a) (X p) (Q (X p) - Q (X a))) by (apply ftc; [apply Mo; lra|exact Cf|exact HQ]). change ((1 - cos p) / 2) with (X p). change ((1 - cos a) / 2) with (X a). rewrite (integral_unique _ _ _ _ _ J J2).
  assert (K1 : integral (kn s) a p (Q (X p) - Q (X a))).
  { apply (ftc (kn s) (fun u => Q (X u))); [exact Hap|intros; apply kn_cont, Hs|]. intros u Hu. replace (kn s u) with (f (X u) * (sin u / 2)).
    - apply (dlim_comp Q X); [|apply HQ; split; apply Mo; lra]. unfold X. apply (dlim_divc 2 (fun u => 1 - cos u)). eapply dlim_eq; [|apply (dlim_minus (fun _ => 1) cos); [apply dlim_const|apply derivable_pt_lim_cos]]. ring.
    - unfold f, X. pose proof (beta_kernel (s + 1 / 2) u ltac:(lra)) as E. replace (s + 1 / 2 - 1 / 2) with s in E by ring. exact E. }
  assert (K2 : integral (kn s) a p (G p - G a)) by (apply ftc; [exact Hap|intros; apply kn_cont, Hs|intros; apply HG; lra]). exact (integral_unique _ _ _ _ _ K1 K2).
Qed.
Lemma beta_angle beta I s : is_betainc beta I -> 0 < s -> forall p, 0 <= p <= PI -> integral (kn s) 0 p (beta (1 / 2) (s + 1 / 2) * I (1 / 2) (s + 1 / 2) ((1 - cos p) / 2)).
Proof.
  intros HB Hs. pose proof PI_gt3 as P. destruct (primitive_exists (kn s) 0 PI ltac:(lra) (fun x _ => kn_cont s x Hs)) as [G HG]. pose proof (beta_open beta I s G HB Hs HG) as O. destruct (HB (s + 1 / 2) ltac:(lra)) as (I0 & I1 & IR & IC & _).
  set (B := beta (1 / 2) (s + 1 / 2)) in *. set (J := I (1 / 2) (s + 1 / 2)) in *.
  assert (GI : forall u w, 0 <= u -> u <= w -> w <= PI -> integral (kn s) u w (G w - G u)) by (intros u w U1 U2 U3; apply ftc; [exact U2|intros; apply kn_cont, Hs|intros; apply HG; lra]).
  assert (GL : forall u w, 0 <= u -> u <= w -> w <= PI -> 0 <= G w - G u <= w - u).
  { intros u w U1 U2 U3. pose proof (GI u w U1 U2 U3) as K. split.
    - replace 0 with (0 * (w - u)) by ring. apply (integral_le (fun _ => 0) (kn s) u w _ _ U2); [intros; apply kn_range, Hs|apply integral_const|exact K].
    - replace (w - u) with (1 * (w - u)) by ring. apply (integral_le (kn s) (fun _ => 1) u w _ _ U2); [intros; apply kn_range, Hs|exact K|apply integral_const]. }
  assert (small : forall e, 0 < e -> exists a, 0 < a < e /\ a < 1 /\ J ((1 - cos a) / 2) < e /\ 1 - e < J ((1 - cos (PI - a)) / 2)).
  { intros e He. destruct (IC e He) as (d & D & HD). set (a := Rmin (e / 2) (Rmin (1 / 2) d)). assert (A0 : 0 < a) by (unfold a; repeat apply Rmin_pos; lra). pose proof (Rmin_l (e / 2) (Rmin (1 / 2) d)) as A1. pose proof (Rmin_r (e / 2) (Rmin (1 / 2) d)) as A2. pose proof (Rmin_l (1 / 2) d) as A3. pose proof (Rmin_r (1 / 2) d) as A4. fold a in A1, A2.
    exists a. split; [lra|]. split; [lra|]. assert (C : 1 - a < cos a).
    { pose proof (Desc6Proofs.cos_ge a). assert (a ^ 2 / 2 < a) by nra. lra. }
    pose proof (COS_bound a) as Cb. split.
    - apply (HD ((1 - cos a) / 2) ltac:(lra)). lra.
    - replace (cos (PI - a)) with (- cos a) by (rewrite cos_minus, cos_PI, sin_PI; ring). apply (HD ((1 - - cos a) / 2) ltac:(lra)). lra. }
  assert (zero : forall v c, (forall e, 0 < e -> e < 1 -> Rabs v <= c * e) -> v = 0).
  { intros v c Hv. destruct (Req_dec v 0) as [E|E]; [exact E|exfalso]. pose proof (Rabs_pos_lt v E) as Q. set (k := Rabs c + 1). assert (K : 1 <= k) by (unfold k; pose proof (Rabs_pos c); lra). pose proof (Rle_abs c) as Kc.
    set (e := Rmin (1 / 2) (Rabs v / (2 * k))). assert (W : 0 < Rabs v / (2 * k)) by (apply Rmult_lt_0_compat; [exact Q|apply Rinv_0_lt_compat; lra]). assert (e0 : 0 < e) by (apply Rmin_pos; lra). pose proof (Rmin_l (1 / 2) (Rabs v / (2 * k))) as M1. pose proof (Rmin_r (1 / 2) (Rabs v / (2 * k))) as M2. fold e in M1, M2.
    pose proof (Hv e e0 ltac:(lra)) as L. assert (c * e <= k * e) by (apply Rmult_le_compat_r; unfold k; lra). assert (k * e <= k * (Rabs v / (2 * k))) by (apply Rmult_le_compat_l; lra). replace (k * (Rabs v / (2 * k))) with (Rabs v / 2) in * by (field; lra). lra. }
  assert (Inner : forall p, 0 < p -> p < PI -> B * J ((1 - cos p) / 2) = G p - G 0).
  { intros p P0 P1. enough (E : B * J ((1 - cos p) / 2) - (G p - G 0) = 0) by lra. apply (zero _ (Rabs B + 1)). intros e E0 E1. destruct (small (Rmin e p) ltac:(apply Rmin_pos; lra)) as (a & A0 & A1 & A2 & _).
    pose proof (Rmin_l e p) as M1. pose proof (Rmin_r e p) as M2. pose proof (O a p ltac:(lra) ltac:(lra) P1) as Q. pose proof (GL 0 a ltac:(lra) ltac:(lra) ltac:(lra)) as L. pose proof (COS_bound a). pose proof (IR ((1 - cos a) / 2) ltac:(lra)) as R.
    replace (B * J ((1 - cos p) / 2) - (G p - G 0)) with (B * J ((1 - cos a) / 2) + - (G a - G 0)) by lra. apply Rle_trans with (1 := Rabs_triang _ _). rewrite Rabs_mult, Rabs_Ropp, (Rabs_pos_eq (J _)), (Rabs_pos_eq (G a - G 0)) by lra. pose proof (Rabs_pos B). nra. }
  assert (Out : B * J 1 = G PI - G 0).
  { enough (E : B * J 1 - (G PI - G 0) = 0) by lra. apply (zero _ (Rabs B + 1)). intros e E0 E1. destruct (small e E0) as (a & A0 & A1 & _ & A2). pose proof (Inner (PI - a) ltac:(lra) ltac:(lra)) as Q. pose proof (GL (PI - a) PI ltac:(lra) ltac:(lra) ltac:(lra)) as L.
    pose proof (COS_bound (PI - a)). pose proof (IR ((1 - cos (PI - a)) / 2) ltac:(lra)) as R. unfold J in I1 |- *. rewrite I1. fold J.
    replace (B * 1 - (G PI - G 0)) with (B * (1 - J ((1 - cos (PI - a)) / 2)) + - (G PI - G (PI - a))) by lra. apply Rle_trans with (1 := Rabs_triang _ _). rewrite Rabs_mult, Rabs_Ropp, (Rabs_pos_eq (1 - J _)), (Rabs_pos_eq (G PI - G (PI - a))) by lra. pose proof (Rabs_pos B). nra. }
  intros p Hp. apply (integral_val _ _ _ (G p - G 0)); [|apply GI; lra]. destruct (Req_dec p 0) as [->|N0]; [rewrite cos_0; replace ((1 - 1) / 2) with 0 by field; rewrite I0; ring|].
  destruct (Req_dec p PI) as [->|N1]; [rewrite cos_PI; replace ((1 - - 1) / 2) with 1 by field; symmetry; exact Out|]. symmetry. apply Inner; lra.
Qed.
