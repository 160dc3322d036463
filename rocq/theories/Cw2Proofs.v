(** cartwright: the distribution function, the quantile function and the sampler. *)
From Verif Require Import Prelude NpModel NpProofs CircleSpec IntSpec IntProofs DistModel DistSpec DistProofs Dist2Proofs Dist4Proofs Dist7Proofs KjProofs Kj2Proofs JpProofs Desc6Proofs Von3Proofs GaussProofs CwModel CwSpec GamProofs Gam2Proofs CwProofs.

(** A primitive of the kernel over two turns. *)
Definition cw_prim (g : R -> R) (beta : R -> R -> R) (I : R -> R -> R -> R) (zeta : R) (H : R -> R) : Prop :=
  (forall u, - (2 * PI) <= u <= 2 * PI -> derivable_pt_lim H u (cw_C g (1 / zeta) * kc (1 / zeta) u)) /\ H 0 = 0 /\
  (forall u, 0 <= u <= 2 * PI -> H (u - 2 * PI) = H u - 1) /\ (forall u, 0 <= u <= 2 * PI -> H (2 * PI - u) = 1 - H u) /\
  (forall p, 0 <= p <= PI -> H p = 1 / 2 * I (1 / 2) (1 / zeta + 1 / 2) ((1 - cos p) / 2)) /\
  cw_half g beta zeta = 1 / 2 /\ (forall u w, - (2 * PI) <= u -> u <= w -> w <= 2 * PI -> H u <= H w) /\ 0 < cw_C g (1 / zeta).
Lemma ftiny_half : ftiny <= 1 / 2.
Proof. unfold ftiny. replace (1 / 2) with (/ 2 ^ 1) by (simpl; field). apply Rinv_le_contravar; [apply pow_lt; lra|apply Rle_pow; [lra|lia]]. Qed.
Lemma cw_prim_exists g beta I zeta : is_gamma g -> is_betainc beta I -> 0 < zeta -> exists H, cw_prim g beta I zeta H.
Proof.
  intros Hg HB Hz. pose proof (inv_pos zeta Hz) as Hs. destruct (cw_pdf_kernel g 0 zeta Hg Hz) as (v & v0 & Iv & EC & _). pose proof PI_gt3 as P. unfold cw_prim. set (s := 1 / zeta) in *. set (c := cw_C g s) in *.
  assert (c0 : 0 < c) by (rewrite EC; apply inv_pos, v0). assert (cv : c * v = 1) by (rewrite EC; field; lra).
  set (f := fun u => c * kc s u). assert (Cf : forall x, continuity_pt f x) by (intros x; apply cont_mult; [apply cont_const|apply kc_cont, Hs]).
  assert (T : forall x (z : Z), f (x + 2 * PI * IZR z) = f x) by (intros x z; unfold f; rewrite kc_turns; reflexivity).
  assert (N : forall x, 0 <= f x) by (intros x; apply Rmult_le_pos; [lra|apply npow_nonneg]).
  destruct (primitive_exists f (- (2 * PI)) (2 * PI) ltac:(lra) (fun x _ => Cf x)) as [Q HQ].
  assert (IQ : forall a b, - (2 * PI) <= a -> a <= b -> b <= 2 * PI -> integral f a b (Q b - Q a)) by (intros a b A1 A2 A3; apply ftc; [exact A2|intros; apply Cf|intros; apply HQ; lra]).
  assert (I1 : integral f 0 (2 * PI) 1) by (apply (integral_val _ _ _ (c * v)); [exact cv|apply integral_scal; [lra|exact Iv]]).
  assert (Tu : forall u, 0 <= u <= 2 * PI -> Q u - Q (u - 2 * PI) = 1).
  { intros u Hu. pose proof (int_turn f (u - 2 * PI) 1 Cf T I1) as J. replace (u - 2 * PI + 2 * PI) with u in J by ring. exact (integral_unique _ _ _ _ _ (IQ (u - 2 * PI) u ltac:(lra) ltac:(lra) ltac:(lra)) J). }
  assert (Sy : forall u, 0 <= u <= 2 * PI -> Q (2 * PI) - Q (2 * PI - u) = Q u - Q 0).
  { intros u Hu. pose proof (IQ 0 u ltac:(lra) ltac:(lra) ltac:(lra)) as J. assert (J2 : integral f 0 u (- Q (2 * PI - u) - - Q (2 * PI - 0))).
    { apply (ftc f (fun x => - Q (2 * PI - x))); [lra|intros; apply Cf|]. intros x Hx. replace (f x) with (- (f (2 * PI - x) * (0 - 1))).
      - apply (dlim_opp (fun x => Q (2 * PI - x))). apply (dlim_comp Q (fun x => 2 * PI - x)); [apply (dlim_minus (fun _ => 2 * PI) (fun x => x)); [apply dlim_const|apply dlim_id]|apply HQ; lra].
      - replace (f (2 * PI - x)) with (f x); [ring|]. unfold f, kc. replace (cos (2 * PI - x)) with (cos x); [reflexivity|]. rewrite cos_minus, cos_2PI, sin_2PI. ring. }
    rewrite Rminus_0_r in J2. pose proof (integral_unique _ _ _ _ _ J J2). lra. }
  pose proof (integral_unique _ _ _ _ _ (IQ 0 (2 * PI) ltac:(lra) ltac:(lra) ltac:(lra)) I1) as Q1.
  assert (Qpi : Q PI - Q 0 = 1 / 2) by (pose proof (Sy PI ltac:(lra)) as S; replace (2 * PI - PI) with PI in S by ring; lra).
  destruct (HB (s + 1 / 2) ltac:(lra)) as (B0 & B1 & _ & _ & _).
  assert (Bt : forall p, 0 <= p <= PI -> Q p - Q 0 = c * Rpower 2 s * beta (1 / 2) (s + 1 / 2) * I (1 / 2) (s + 1 / 2) ((1 - cos p) / 2)).
  { intros p Hp. pose proof (beta_angle beta I s HB Hs p Hp) as J. assert (R0 : 0 < Rpower 2 s) by apply exp_pos. assert (J2 : integral f 0 p (c * Rpower 2 s * (beta (1 / 2) (s + 1 / 2) * I (1 / 2) (s + 1 / 2) ((1 - cos p) / 2)))).
    { apply (integral_ext (fun u => c * Rpower 2 s * kn s u)); [lra|intros u _; unfold f, kn; rewrite kc_scale; ring|]. apply integral_scal; [lra|exact J]. }
    rewrite (integral_unique _ _ _ _ _ (IQ 0 p ltac:(lra) ltac:(lra) ltac:(lra)) J2). ring. }
  assert (Hb : c * Rpower 2 s * beta (1 / 2) (s + 1 / 2) = 1 / 2).
  { pose proof (Bt PI ltac:(lra)) as E. rewrite cos_PI in E. replace ((1 - - 1) / 2) with 1 in E by field. rewrite B1 in E. lra. }
  exists (fun u => Q u - Q 0). repeat split.
  - intros u Hu. eapply dlim_eq; [|apply (dlim_minus Q (fun _ => Q 0)); [apply HQ; exact Hu|apply dlim_const]]. unfold f. ring.
  - ring.
  - intros u Hu. pose proof (Tu u Hu). lra.
  - intros u Hu. pose proof (Sy u Hu). lra.
  - intros p Hp. rewrite (Bt p Hp), Hb. reflexivity.
  - unfold cw_half. fold s. change (Rpower 2 (-1 + s) * g (1 + s) ^ 2 / (PI * g (1 + 2 / zeta))) with (Rpower 2 (-1 + s) * g (1 + s) ^ 2 / (PI * g (1 + 2 / zeta))). replace (2 / zeta) with (2 * s) by (unfold s, Rdiv; ring). fold (cw_C g s). fold c. rewrite Hb. apply Rmax_left, ftiny_half.
  - intros u w U1 U2 U3. pose proof (IQ u w U1 U2 U3) as J. assert (0 <= Q w - Q u); [|lra]. replace 0 with (0 * (w - u)) by ring. apply (integral_le (fun _ => 0) f u w _ _ U2); [intros; apply N|apply integral_const|exact J].
  - exact c0.
Qed.
Lemma sin_sq_clip p : clip (sin (1 / 2 * p) ^ 2) 0 1 = (1 - cos p) / 2.
Proof. rewrite half_sq. apply clip_in. pose proof (COS_bound p). lra. Qed.
Lemma cw_cum_prim g beta I zeta H p : cw_prim g beta I zeta H -> 0 <= p <= 2 * PI -> cw_cum I (1 / 2) (1 / zeta + 1 / 2) (cw_half g beta zeta) p = H p.
Proof.
  intros (_ & _ & _ & Sy & Bt & -> & _) Hp. unfold cw_cum. destruct (Rleb_spec p PI) as [L|L]; rewrite sin_sq_clip.
  - symmetry. apply Bt. lra.
  - rewrite <- Bt by lra. rewrite Sy by lra. ring.
Qed.
Lemma cw_prim_mod g beta I zeta H y : cw_prim g beta I zeta H -> - (2 * PI) <= y < 2 * PI -> 0 <= pymod y (2 * PI) < 2 * PI /\ (0 <= y /\ pymod y (2 * PI) = y \/ y < 0 /\ pymod y (2 * PI) = y + 2 * PI /\ H (pymod y (2 * PI)) = H y + 1).
Proof.
  intros (_ & _ & Tu & _) Hy. pose proof PI_RGT_0 as P. split; [apply pymod_range; lra|]. destruct (Rle_dec 0 y) as [L|L]; [left; split; [exact L|apply pymod_small; lra]|right]. assert (E : pymod y (2 * PI) = y + 2 * PI) by (apply pymod_unique; [lra|exists (-1)%Z; simpl; lra]).
  split; [lra|]. split; [exact E|]. rewrite E. pose proof (Tu (y + 2 * PI) ltac:(lra)) as T. replace (y + 2 * PI - 2 * PI) with y in T by ring. lra.
Qed.
Definition cw_F (H : R -> R) (mu x : R) : R := H (x - mu) - H (- mu).
Lemma cw_F_cdf g beta I mu zeta H : cw_prim g beta I zeta H -> cw_ok mu zeta = true -> is_cdf (cw_F H mu) (cw_pdf g mu zeta).
Proof.
  intros PH Hok. apply cw_ok_spec in Hok. destruct Hok as [Hm Hz]. pose proof (inv_pos zeta Hz) as Hs. destruct PH as (D & _ & Tu & _ & _ & _ & Mo & c0). pose proof PI_RGT_0 as P.
  assert (DF : forall x, 0 <= x <= 2 * PI -> derivable_pt_lim (cw_F H mu) x (cw_pdf g mu zeta x)).
  { intros x Hx. unfold cw_F. eapply dlim_eq; [|apply (dlim_minus (fun x => H (x - mu)) (fun _ => H (- mu))); [apply (dlim_comp H (fun x => x - mu)); [apply (dlim_minus (fun x => x) (fun _ => mu)); [apply dlim_id|apply dlim_const]|apply D; lra]|apply dlim_const]]. rewrite cw_pdf_C. ring. }
  unfold is_cdf. repeat split.
  - unfold cw_F. replace (0 - mu) with (- mu) by ring. ring.
  - unfold cw_F. pose proof (Tu (2 * PI - mu) ltac:(lra)) as T. replace (2 * PI - mu - 2 * PI) with (- mu) in T by ring. lra.
  - unfold cw_F. pose proof (Mo (a - mu) (b - mu) ltac:(lra) ltac:(lra) ltac:(lra)). lra.
  - apply ftc; [assumption| |intros; apply DF; lra]. intros x _. apply (cont_ext (fun x => cw_C g (1 / zeta) * kc (1 / zeta) (x - mu))); [intros; symmetry; apply cw_pdf_C|]. apply cont_mult; [apply cont_const|]. apply (cont_comp (kc (1 / zeta)) (fun x => x - mu)); [|apply kc_cont, Hs].
    apply derivable_continuous_pt. exists (1 - 0). apply (dlim_minus (fun x => x) (fun _ => mu)); [apply dlim_id|apply dlim_const].
  - intros x Hx. apply DF. lra.
Qed.
Lemma cw_F_range F f x : is_cdf F f -> 0 <= x <= 2 * PI -> 0 <= F x <= 1.
Proof. intros (F0 & F1 & Fi & _) Hx. pose proof (proj1 (Fi 0 x ltac:(lra) ltac:(lra) ltac:(lra))). pose proof (proj1 (Fi x (2 * PI) ltac:(lra) ltac:(lra) ltac:(lra))). lra. Qed.
Lemma cw_cdf_exact g beta I mu zeta H x : cw_prim g beta I zeta H -> cw_ok mu zeta = true -> 0 <= x < 2 * PI -> close_2pi x = false -> cw_cdf g beta I mu zeta x = cw_F H mu x.
Proof.
  intros PH Hok Hx Hc. pose proof (cw_F_cdf g beta I mu zeta H PH Hok) as CF. pose proof (cw_F_range _ _ x CF ltac:(lra)) as Fr. apply cw_ok_spec in Hok. destruct Hok as [Hm Hz]. pose proof PI_RGT_0 as P.
  unfold cw_cdf. cbv zeta. rewrite wrap_in by lra. rewrite Hc. destruct (cw_prim_mod g beta I zeta H (- mu) PH ltac:(lra)) as [R1 C1]. destruct (cw_prim_mod g beta I zeta H (x - mu) PH ltac:(lra)) as [R2 C2].
  rewrite !(cw_cum_prim g beta I zeta H _ PH) by lra. set (p := pymod (- mu) (2 * PI)) in *. set (q := pymod (x - mu) (2 * PI)) in *. unfold cw_F in *.
  assert (V : (if Rleb p q then clip (H q - H p) 0 1 else 1 - clip (H p - H q) 0 1) = H (x - mu) - H (- mu)).
  { destruct (Rleb_spec p q) as [L|L].
    - assert (E : H q - H p = H (x - mu) - H (- mu)) by (destruct C1 as [[A ->]|(A & A1 & ->)]; destruct C2 as [[B ->]|(B & B1 & ->)]; lra). rewrite E. apply clip_in. exact Fr.
    - assert (E : H p - H q = 1 - (H (x - mu) - H (- mu))) by (destruct C1 as [[A A1]|(A & A1 & ->)]; destruct C2 as [[B B1]|(B & B1 & ->)]; try lra; rewrite ?A1, ?B1; lra). rewrite E, clip_in by lra. ring. }
  rewrite V. destruct (Rltb_spec (H (x - mu) - H (- mu)) 0) as [L|L]; [lra|]. apply clip_in. exact Fr.
Qed.
Lemma close_2pi_far x : 0 <= x <= 2 * PI - 9 / 100000 -> close_2pi x = false.
Proof.
  intros Hx. destruct (close_2pi x) eqn:E; [exfalso|reflexivity]. pose proof PI_gt3. pose proof PI_4. apply close_2pi_spec in E; [|lra]. lra.
Qed.
Lemma cw_cdf_law g beta I mu zeta : is_gamma g -> is_betainc beta I -> cw_ok mu zeta = true ->
  exists f F, (forall x, public_pdf (cw_ok mu zeta) (cw_pdf g mu zeta) x = Fin (f x)) /\ is_cdf F f /\
    forall x, 0 <= x <= 2 * PI - 9 / 100000 -> public_cdf (cw_ok mu zeta) (cw_cdf g beta I mu zeta) x = Fin (F x).
Proof.
  intros Hg HB Hok. pose proof (proj1 (cw_ok_spec _ _) Hok) as [Hm Hz]. destruct (cw_prim_exists g beta I zeta Hg HB Hz) as [H PH]. exists (cw_pdf g mu zeta), (cw_F H mu). pose proof (cw_F_cdf g beta I mu zeta H PH Hok) as CF. split; [intros x; apply cw_public, Hok|]. split; [exact CF|].
  intros x Hx. rewrite Hok, public_cdf_fin. f_equal. unfold pub_F. rewrite wrap_in by lra. destruct (Rleb_spec (2 * PI) x) as [L|L]; [lra|]. destruct (Rltb_spec 0 x) as [L2|L2].
  - apply cw_cdf_exact; [exact PH|exact Hok|lra|apply close_2pi_far, Hx].
  - replace x with 0 by lra. symmetry. apply CF.
Qed.
Lemma cw_cdf_window g beta I mu zeta x : 0 <= x < 2 * PI -> 2 * PI - x <= 6 / 100000 -> cw_cdf g beta I mu zeta x = 1.
Proof.
  intros Hx H. unfold cw_cdf. cbv zeta. rewrite wrap_in by lra. assert (C : close_2pi x = true) by (apply close_2pi_spec; [lra|]; pose proof PI_gt3; lra). rewrite C. reflexivity.
Qed.
Lemma kc_pos s u : cos u <> - 1 -> 0 < kc s u.
Proof. intros H. pose proof (COS_bound u). unfold kc. rewrite npow_pos by (destruct (Req_dec (cos u) (- 1)); [contradiction|lra]). apply exp_pos. Qed.
Lemma cw_not_describes g beta I mu zeta : is_gamma g -> cw_ok mu zeta = true -> ~ describes (public_pdf (cw_ok mu zeta) (cw_pdf g mu zeta)) (public_cdf (cw_ok mu zeta) (cw_cdf g beta I mu zeta)).
Proof.
  intros Hg Hok (f & F & Ef & EF & _ & _ & _ & F1 & Fi & FD). pose proof (proj1 (cw_ok_spec _ _) Hok) as [Hm Hz]. pose proof PI_gt3 as P.
  assert (W : forall x, 2 * PI - 6 / 100000 <= x < 2 * PI -> F x = 1).
  { intros x Hx. specialize (EF x). rewrite Hok, public_cdf_fin in EF. injection EF as <-. unfold pub_F. rewrite wrap_in by lra. destruct (Rleb_spec (2 * PI) x); [reflexivity|]. destruct (Rltb_spec 0 x); [|lra]. apply cw_cdf_window; lra. }
  assert (Z : forall x, 2 * PI - 5 / 100000 <= x <= 2 * PI - 1 / 100000 -> f x = 0).
  { intros x Hx. pose proof (FD x ltac:(lra)) as D. assert (D2 : derivable_pt_lim F x 0).
    { apply (dlim_ext_loc (fun _ => 1) F x 0 (2 * PI - 6 / 100000) (2 * PI)); [lra|intros y Hy; symmetry; apply W; lra|apply dlim_const]. }
    exact (uniqueness_limite _ _ _ _ D D2). }
  destruct (cw_pdf_kernel g mu zeta Hg Hz) as (v & v0 & _ & _ & E). assert (c0 : 0 < 1 / v) by (apply inv_pos, v0).
  assert (K : forall x, 2 * PI - 5 / 100000 <= x <= 2 * PI - 1 / 100000 -> cos (x - mu) = - 1).
  { intros x Hx. pose proof (Z x Hx) as Z1. specialize (Ef x). rewrite (cw_public g mu zeta x Hok) in Ef. injection Ef as Ef. rewrite <- Ef, E in Z1. destruct (Req_dec (cos (x - mu)) (- 1)) as [C|C]; [exact C|]. pose proof (kc_pos (1 / zeta) (x - mu) C). nra. }
  pose proof (K (2 * PI - 3 / 100000) ltac:(lra)) as K1. pose proof (K (2 * PI - 2 / 100000) ltac:(lra)) as K2.
  assert (S : sin (2 * PI - 3 / 100000 - mu) = 0) by (pose proof (sin2_cos2 (2 * PI - 3 / 100000 - mu)) as S; unfold Rsqr in S; rewrite K1 in S; nra).
  replace (2 * PI - 2 / 100000 - mu) with (2 * PI - 3 / 100000 - mu + 1 / 100000) in K2 by field. rewrite cos_plus, K1, S in K2. pose proof (cos_decreasing_1 0 (1 / 100000) ltac:(lra) ltac:(lra) ltac:(lra) ltac:(lra) ltac:(lra)) as C. rewrite cos_0 in C. lra.
Qed.
(** ** The quantile function *)
Lemma cw_prim_turns g beta I zeta H n : cw_prim g beta I zeta H -> forall u, - (2 * PI) <= u -> u + 2 * PI * INR n <= 2 * PI -> H (u + 2 * PI * INR n) = H u + INR n.
Proof.
  intros PH. pose proof PI_RGT_0 as P. induction n as [|n IH]; intros u H1 H2; [simpl; rewrite Rmult_0_r, !Rplus_0_r; reflexivity|]. pose proof (pos_INR n) as Pn. rewrite S_INR in *. destruct PH as (_ & _ & Tu & _). assert (0 <= 2 * PI * INR n) by nra.
  pose proof (Tu (u + 2 * PI * (INR n + 1)) ltac:(lra)) as T. replace (u + 2 * PI * (INR n + 1) - 2 * PI) with (u + 2 * PI * INR n) in T by ring. rewrite IH in T by lra. lra.
Qed.
Lemma cw_prim_z g beta I zeta H u w (z : Z) : cw_prim g beta I zeta H -> - (2 * PI) <= u <= 2 * PI -> - (2 * PI) <= w <= 2 * PI -> w = u + 2 * PI * IZR z -> H w = H u + IZR z.
Proof.
  intros PH Hu Hw E. destruct (Z_le_dec 0 z) as [L|L].
  - assert (N : IZR z = INR (Z.to_nat z)) by (rewrite INR_IZR_INZ, Z2Nat.id by exact L; reflexivity). rewrite N in *. rewrite E. apply (cw_prim_turns g beta I zeta H _ PH); lra.
  - assert (N : IZR z = - INR (Z.to_nat (- z))) by (rewrite INR_IZR_INZ, Z2Nat.id, opp_IZR by lia; ring). rewrite N in *. assert (E2 : u = w + 2 * PI * INR (Z.to_nat (- z))) by lra. pose proof (cw_prim_turns g beta I zeta H (Z.to_nat (- z)) PH w ltac:(lra) ltac:(lra)) as T. rewrite <- E2 in T. lra.
Qed.
Lemma asin_half t : 0 <= t <= 1 -> 0 <= 2 * asin (sqrt t) <= PI /\ (1 - cos (2 * asin (sqrt t))) / 2 = t.
Proof.
  intros Ht. pose proof PI_RGT_0 as P. assert (S0 := sqrt_pos t). assert (S1 : sqrt t <= 1) by (rewrite <- sqrt_1; apply sqrt_le_1; lra). pose proof (asin_bound (sqrt t)) as B. split.
  - split; [|lra]. destruct (Rle_dec 0 (asin (sqrt t))) as [L|L]; [lra|]. exfalso. pose proof (sin_lt_0_var (asin (sqrt t)) ltac:(lra) ltac:(lra)) as N. rewrite sin_asin in N by lra. lra.
  - rewrite <- half_sq. replace (1 / 2 * (2 * asin (sqrt t))) with (asin (sqrt t)) by field. rewrite sin_asin by lra. rewrite <- Rsqr_pow2, Rsqr_sqrt by lra. reflexivity.
Qed.
Lemma cw_ppf_law g beta I J mu zeta q : is_gamma g -> is_betainc beta I -> is_betaincinv I J -> cw_ok mu zeta = true -> / 10 ^ 12 < q < 1 - / 10 ^ 12 ->
  exists x, public_ppf (cw_ok mu zeta) (cw_ppf g beta I J mu zeta) q = Fin x /\ 0 <= x < 2 * PI /\ integral (cw_pdf g mu zeta) 0 x q.
Proof.
  intros Hg HB HJ Hok Hq. pose proof (proj1 (cw_ok_spec _ _) Hok) as [Hm Hz]. pose proof (inv_pos zeta Hz) as Hs. destruct (cw_prim_exists g beta I zeta Hg HB Hz) as [H PH]. pose proof (cw_F_cdf g beta I mu zeta H PH Hok) as CF. pose proof PI_RGT_0 as P.
  assert (e0 : 0 < / 10 ^ 12) by (apply Rinv_0_lt_compat, pow_lt; lra). unfold public_ppf. rewrite Hok. cbn [negb]. rewrite (proj2 (Rltb_true 0 q) ltac:(lra)), (proj2 (Rltb_true q 1) ltac:(lra)). cbn [andb]. eexists. split; [reflexivity|].
  unfold cw_ppf. cbv zeta. set (m := pymod mu (2 * PI)). assert (Rm : 0 <= m < 2 * PI) by (apply pymod_range; lra). destruct (pymod_cong mu (2 * PI)) as [k Ek]. fold m in Ek.
  destruct (cw_prim_mod g beta I zeta H (- m) PH ltac:(lra)) as [R1 C1]. rewrite (cw_cum_prim g beta I zeta H _ PH) by lra. set (p := pymod (- m) (2 * PI)) in *.
  assert (Eh : cw_half g beta zeta = 1 / 2) by apply PH. rewrite Eh. set (s := pymod (H p + q) 1). assert (Rs : 0 <= s < 1) by (apply pymod_range; lra). destruct (pymod_cong (H p + q) 1) as [j Ej]. fold s in Ej.
  assert (T1 : isclose_tol 0 (/ 10 ^ 12) q 1 = false).
  { unfold isclose_tol. apply Rleb_false. rewrite (Rabs_left (q - 1)) by lra. rewrite Rmult_0_l. lra. }
  assert (T2 : isclose_tol 0 (/ 10 ^ 12) q 0 = false).
  { unfold isclose_tol. apply Rleb_false. rewrite Rminus_0_r, (Rabs_pos_eq q) by lra. rewrite Rmult_0_l. lra. }
  rewrite T1, T2. set (b := 1 / zeta + 1 / 2) in *.
  assert (Ph : exists phi, (if Rleb s (1 / 2) then 2 * asin (sqrt (clip (J (1 / 2) b (clip (s / (1 / 2)) 0 1)) 0 1)) else 2 * PI - 2 * asin (sqrt (clip (J (1 / 2) b (clip ((1 - s) / (1 / 2)) 0 1)) 0 1))) = phi /\ 0 <= phi <= 2 * PI /\ H phi = s).
  { destruct PH as (_ & _ & _ & Sy & Bt & _). fold b in Bt. destruct (Rleb_spec s (1 / 2)) as [L|L].
    - rewrite (clip_in (s / (1 / 2))) by lra. destruct (HJ b (s / (1 / 2)) ltac:(unfold b; lra) ltac:(lra)) as [J1 J2]. rewrite clip_in by exact J1. destruct (asin_half _ J1) as [A1 A2]. eexists. split; [reflexivity|]. split; [lra|]. rewrite Bt by exact A1. rewrite A2, J2. field.
    - rewrite (clip_in ((1 - s) / (1 / 2))) by lra. destruct (HJ b ((1 - s) / (1 / 2)) ltac:(unfold b; lra) ltac:(lra)) as [J1 J2]. rewrite clip_in by exact J1. destruct (asin_half _ J1) as [A1 A2]. eexists. split; [reflexivity|]. split; [lra|]. rewrite Sy by lra. rewrite Bt by exact A1. rewrite A2, J2. field. }
  destruct Ph as (phi & -> & Rp & Hp). set (x := pymod (m + phi) (2 * PI)). assert (Rx : 0 <= x < 2 * PI) by (apply pymod_range; lra). split; [exact Rx|]. destruct (pymod_cong (m + phi) (2 * PI)) as [i Ei]. fold x in Ei.
  assert (E1 : H (x - mu) = H phi + IZR (- k - i)) by (apply (cw_prim_z g beta I zeta H phi (x - mu) _ PH); [lra|lra|]; rewrite minus_IZR, opp_IZR; lra).
  destruct (pymod_cong (- m) (2 * PI)) as [l El]. fold p in El.
  assert (E2 : H (- mu) = H p + IZR (l - k)) by (apply (cw_prim_z g beta I zeta H p (- mu) _ PH); [lra|lra|]; rewrite minus_IZR; lra).
  assert (E3 : cw_F H mu x = q + IZR (- k - i - (l - k) - j)) by (unfold cw_F; rewrite E1, E2, Hp; rewrite (minus_IZR (- k - i - (l - k)) j), (minus_IZR (- k - i) (l - k)); lra).
  pose proof (cw_F_range _ _ x CF ltac:(lra)) as Fr. set (z := (- k - i - (l - k) - j)%Z) in *. assert (z0 : z = 0%Z) by (assert (-1 < IZR z < 1) as [Z1 Z2] by lra; apply lt_IZR in Z1; apply lt_IZR in Z2; lia). rewrite z0 in E3.
  destruct CF as (F0 & _ & Fi & _). pose proof (proj2 (Fi 0 x ltac:(lra) ltac:(lra) ltac:(lra))) as Q. apply (integral_val _ _ _ (cw_F H mu x - cw_F H mu 0)); [lra|exact Q].
Qed.
(** ** The sampler *)
Lemma cw_rvs_law g beta I mu zeta t u : is_gamma g -> is_betainc beta I -> 0 < zeta -> 0 <= t <= 1 ->
  exists d th, cw_rvs mu zeta t u = Ok th /\ 0 <= th < 2 * PI /\ same_dir th (mu + d) /\ (u < 1 / 2 -> - PI <= d <= 0) /\ (1 / 2 <= u -> 0 <= d <= PI) /\
    forall p, 0 <= p <= PI ->
      (Rabs d <= p <-> t <= sin (p / 2) ^ 2) /\
      integral (cw_pdf g mu zeta) mu (mu + p) (1 / 2 * I (1 / 2) (1 / zeta + 1 / 2) (sin (p / 2) ^ 2)) /\
      integral (cw_pdf g mu zeta) (mu - p) mu (1 / 2 * I (1 / 2) (1 / zeta + 1 / 2) (sin (p / 2) ^ 2)).
Proof.
  intros Hg HB Hz Ht. pose proof (inv_pos zeta Hz) as Hs. destruct (cw_prim_exists g beta I zeta Hg HB Hz) as [H PH]. pose proof PI_RGT_0 as P. destruct (asin_half t Ht) as [A1 A2]. set (a := 2 * asin (sqrt t)) in *.
  exists ((if Rltb u (1 / 2) then - 1 else 1) * a). unfold cw_rvs. rewrite (proj2 (Rleb_false zeta 0) Hz). cbv zeta. rewrite clip_in by (split; [apply sqrt_pos|rewrite <- sqrt_1; apply sqrt_le_1; lra]). fold a. eexists. split; [reflexivity|]. split; [apply pymod_range; lra|]. split.
  { destruct (pymod_cong mu (2 * PI)) as [k Ek]. destruct (pymod_cong (pymod mu (2 * PI) + (if Rltb u (1 / 2) then -1 else 1) * a) (2 * PI)) as [i Ei]. exists (- k - i)%Z. rewrite minus_IZR, opp_IZR. lra. }
  split; [intros U; rewrite (proj2 (Rltb_true u (1 / 2)) U); lra|]. split; [intros U; rewrite (proj2 (Rltb_false u (1 / 2)) U); lra|]. intros p Hp.
  assert (Eq : sin (p / 2) ^ 2 = (1 - cos p) / 2) by (rewrite <- half_sq; f_equal; f_equal; field). rewrite Eq. split.
  - replace (Rabs ((if Rltb u (1 / 2) then -1 else 1) * a)) with a by (destruct (Rltb u (1 / 2)); [rewrite Rabs_mult, Rabs_left, (Rabs_pos_eq a) by lra; ring|rewrite Rmult_1_l, Rabs_pos_eq by lra; reflexivity]). rewrite <- A2. split; intros L.
    + pose proof (cos_decr_1 a p ltac:(lra) ltac:(lra) ltac:(lra) ltac:(lra) L). lra.
    + destruct (Rle_dec a p) as [K|K]; [exact K|]. pose proof (cos_decreasing_1 p a ltac:(lra) ltac:(lra) ltac:(lra) ltac:(lra) ltac:(lra)). lra.
  - destruct PH as (D & H0 & Tu & Sy & Bt & _ & _ & c0). pose proof (Bt p Hp) as B.
    assert (Q : forall lo hi, - (2 * PI) <= lo - mu -> lo <= hi -> hi - mu <= 2 * PI -> integral (cw_pdf g mu zeta) lo hi (H (hi - mu) - H (lo - mu))).
    { intros lo hi L1 L2 L3. apply (ftc (cw_pdf g mu zeta) (fun x => H (x - mu))); [exact L2| |].
      - intros x _. apply (cont_ext (fun x => cw_C g (1 / zeta) * kc (1 / zeta) (x - mu))); [intros; symmetry; apply cw_pdf_C|]. apply cont_mult; [apply cont_const|]. apply (cont_comp (kc (1 / zeta)) (fun x => x - mu)); [|apply kc_cont, Hs].
        apply derivable_continuous_pt. exists (1 - 0). apply (dlim_minus (fun x => x) (fun _ => mu)); [apply dlim_id|apply dlim_const].
      - intros x Hx. rewrite cw_pdf_C. eapply dlim_eq; [|apply (dlim_comp H (fun x => x - mu)); [apply (dlim_minus (fun x => x) (fun _ => mu)); [apply dlim_id|apply dlim_const]|apply D; lra]]. ring. }
    split.
    + apply (integral_val _ _ _ (H (mu + p - mu) - H (mu - mu))); [|apply Q; lra]. replace (mu + p - mu) with p by ring. replace (mu - mu) with 0 by ring. lra.
    + apply (integral_val _ _ _ (H (mu - mu) - H (mu - p - mu))); [|apply Q; lra]. replace (mu - mu) with 0 by ring. replace (mu - p - mu) with (2 * PI - p - 2 * PI) by ring. rewrite Tu by lra. rewrite Sy by lra. lra.
Qed.
