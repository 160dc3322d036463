(** The densities of the Jones-Pewsey family. *)
From Verif Require Import Prelude NpModel NpProofs CircleSpec IntSpec IntProofs DistModel DistSpec DistProofs Dist2Proofs Dist4Proofs Dist5Proofs
  Dist6Proofs Dist7Proofs Dist8Proofs KjProofs Kj2Proofs VonModel VonSpec VonProofs Von2Proofs Von3Proofs Von4Proofs Von6Proofs GaussProofs Ws3Proofs JpModel JpSpec.

(** ** Hyperbolic functions *)
Lemma cosh_sinh_p A : cosh A + sinh A = exp A.
Proof. unfold cosh, sinh. field. Qed.
Lemma cosh_sinh_m A : cosh A - sinh A = exp (- A).
Proof. unfold cosh, sinh. field. Qed.
Lemma cosh_sq A : cosh A ^ 2 - sinh A ^ 2 = 1.
Proof.
  replace (cosh A ^ 2 - sinh A ^ 2) with ((cosh A + sinh A) * (cosh A - sinh A)) by ring.
  rewrite cosh_sinh_p, cosh_sinh_m, <- exp_plus. replace (A + - A) with 0 by ring. apply exp_0.
Qed.
Lemma cosh_neg A : cosh (- A) = cosh A. Proof. unfold cosh. rewrite Ropp_involutive. field. Qed.
Lemma sinh_neg A : sinh (- A) = - sinh A. Proof. unfold sinh. rewrite Ropp_involutive. field. Qed.
Lemma sinh_nonneg A : 0 <= A -> 0 <= sinh A.
Proof. intros H. unfold sinh. pose proof (expm_le (- A) A ltac:(lra)). lra. Qed.
Lemma cosh_ge1 A : 1 <= cosh A.
Proof.
  unfold cosh. pose proof (exp_pos A). pose proof (exp_Ropp A) as E. pose proof (exp_pos (- A)). assert (exp A * exp (- A) = 1) by (rewrite E; field; lra). pose proof (pow2_ge_0 (exp A - exp (- A))). nra.
Qed.

(** ** The kernel *)
Definition jp_base (A phi : R) : R := cosh A + sinh A * cos phi.
Lemma jp_base_lo A phi : exp (- Rabs A) <= jp_base A phi.
Proof.
  unfold jp_base. pose proof (COS_bound phi) as [C1 C2]. destruct (Rle_lt_dec 0 A) as [H|H].
  - rewrite Rabs_pos_eq, <- cosh_sinh_m by exact H. pose proof (sinh_nonneg A H). nra.
  - rewrite Rabs_left by exact H. rewrite Ropp_involutive, <- cosh_sinh_p. pose proof (sinh_nonneg (- A) ltac:(lra)) as S. rewrite sinh_neg in S. nra.
Qed.
Lemma ftiny_pos : 0 < ftiny.
Proof. unfold ftiny. apply Rinv_0_lt_compat, pow_lt. lra. Qed.
Lemma ftiny_exp : ftiny <= exp (- 500).
Proof.
  replace (- 500) with (- (500)) by lra. unfold ftiny. rewrite exp_Ropp. apply Rinv_le_contravar; [apply exp_pos|]. pose proof Ws2Proofs.ln2_range as L2.
  rewrite <- (exp_ln (2 ^ 1022)) by (apply pow_lt; lra). apply expm_le. rewrite ln_pow by lra. replace (INR 1022) with 1022; [lra|]. rewrite INR_IZR_INZ. f_equal. 
Qed.
Lemma jp_kernel_pos kappa psi phi : 0 < jp_kernel kappa psi phi.
Proof. unfold jp_kernel. destruct (Rltb _ _); apply exp_pos. Qed.
Lemma jp_kernel_cosx kappa psi x y : cos x = cos y -> jp_kernel kappa psi x = jp_kernel kappa psi y.
Proof. intros E. unfold jp_kernel. rewrite E. reflexivity. Qed.
Lemma jp_kernel_turns kappa psi x (z : Z) : jp_kernel kappa psi (x + 2 * PI * IZR z) = jp_kernel kappa psi x.
Proof. apply jp_kernel_cosx. apply cos_turns. Qed.
Lemma jp_kernel_even kappa psi x : jp_kernel kappa psi (- x) = jp_kernel kappa psi x.
Proof. apply jp_kernel_cosx. apply cos_neg. Qed.
Lemma cont_max_const f c x : continuity_pt f x -> continuity_pt (fun t => Rmax (f t) c) x.
Proof.
  intros C. apply (cont_ext (fun t => (f t + c + Rabs (f t - c)) / 2)).
  - intros t. unfold Rmax. destruct (Rle_dec (f t) c); [rewrite Rabs_left1 by lra|rewrite Rabs_pos_eq by lra]; field.
  - unfold Rdiv. apply cont_mult; [|apply cont_const]. apply cont_plus; [apply cont_plus; [exact C|apply cont_const]|].
    apply cont_abs. apply (cont_plus f (fun _ => - c)); [exact C|apply cont_const].
Qed.
Lemma cont_comp f g x : continuity_pt g x -> continuity_pt f (g x) -> continuity_pt (fun t => f (g t)) x.
Proof. intros G F. apply (continuity_pt_comp g f); assumption. Qed.
Lemma exp_cont x : continuity_pt exp x.
Proof. apply derivable_continuous_pt, derivable_pt_exp. Qed.
Lemma ln_cont x : 0 < x -> continuity_pt ln x.
Proof. intros H. eapply dlim_cont. apply derivable_pt_lim_ln. exact H. Qed.
Lemma cos_cont x : continuity_pt cos x. Proof. apply continuity_cos. Qed.
Lemma jp_kernel_cont kappa psi x : continuity_pt (jp_kernel kappa psi) x.
Proof.
  unfold jp_kernel. destruct (Rltb (Rabs psi) jp_ptol).
  - apply (cont_comp exp (fun t => kappa * cos t)); [apply cont_mult; [apply cont_const|apply cos_cont]|apply exp_cont].
  - cbv zeta. unfold Rpower. apply (cont_comp exp (fun t => 1 / psi * ln (Rmax (cosh (kappa * psi) + sinh (kappa * psi) * cos t) ftiny))); [|apply exp_cont].
    apply cont_mult; [apply cont_const|]. apply (cont_comp ln (fun t => Rmax (cosh (kappa * psi) + sinh (kappa * psi) * cos t) ftiny)).
    + apply (cont_max_const (fun t => cosh (kappa * psi) + sinh (kappa * psi) * cos t)). apply cont_plus; [apply cont_const|apply cont_mult; [apply cont_const|apply cos_cont]].
    + apply ln_cont. pose proof ftiny_pos. pose proof (Rmax_r (cosh (kappa * psi) + sinh (kappa * psi) * cos x) ftiny). lra.
Qed.
Lemma jp_kernel_big kappa psi phi : jp_ptol <= Rabs psi -> Rabs (kappa * psi) <= 500 ->
  jp_kernel kappa psi phi = Rpower (jp_base (kappa * psi) phi) (1 / psi).
Proof.
  intros Hp HA. unfold jp_kernel. rewrite (proj2 (Rltb_false _ _)) by lra. cbv zeta. f_equal. fold (jp_base (kappa * psi) phi). apply Rmax_left.
  pose proof (jp_base_lo (kappa * psi) phi). pose proof ftiny_exp. pose proof (expm_le (- 500) (- Rabs (kappa * psi)) ltac:(lra)). lra.
Qed.

(** ** Normalisation *)
Lemma positive_mass f v : (forall x, continuity_pt f x) -> (forall x, 0 < f x) -> integral f 0 (2 * PI) v -> 0 < v.
Proof.
  intros C Pf Hv. pose proof PI_gt3. destruct (continuous_integral f 0 (2 * PI)) as [w W]; [lra|intros; apply C|].
  assert (0 <= v). { apply (integral_le (fun _ => 0) f 0 (2 * PI) (0 * (2 * PI - 0)) v) ; [lra|intros x _; left; apply Pf|apply integral_const|exact Hv] || idtac. 
    pose proof (integral_le (fun _ => 0) f 0 (2 * PI) (0 * (2 * PI - 0)) v ltac:(lra) (fun x _ => Rlt_le _ _ (Pf x)) (integral_const 0 (2 * PI) 0) Hv). lra. }
  destruct (Req_dec v 0) as [E|N]; [|lra]. subst v.
  pose proof (zero_integral f 0 (2 * PI) ltac:(lra) (fun x _ => C x) (fun x _ => Rlt_le _ _ (Pf x)) Hv PI ltac:(lra)) as Z. pose proof (Pf PI). lra.
Qed.
(** A positive periodic kernel divided by its mass and centred anywhere is a density. *)
Lemma kernel_density ok (k f : R -> R) (M : R) mu : ok = true -> 0 <= mu <= 2 * PI -> (forall x, continuity_pt k x) -> (forall x, 0 <= k x) ->
  (forall x (z : Z), k (x + 2 * PI * IZR z) = k x) -> integral k 0 (2 * PI) M -> 0 < M ->
  (forall x, f x = 1 / M * k (x - mu)) -> pdf_is_density (public_pdf ok f).
Proof.
  intros -> Hm C Nn P I M0 Ef. pose proof PI_gt3. apply density_intro.
  - intros x _. apply (cont_ext (fun x => 1 / M * k (x - mu))); [intros; symmetry; apply Ef|]. apply cont_mult; [apply cont_const|]. apply continuity_shift, C.
  - intros x _. rewrite Ef. apply Rmult_le_pos; [|apply Nn]. apply Rlt_le, Rdiv_lt_0_compat; lra.
  - rewrite !Ef. f_equal. rewrite <- (P (0 - mu) 1%Z). f_equal. ring.
  - apply (integral_ext (fun x => 1 / M * k (x - mu))); [lra|intros; symmetry; apply Ef|].
    apply (integral_val _ _ _ (1 / M * M)); [field; lra|]. apply integral_scal; [lra|]. apply integral_shift; [exact Hm|exact C| |exact I].
    intros x. replace (x + 2 * PI) with (x + 2 * PI * IZR 1) by ring. apply P.
Qed.
Lemma quad_mass k mu v : 0 <= mu <= 2 * PI -> (forall x, continuity_pt k x) -> (forall x (z : Z), k (x + 2 * PI * IZR z) = k x) ->
  integral (fun x => k (x - mu)) (- PI) PI v -> integral k 0 (2 * PI) v.
Proof.
  intros Hm C P I. pose proof PI_gt3. destruct (continuous_integral k 0 (2 * PI)) as [w W]; [lra|intros; apply C|].
  pose proof (int_turn (fun x => k (x - mu)) (- PI) w (fun x => continuity_shift k mu x (C _))) as T.
  replace (- PI + 2 * PI) with PI in T by ring. cbv beta in T.
  assert (P1 : forall x (z : Z), k (x + 2 * PI * IZR z - mu) = k (x - mu)).
  { intros x z. replace (x + 2 * PI * IZR z - mu) with (x - mu + 2 * PI * IZR z) by ring. apply P. }
  assert (S1 : integral (fun x => k (x - mu)) 0 (2 * PI) w).
  { apply integral_shift; [exact Hm|exact C| |exact W]. intros x. replace (x + 2 * PI) with (x + 2 * PI * IZR 1) by ring. apply P. }
  rewrite (integral_unique _ _ _ _ _ I (T P1 S1)). exact W.
Qed.
Lemma sqrt_sinh A : sqrt (cosh A ^ 2 - 1) = Rabs (sinh A).
Proof. replace (cosh A ^ 2 - 1) with (Rsqr (sinh A)) by (unfold Rsqr; pose proof (cosh_sq A); nra). apply sqrt_Rsqr_abs. Qed.
Lemma sinh_abs A : Rabs (sinh A) = if Rle_dec 0 A then sinh A else - sinh A.
Proof.
  destruct (Rle_dec 0 A) as [H|H]; [apply Rabs_pos_eq, sinh_nonneg, H|]. apply Rabs_left1. pose proof (sinh_nonneg (- A) ltac:(lra)) as S. rewrite sinh_neg in S. lra.
Qed.
Lemma legendre_mass kappa psi v : jp_ptol <= Rabs psi -> Rabs (kappa * psi) <= 500 ->
  integral (fun t => Rpower (cosh (kappa * psi) + sqrt (cosh (kappa * psi) ^ 2 - 1) * cos t) (1 / psi)) 0 (2 * PI) v ->
  integral (jp_kernel kappa psi) 0 (2 * PI) v.
Proof.
  intros Hp HA I. pose proof PI_gt3. rewrite sqrt_sinh, sinh_abs in I. destruct (Rle_dec 0 (kappa * psi)) as [H0|H0].
  - refine (integral_ext _ _ _ _ _ _ _ I); [lra|]. intros x _. rewrite jp_kernel_big by assumption. reflexivity.
  - assert (S : integral (fun t => jp_kernel kappa psi (t - PI)) 0 (2 * PI) v).
    { refine (integral_ext _ _ _ _ _ _ _ I); [lra|]. intros x _. rewrite jp_kernel_big by assumption. f_equal. unfold jp_base. rewrite cos_minus, cos_PI, sin_PI. ring. }
    destruct (continuous_integral (jp_kernel kappa psi) 0 (2 * PI)) as [w W]; [lra|intros; apply jp_kernel_cont|].
    pose proof (integral_shift (jp_kernel kappa psi) PI w ltac:(lra) (jp_kernel_cont kappa psi)) as T.
    rewrite (integral_unique _ _ _ _ _ S (T ltac:(intros x; replace (x + 2 * PI) with (x + 2 * PI * IZR 1) by ring; apply jp_kernel_turns) W)). exact W.
Qed.
(** The constant is the reciprocal of the kernel's mass, whichever way it is found. *)
Lemma jp_c_mass iv lpmv quad mu kappa psi : is_iv iv -> is_lpmv lpmv -> 0 <= mu <= 2 * PI -> jp_ktol <= kappa -> Rabs (kappa * psi) <= 500 ->
  quad_exact quad (fun x => jp_kernel kappa psi (x - mu)) (- PI) PI ->
  exists Z, 0 < Z /\ integral (jp_kernel kappa psi) 0 (2 * PI) Z /\ jp_c iv lpmv quad mu kappa psi = 1 / Z.
Proof.
  intros Hiv Hl Hm Hk HA Hq. pose proof PI_gt3.
  assert (G : forall Z, integral (jp_kernel kappa psi) 0 (2 * PI) Z -> 0 < Z) by (intros Z I; apply (positive_mass _ _ (jp_kernel_cont kappa psi) (jp_kernel_pos kappa psi) I)).
  unfold jp_c. rewrite (proj2 (Rltb_false kappa jp_ktol)) by lra. destruct (Rltb (Rabs psi) jp_ptol) eqn:Ep.
  - assert (I : integral (jp_kernel kappa psi) 0 (2 * PI) (2 * PI * iv 0%nat kappa)).
    { refine (integral_ext _ _ _ _ _ _ _ (i0_int iv kappa Hiv)); [lra|]. intros x _. unfold jp_kernel. rewrite Ep. reflexivity. }
    exists (2 * PI * iv 0%nat kappa). auto.
  - apply Rltb_false in Ep. pose proof (quad_mass _ mu _ Hm (jp_kernel_cont kappa psi) (jp_kernel_turns kappa psi) Hq) as Iq.
    assert (Qd : exists Z, 0 < Z /\ integral (jp_kernel kappa psi) 0 (2 * PI) Z /\ 1 / quad (fun x => jp_kernel kappa psi (x - mu)) (- PI) PI = 1 / Z).
    { eexists. split; [exact (G _ Iq)|]. split; [exact Iq|reflexivity]. }
    cbv zeta. unfold jp_legendre. destruct (lpmv (1 / psi) (cosh (kappa * psi))) as [v| | |] eqn:El; try exact Qd.
    destruct (Rleb v 0); [exact Qd|]. destruct (Rleb (/ 10 ^ 12) (1 / (2 * PI * v)) && Rleb (1 / (2 * PI * v)) (10 ^ 6)); [|exact Qd].
    pose proof (legendre_mass kappa psi _ ltac:(lra) HA (Hl _ _ _ (cosh_ge1 _) El)) as I. exists (2 * PI * v). auto.
Qed.
Lemma jp_ok_spec mu kappa psi : jp_ok mu kappa psi = true <-> 0 <= mu <= 2 * PI /\ 0 <= kappa.
Proof.
  unfold jp_ok. rewrite !andb_true_iff, !Rleb_true. tauto.
Qed.
Lemma jp_pdf_kernel iv lpmv quad mu kappa psi x : jp_ktol <= kappa -> jp_pdf iv lpmv quad mu kappa psi x = jp_c iv lpmv quad mu kappa psi * jp_kernel kappa psi (x - mu).
Proof.
  intros H. unfold jp_pdf. assert (0 < jp_ktol) by (unfold jp_ktol; lra). rewrite (proj2 (Rltb_false _ _)) by (rewrite Rabs_pos_eq; lra). cbv zeta.
  unfold jp_kernel. destruct (Rltb (Rabs psi) jp_ptol); reflexivity.
Qed.
Lemma jp_pdf_flat iv lpmv quad mu kappa psi x : 0 <= kappa < jp_ktol -> jp_pdf iv lpmv quad mu kappa psi x = 1 / (2 * PI).
Proof. intros H. unfold jp_pdf. rewrite (proj2 (Rltb_true _ _)); [reflexivity|]. rewrite Rabs_pos_eq; lra. Qed.
Lemma jp_density iv lpmv quad mu kappa psi : is_iv iv -> is_lpmv lpmv -> jp_ok mu kappa psi = true -> Rabs (kappa * psi) <= 500 ->
  quad_exact quad (fun x => jp_kernel kappa psi (x - mu)) (- PI) PI ->
  pdf_is_density (public_pdf (jp_ok mu kappa psi) (jp_pdf iv lpmv quad mu kappa psi)).
Proof.
  intros Hiv Hl Ho HA Hq. pose proof PI_gt3. pose proof (proj1 (jp_ok_spec _ _ _) Ho) as [Hm Hk]. destruct (Rlt_le_dec kappa jp_ktol) as [K|K].
  - apply (kernel_density _ (fun _ => 1) _ (2 * PI) mu Ho Hm); try (intros; apply cont_const) || (intros; lra) || (intros; reflexivity).
    + apply (integral_val _ _ _ (1 * (2 * PI - 0))); [ring|apply integral_const].
    + intros x. rewrite jp_pdf_flat by lra. ring.
  - destruct (jp_c_mass iv lpmv quad mu kappa psi Hiv Hl Hm K HA Hq) as (Z & Z0 & I & E).
    apply (kernel_density _ (jp_kernel kappa psi) _ Z mu Ho Hm (jp_kernel_cont kappa psi)); try assumption.
    + intros x. left. apply jp_kernel_pos.
    + apply jp_kernel_turns.
    + intros x. rewrite jp_pdf_kernel by exact K. rewrite E. reflexivity.
Qed.
