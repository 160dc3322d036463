(** The Gaussian integral and the Fourier transform of the normal density. *)
From Verif Require Import Prelude NpModel NpProofs CircleSpec IntSpec IntProofs DistModel DistSpec DistProofs Dist2Proofs Dist4Proofs Dist5Proofs
  Dist6Proofs Dist7Proofs KjProofs Von2Proofs Von3Proofs Von6Proofs WnSpec.

Lemma expm_le x y : x <= y -> exp x <= exp y.
Proof. intros [L| ->]; [apply Rlt_le, exp_increasing, L|apply Rle_refl]. Qed.

(** ** Antiderivatives on the line *)
Lemma sym_le x : - (Rabs x + 1) <= Rabs x + 1.
Proof. pose proof (Rabs_pos x). lra. Qed.
Definition gprim (f : R -> R) (C : forall x, continuity_pt f x) (x : R) : R :=
  primitive (sym_le x) (FTC_P1 (sym_le x) (fun y _ => C y)) x - primitive (sym_le x) (FTC_P1 (sym_le x) (fun y _ => C y)) 0.
Lemma prim_diff f P Q a b : a <= b -> (forall x, continuity_pt f x) -> (forall x, a <= x <= b -> derivable_pt_lim P x (f x)) -> (forall x, a <= x <= b -> derivable_pt_lim Q x (f x)) ->
  P b - P a = Q b - Q a.
Proof. intros L C A B. apply (integral_unique f a b); apply ftc; auto. Qed.
Lemma gprim_eq f C B Q x : Rabs x <= B -> (forall y, - B <= y <= B -> derivable_pt_lim Q y (f y)) -> gprim f C x = Q x - Q 0.
Proof.
  intros HB HQ. unfold gprim. set (P := primitive (sym_le x) (FTC_P1 (sym_le x) (fun y _ => C y))).
  assert (HP : forall y, - (Rabs x + 1) <= y <= Rabs x + 1 -> derivable_pt_lim P y (f y)) by (intros y Hy; apply (RiemannInt_P28 (f := f)); exact Hy).
  pose proof (Rabs_pos x). pose proof (Rle_abs x) as A1. pose proof (Rle_abs (- x)) as A2. rewrite Rabs_Ropp in A2.
  destruct (Rle_dec 0 x) as [Hx|Hx].
  - apply (prim_diff f P Q 0 x Hx C); intros y Hy; [apply HP|apply HQ]; lra.
  - pose proof (prim_diff f P Q x 0 ltac:(lra) C ltac:(intros; apply HP; lra) ltac:(intros; apply HQ; lra)). lra.
Qed.
Lemma gprim_d f C x : derivable_pt_lim (gprim f C) x (f x).
Proof.
  set (B := Rabs x + 2). pose proof (Rabs_pos x) as A0. pose proof (Rle_abs x) as A1. pose proof (Rle_abs (- x)) as A2. rewrite Rabs_Ropp in A2.
  destruct (primitive_exists f (- B) B ltac:(unfold B; lra) ltac:(auto)) as [Q HQ].
  apply (dlim_ext_loc (fun y => Q y - Q 0) _ x (f x) (x - 1) (x + 1)); [lra| |].
  - intros y Hy. symmetry. apply (gprim_eq f C B); [|exact HQ]. apply Rabs_le. unfold B. lra.
  - eapply dlim_eq; [|apply dlim_minus; [apply HQ; unfold B; lra|apply dlim_const]]. cbv beta. ring.
Qed.
Lemma gprim_0 f C : gprim f C 0 = 0.
Proof. unfold gprim. ring. Qed.

(** ** Differentiation under the integral *)
Lemma diff_int (g g1 g2 : R -> R -> R) F F1 a b K x : a <= b -> 0 <= K ->
  (forall y t, a <= t <= b -> derivable_pt_lim (fun y => g y t) y (g1 y t)) ->
  (forall y t, a <= t <= b -> derivable_pt_lim (fun y => g1 y t) y (g2 y t)) ->
  (forall y t, a <= t <= b -> Rabs (g2 y t) <= K) ->
  (forall y, integral (g y) a b (F y)) -> integral (g1 x) a b F1 -> derivable_pt_lim F x F1.
Proof.
  intros L HK D1 D2 B2 I0 I1 eps He. set (M := K * (b - a) + 1). assert (HM : 0 < M) by (unfold M; nra).
  assert (Hd : 0 < eps / M) by (apply Rdiv_lt_0_compat; lra). exists (mkposreal _ Hd). intros h Hh Hl. cbn [pos] in Hl.
  assert (T : forall t, a <= t <= b -> Rabs (g (x + h) t + -1 * g x t + - h * g1 x t) <= K * (h * h)).
  { intros t Ht.
    destruct (MVT_abs (fun y => g y t - (y - x) * g1 x t) (fun y => g1 y t - g1 x t) x (x + h)) as (c & E & Hc).
    { intros c _. eapply dlim_eq; [|apply dlim_minus; [apply D1, Ht|apply dlim_mult; [apply dlim_minus; [apply dlim_id|apply dlim_const]|apply dlim_const]]]. cbv beta. ring. }
    destruct (MVT_abs (fun y => g1 y t) (fun y => g2 y t) x c) as (c2 & E2 & Hc2); [intros; apply D2, Ht|].
    assert (Cx : Rabs (c - x) <= Rabs h).
    { destruct (Rle_dec x (x + h)); [rewrite Rmin_left, Rmax_right in Hc by lra|rewrite Rmin_right, Rmax_left in Hc by lra];
        [rewrite (Rabs_right h) by lra|rewrite (Rabs_left1 h) by lra]; apply Rabs_le; lra. }
    replace (g (x + h) t + -1 * g x t + - h * g1 x t) with (g (x + h) t - (x + h - x) * g1 x t - (g x t - (x - x) * g1 x t)) by ring.
    rewrite E, E2. replace (x + h - x) with h by ring.
    pose proof (B2 c2 t Ht). pose proof (Rabs_pos (g2 c2 t)). pose proof (Rabs_pos (c - x)). pose proof (Rabs_pos h).
    replace (h * h) with (Rabs h * Rabs h) by (rewrite <- Rabs_mult; apply Rabs_right; nra).
    rewrite <- Rmult_assoc. apply Rmult_le_compat_r; [lra|]. apply Rmult_le_compat; lra. }
  pose proof (integral_lin _ _ _ _ (- h) _ _ (integral_lin _ _ _ _ (-1) _ _ (I0 (x + h)) (I0 x)) I1) as J.
  pose proof (integral_abs _ _ a b _ _ L T J (integral_const a b (K * (h * h)))) as Q.
  replace ((F (x + h) - F x) / h - F1) with ((F (x + h) + -1 * F x + - h * F1) / h) by (field; exact Hh).
  unfold Rdiv. rewrite Rabs_mult, Rabs_inv. pose proof (Rabs_pos_lt h Hh) as Ph.
  apply Rmult_lt_reg_r with (Rabs h); [exact Ph|]. rewrite Rmult_assoc, Rinv_l, Rmult_1_r by lra.
  eapply Rle_lt_trans; [exact Q|]. replace (h * h) with (Rabs h * Rabs h) by (rewrite <- Rabs_mult; apply Rabs_right; nra).
  apply Rlt_le_trans with (M * Rabs h * Rabs h); [unfold M; nra|]. apply Rmult_le_compat_r; [lra|].
  apply Rlt_le. apply Rmult_lt_compat_l with (r := M) in Hl; [|exact HM]. unfold Rdiv in Hl. replace (M * (eps * / M)) with eps in Hl by (field; lra). exact Hl.
Qed.

(** ** The Gaussian integral *)
Definition gz (z : R) : R := exp (- (1 / 2) * z ^ 2).
Lemma gz_pos z : 0 < gz z.
Proof. apply exp_pos. Qed.
Lemma gz_even z : gz (- z) = gz z.
Proof. unfold gz. f_equal. ring. Qed.
Lemma gz_le1 z : gz z <= 1.
Proof. apply Rle_trans with (exp 0); [|rewrite exp_0; lra]. apply expm_le. pose proof (pow2_ge_0 z). lra. Qed.
Lemma gz_d z : derivable_pt_lim gz z (- z * gz z).
Proof.
  unfold gz. eapply dlim_eq; [|apply (dlim_exp (fun z => - (1 / 2) * z ^ 2)), dlim_scal; apply (derivable_pt_lim_pow z 2)].
  cbv beta. cbn [INR Nat.pred pow]. field.
Qed.
Lemma gz_cont z : continuity_pt gz z.
Proof. eapply dlim_cont, gz_d. Qed.
Lemma exp_neg_bound s : 0 <= s -> exp (- s) * (1 + s) <= 1.
Proof.
  intros Hs. pose proof (exp_ge1 s) as A. pose proof (exp_pos (- s)).
  assert (E : exp (- s) * exp s = 1) by (rewrite <- exp_plus; replace (- s + s) with 0 by ring; apply exp_0). nra.
Qed.
Lemma z2_gz z : z ^ 2 * gz z <= 2.
Proof.
  pose proof (pow2_ge_0 z). pose proof (exp_neg_bound (1 / 2 * z ^ 2) ltac:(lra)) as B. unfold gz.
  replace (- (1 / 2) * z ^ 2) with (- (1 / 2 * z ^ 2)) by ring. pose proof (exp_pos (- (1 / 2 * z ^ 2))). nra.
Qed.
(** gz vanishes at infinity. *)
Lemma gz_small e : 0 < e -> exists M, 0 < M /\ forall z, M <= z -> gz z < e.
Proof.
  intros He. exists (2 / e + 1). assert (0 < 2 / e) by (apply Rdiv_lt_0_compat; lra). split; [lra|]. intros z Hz.
  pose proof (z2_gz z) as B. pose proof (gz_pos z). assert (Z : 2 / e < z ^ 2) by nra.
  apply Rmult_lt_compat_r with (r := e) in Z; [|exact He]. unfold Rdiv in Z. rewrite Rmult_assoc, Rinv_l in Z by lra.
  assert (0 < z ^ 2) by (pose proof (pow2_ge_0 z); nra). nra.
Qed.
Definition gA : R -> R := gprim gz gz_cont.
Lemma gA_d x : derivable_pt_lim gA x (gz x).
Proof. apply gprim_d. Qed.
(** The second function of the classical argument. *)
Definition gb (x t : R) : R := exp (- (1 / 2) * (x ^ 2 * (1 + t ^ 2))) / (1 + t ^ 2).
Definition gb1 (x t : R) : R := - x * exp (- (1 / 2) * (x ^ 2 * (1 + t ^ 2))).
Definition gb2 (x t : R) : R := (x ^ 2 * (1 + t ^ 2) - 1) * exp (- (1 / 2) * (x ^ 2 * (1 + t ^ 2))).
Lemma dlim_sq x : derivable_pt_lim (fun x => x ^ 2) x (2 * x).
Proof. eapply dlim_eq; [|apply (derivable_pt_lim_pow x 2)]. cbn [INR Nat.pred pow]. ring. Qed.
Lemma gb_e x t : derivable_pt_lim (fun x => exp (- (1 / 2) * (x ^ 2 * (1 + t ^ 2)))) x (- x * (1 + t ^ 2) * exp (- (1 / 2) * (x ^ 2 * (1 + t ^ 2)))).
Proof.
  eapply dlim_eq; [|apply (dlim_exp (fun x => - (1 / 2) * (x ^ 2 * (1 + t ^ 2)))), dlim_scal, dlim_mult; [apply dlim_sq|apply dlim_const]]. cbv beta. field.
Qed.
Lemma gb_d x t : derivable_pt_lim (fun x => gb x t) x (gb1 x t).
Proof.
  pose proof (pow2_ge_0 t). unfold gb, gb1. eapply dlim_eq; [|apply dlim_divc, gb_e]. field. lra.
Qed.
Lemma gb1_d x t : derivable_pt_lim (fun x => gb1 x t) x (gb2 x t).
Proof.
  unfold gb1, gb2. eapply dlim_eq; [|apply (dlim_mult (fun x => - x)); [apply dlim_opp, dlim_id|apply gb_e]]. cbv beta. ring.
Qed.
Lemma gb2_bound x t : Rabs (gb2 x t) <= 3.
Proof.
  unfold gb2. set (s := x ^ 2 * (1 + t ^ 2)). assert (Hs : 0 <= s) by (apply Rmult_le_pos; [apply pow2_ge_0|pose proof (pow2_ge_0 t); lra]).
  replace (- (1 / 2) * s) with (- (1 / 2 * s)) by ring. pose proof (exp_neg_bound (1 / 2 * s) ltac:(lra)). pose proof (exp_pos (- (1 / 2 * s))). apply Rabs_le. nra.
Qed.
Lemma gb_cont x t : continuity_pt (gb x) t.
Proof.
  pose proof (pow2_ge_0 t). unfold gb. eapply dlim_cont. apply dlim_div; [lra| |].
  - apply (dlim_exp (fun t => - (1 / 2) * (x ^ 2 * (1 + t ^ 2)))). do 2 apply dlim_scal. apply dlim_plus; [apply dlim_const|apply dlim_sq].
  - apply dlim_plus; [apply dlim_const|apply dlim_sq].
Qed.
Lemma gauss_sq x : exists B, gA x ^ 2 / 2 + B = PI / 4 /\ 0 <= B <= gz x.
Proof.
  assert (I : forall y, { v | integral (gb y) 0 1 v }).
  { intros y. pose (pr := continuity_implies_RiemannInt (Rle_0_1) (fun t _ => gb_cont y t)). exists (RiemannInt pr), pr. reflexivity. }
  set (B := fun y => proj1_sig (I y)). assert (HB : forall y, integral (gb y) 0 1 (B y)) by (intros y; exact (proj2_sig (I y))).
  assert (J : forall y, integral (gb1 y) 0 1 (- gz y * gA y)).
  { intros y. apply (integral_val _ _ _ (- gz y * gA (y * 1) - - gz y * gA (y * 0))).
    - rewrite Rmult_1_r, Rmult_0_r. unfold gA at 2. rewrite gprim_0. ring.
    - apply (ftc (gb1 y) (fun t => - gz y * gA (y * t))); [lra| |].
      + intros t _. unfold gb1. eapply dlim_cont. apply dlim_scal. apply (dlim_exp (fun t => - (1 / 2) * (y ^ 2 * (1 + t ^ 2)))). do 2 apply dlim_scal. apply dlim_plus; [apply dlim_const|apply dlim_sq].
      + intros t _. eapply dlim_eq; [|apply dlim_scal; apply (dlim_comp gA (fun t => y * t)); [apply dlim_mulc|apply gA_d]].
        unfold gb1. replace (- (1 / 2) * (y ^ 2 * (1 + t ^ 2))) with (- (1 / 2) * y ^ 2 + - (1 / 2) * (y * t) ^ 2) by ring. rewrite exp_plus. unfold gz. ring. }
  assert (DB : forall y, derivable_pt_lim B y (- gz y * gA y)).
  { intros y. apply (diff_int gb gb1 gb2 B _ 0 1 3); try lra; auto.
    - intros. apply gb_d.
    - intros. apply gb1_d.
    - intros. apply gb2_bound. }
  assert (DC : forall y, derivable_pt_lim (fun y => gA y ^ 2 / 2 + B y) y 0).
  { intros y. eapply dlim_eq; [|apply dlim_plus; [apply dlim_divc; apply (dlim_comp (fun v => v ^ 2) gA); [apply gA_d|apply dlim_sq]|apply DB]]. field. }
  assert (Const : gA x ^ 2 / 2 + B x = gA 0 ^ 2 / 2 + B 0).
  { destruct (MVT_abs (fun y => gA y ^ 2 / 2 + B y) (fun _ => 0) 0 x) as (c & E & _); [intros; apply DC|].
    rewrite Rabs_R0, Rmult_0_l in E. apply Rminus_diag_uniq. destruct (Req_dec (gA x ^ 2 / 2 + B x - (gA 0 ^ 2 / 2 + B 0)) 0) as [Z|Z]; [exact Z|].
    apply Rabs_no_R0 in Z. contradiction. }
  assert (B0 : B 0 = PI / 4).
  { apply (integral_unique (gb 0) 0 1); [apply HB|]. rewrite <- atan_1. apply (integral_val _ _ _ (atan 1 - atan 0)); [rewrite atan_0; ring|].
    apply ftc; [lra|intros; apply gb_cont|]. intros t _. unfold gb. replace (- (1 / 2) * (0 ^ 2 * (1 + t ^ 2))) with 0 by ring. rewrite exp_0.
    eapply dlim_eq; [|apply dlim_atan, dlim_id]. unfold Rsqr. pose proof (pow2_ge_0 t). field. nra. }
  exists (B x). split.
  - rewrite Const, B0. unfold gA. rewrite gprim_0. field.
  - split.
    + pose proof (integral_le (fun _ => 0) (gb x) 0 1 (0 * (1 - 0)) (B x)) as Q. rewrite Rmult_0_l in Q. apply Q; [lra| |apply (integral_val _ _ _ (0 * (1 - 0))); [ring|apply integral_const]|apply HB].
      intros t _. unfold gb. apply Rlt_le, Rdiv_lt_0_compat; [apply exp_pos|pose proof (pow2_ge_0 t); lra].
    + replace (gz x) with (gz x * (1 - 0)) by ring. apply (integral_le (gb x) (fun _ => gz x) 0 1); [lra| |apply HB|apply integral_const].
      intros t _. pose proof (pow2_ge_0 t). pose proof (pow2_ge_0 x). unfold gb, gz.
      apply Rle_trans with (exp (- (1 / 2) * (x ^ 2 * (1 + t ^ 2)))).
      * pose proof (exp_pos (- (1 / 2) * (x ^ 2 * (1 + t ^ 2)))). apply Rmult_le_reg_r with (1 + t ^ 2); [lra|]. unfold Rdiv. rewrite Rmult_assoc, Rinv_l by lra. nra.
      * apply expm_le. nra.
Qed.
Lemma gA_odd x : gA (- x) = - gA x.
Proof.
  unfold gA. rewrite (gprim_eq gz gz_cont (Rabs x) (fun y => - gprim gz gz_cont (- y)) (- x)).
  - rewrite Ropp_involutive, Ropp_0, gprim_0. ring.
  - rewrite Rabs_Ropp. lra.
  - intros y _. eapply dlim_eq; [|apply dlim_opp; apply (dlim_comp (gprim gz gz_cont) (fun y => - y)); [apply dlim_opp, dlim_id|apply gprim_d]]. rewrite gz_even. ring.
Qed.
Lemma gA_pos x : 0 <= x -> 0 <= gA x.
Proof.
  intros Hx. rewrite <- (gprim_0 gz gz_cont). apply (mono_of_dlim gA gz 0 x); try lra; [intros; apply gA_d|intros; apply Rlt_le, gz_pos].
Qed.
Lemma gA_close x : 0 <= x -> Rabs (gA x - sqrt (PI / 2)) <= 2 * gz x.
Proof.
  intros Hx. destruct (gauss_sq x) as (B & E & HB). pose proof (gA_pos x Hx) as P. pose proof PI_gt3 as HP. set (s := sqrt (PI / 2)).
  assert (S1 : 1 < s) by (unfold s; rewrite <- sqrt_1 at 1; apply sqrt_lt_1; lra). assert (S2 : s * s = PI / 2) by (apply sqrt_sqrt; lra).
  assert (Q : (gA x - s) * (gA x + s) = - 2 * B) by (transitivity (gA x ^ 2 - s * s); [ring|rewrite S2; lra]).
  apply Rabs_le. nra.
Qed.
Lemma ndtr_exists : exists Phi, is_ndtr Phi.
Proof.
  pose proof PI_gt3 as HP. set (c := sqrt (2 * PI)). assert (Hc : 1 < c) by (unfold c; rewrite <- sqrt_1 at 1; apply sqrt_lt_1; lra).
  assert (Hs : sqrt (PI / 2) = c / 2).
  { unfold c. replace (PI / 2) with (2 * PI / (2 * 2)) by field. rewrite sqrt_div_alt by lra. rewrite sqrt_square by lra. reflexivity. }
  exists (fun z => 1 / 2 + / c * gA z). split.
  - intros z. eapply dlim_eq; [|apply dlim_plus; [apply dlim_const|apply dlim_scal, gA_d]]. cbv beta. unfold gz, c. ring.
  - intros e He. destruct (gz_small (e / 4) ltac:(lra)) as (M & HM & G). exists M. intros z Hz. pose proof (gA_close z ltac:(lra)) as A. rewrite Hs in A.
    specialize (G z Hz). apply abs_le_inv in A. rewrite gA_odd.
    assert (I : 0 < / c < 1) by (split; [apply Rinv_0_lt_compat; lra|rewrite <- Rinv_1; apply Rinv_lt_contravar; lra]).
    assert (IC : / c * (c / 2) = 1 / 2) by (field; lra).
    assert (/ c * (c / 2 - e / 2) <= / c * gA z <= / c * (c / 2 + e / 2)) by (split; apply Rmult_le_compat_l; lra).
    assert (- (e / 2) <= / c * gA z - 1 / 2 <= e / 2) by nra. split; apply Rabs_def1; lra.
Qed.

(** ** The Fourier transform of the normal density *)
Lemma gauss_fourier a b c t v w : a <= b -> 0 <= t ->
  integral gz a b v -> integral (fun z => gz z * cos (t * z + c)) a b w ->
  Rabs (exp (1 / 2 * t ^ 2) * w - cos c * v) <= t * exp (1 / 2 * t ^ 2) * (gz a + gz b).
Proof.
  intros L Ht Hv Hw.
  assert (Aff : forall y z : R, derivable_pt_lim (fun z => y * z + c) z y) by (intros y z; eapply dlim_eq; [|apply dlim_plus; [apply dlim_mulc|apply dlim_const]]; ring).
  assert (C : forall y z, continuity_pt (fun z => gz z * cos (y * z + c)) z).
  { intros y z. apply cont_mult; [apply gz_cont|]. eapply dlim_cont, dlim_cos, Aff. }
  assert (I : forall y, { u | integral (fun z => gz z * cos (y * z + c)) a b u }).
  { intros y. pose (pr := continuity_implies_RiemannInt L (fun z _ => C y z)). exists (RiemannInt pr), pr. reflexivity. }
  set (F := fun y => proj1_sig (I y)). assert (HF : forall y, integral (fun z => gz z * cos (y * z + c)) a b (F y)) by (intros y; exact (proj2_sig (I y))).
  set (bd := fun y => gz b * sin (y * b + c) - gz a * sin (y * a + c)).
  assert (J : forall y, integral (fun z => - z * (gz z * sin (y * z + c))) a b (bd y - y * F y)).
  { intros y.
    assert (K : integral (fun z => - z * (gz z * sin (y * z + c)) + y * (gz z * cos (y * z + c))) a b (bd y)).
    { apply (ftc _ (fun z => gz z * sin (y * z + c))); [exact L| |].
      - intros z _. apply cont_plus; [apply cont_mult; [eapply dlim_cont, dlim_opp, dlim_id|apply cont_mult; [apply gz_cont|eapply dlim_cont, dlim_sin, Aff]]|].
        apply cont_mult; [apply cont_const|apply C].
      - intros z _. eapply dlim_eq; [|apply dlim_mult; [apply gz_d|apply dlim_sin, Aff]]. cbv beta. ring. }
    pose proof (integral_lin _ _ _ _ (- y) _ _ K (HF y)) as K'. refine (integral_val _ _ _ _ _ _ (integral_ext _ _ _ _ _ L _ K')); [ring|]. intros z _. cbv beta. ring. }
  assert (DF : forall y, derivable_pt_lim F y (bd y - y * F y)).
  { intros y. apply (diff_int (fun y z => gz z * cos (y * z + c)) (fun y z => - z * (gz z * sin (y * z + c))) (fun y z => - (z ^ 2) * (gz z * cos (y * z + c))) F _ a b 2); try lra; auto.
    - intros u z _. eapply dlim_eq; [|apply dlim_scal, dlim_cos, (dlim_plus (fun y => y * z)); [apply (dlim_mult (fun y => y)); [apply dlim_id|apply dlim_const]|apply dlim_const]]. cbv beta. ring.
    - intros u z _. eapply dlim_eq; [|apply dlim_scal, dlim_scal, dlim_sin, (dlim_plus (fun y => y * z)); [apply (dlim_mult (fun y => y)); [apply dlim_id|apply dlim_const]|apply dlim_const]]. cbv beta. ring.
    - intros u z _. pose proof (z2_gz z). pose proof (gz_pos z). pose proof (pow2_ge_0 z). pose proof (COS_bound (u * z + c)).
      assert (Z0 : 0 <= z ^ 2 * gz z) by (apply Rmult_le_pos; lra). replace (- z ^ 2 * (gz z * cos (u * z + c))) with (- ((z ^ 2 * gz z) * cos (u * z + c))) by ring.
      set (zz := z ^ 2 * gz z) in *. clearbody zz. apply Rabs_le. nra. }
  assert (DD : forall y, derivable_pt_lim (fun y => exp (1 / 2 * y ^ 2) * F y) y (exp (1 / 2 * y ^ 2) * bd y)).
  { intros y. eapply dlim_eq; [|apply dlim_mult; [apply (dlim_exp (fun y => 1 / 2 * y ^ 2)), dlim_scal, dlim_sq|apply DF]]. cbv beta. field. }
  destruct (MVT_abs (fun y => exp (1 / 2 * y ^ 2) * F y) (fun y => exp (1 / 2 * y ^ 2) * bd y) 0 t) as (y & E & Hy); [intros; apply DD|].
  rewrite Rmin_left, Rmax_right in Hy by lra.
  rewrite (integral_unique _ _ _ _ _ Hw (HF t)).
  assert (F0 : F 0 = cos c * v).
  { apply (integral_unique (fun z => gz z * cos (0 * z + c)) a b); [apply HF|]. pose proof (integral_scal _ _ _ (cos c) _ L Hv) as K. revert K.
    apply integral_ext; [exact L|]. intros z _. rewrite Rmult_0_l, Rplus_0_l. ring. }
  replace (exp (1 / 2 * 0 ^ 2)) with 1 in E by (replace (1 / 2 * 0 ^ 2) with 0 by ring; rewrite exp_0; reflexivity). rewrite Rmult_1_l, F0 in E. rewrite E.
  rewrite Rminus_0_r, (Rabs_right t) by lra. rewrite Rabs_mult, (Rabs_right (exp _)) by (apply Rle_ge, Rlt_le, exp_pos).
  assert (B1 : Rabs (bd y) <= gz a + gz b).
  { unfold bd. pose proof (gz_pos a). pose proof (gz_pos b). pose proof (SIN_bound (y * b + c)). pose proof (SIN_bound (y * a + c)). apply Rabs_le. nra. }
  assert (B2 : exp (1 / 2 * y ^ 2) <= exp (1 / 2 * t ^ 2)) by (apply expm_le; nra).
  pose proof (exp_pos (1 / 2 * y ^ 2)). pose proof (Rabs_pos (bd y)).
  rewrite (Rmult_comm _ t), Rmult_assoc. apply Rmult_le_compat_l; [exact Ht|]. apply Rmult_le_compat; lra.
Qed.
