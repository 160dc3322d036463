(** wrapnorm: moments of the pdf, monotonicity of the cdf, the moment fit. *)
From Verif Require Import Prelude NpModel NpProofs UtilsModel UtilsProofs DescModel DescProofs CircleSpec IntSpec IntProofs DistModel DistSpec DistProofs Dist2Proofs Dist4Proofs Dist5Proofs
  Dist6Proofs Dist7Proofs Dist8Proofs KjProofs Kj2Proofs Kj6Proofs Kj7Proofs WnModel.

Lemma wn_ok_spec mu rho : wn_ok mu rho = true -> 0 <= mu <= 2 * PI /\ 0 < rho < 1.
Proof. unfold wn_ok. rewrite !andb_true_iff, !Rleb_true, !Rltb_true. lra. Qed.
Lemma wn_ok_intro mu rho : 0 <= mu <= 2 * PI -> 0 < rho < 1 -> wn_ok mu rho = true.
Proof. intros. unfold wn_ok. rewrite !andb_true_iff, !Rleb_true, !Rltb_true. lra. Qed.

(** ** Orthogonality *)
Lemma int_one : integral (fun _ => 1) 0 (2 * PI) (2 * PI).
Proof. apply (integral_val _ _ _ (1 * (2 * PI - 0))); [ring|apply integral_const]. Qed.
Lemma int_cos_diff (n p : nat) : integral (fun t => cos ((INR n - INR p) * t)) 0 (2 * PI) (if Nat.eqb n p then 2 * PI else 0).
Proof.
  pose proof PI_RGT_0. assert (L : 0 <= 2 * PI) by lra. destruct (Nat.eqb_spec n p) as [->|N].
  - apply (integral_ext (fun _ => 1)); [exact L| |apply int_one]. intros t _. replace ((INR p - INR p) * t) with 0 by ring. rewrite cos_0. reflexivity.
  - destruct (le_lt_dec n p) as [B|B].
    + apply (integral_ext (fun t => cos (INR (p - n) * t))); [exact L| |apply int_cos_n; lia].
      intros t _. rewrite minus_INR by lia. rewrite <- cos_neg. f_equal. ring.
    + apply (integral_ext (fun t => cos (INR (n - p) * t))); [exact L| |apply int_cos_n; lia].
      intros t _. rewrite minus_INR by lia. f_equal.
Qed.
Lemma int_sin_diff (n p : nat) : integral (fun t => sin ((INR n - INR p) * t)) 0 (2 * PI) 0.
Proof.
  pose proof PI_RGT_0. assert (L : 0 <= 2 * PI) by lra. destruct (le_lt_dec n p) as [B|B].
  - pose proof (integral_scal _ _ _ (-1) _ L (int_sin_n (p - n))) as K. apply (integral_val _ _ _ (-1 * 0)); [ring|]. revert K.
    apply integral_ext; [exact L|]. intros t _. rewrite minus_INR by lia. replace ((INR n - INR p) * t) with (- ((INR p - INR n) * t)) by ring. rewrite sin_neg. ring.
  - apply (integral_ext (fun t => sin (INR (n - p) * t))); [exact L| |apply int_sin_n]. intros t _. rewrite minus_INR by lia. reflexivity.
Qed.
Lemma ortho_cc (n p : nat) : (1 <= p)%nat -> integral (fun t => cos (INR n * t) * cos (INR p * t)) 0 (2 * PI) (if Nat.eqb n p then PI else 0).
Proof.
  intros Hp. pose proof PI_RGT_0. assert (L : 0 <= 2 * PI) by lra.
  pose proof (integral_scal _ _ _ (1 / 2) _ L (integral_plus _ _ _ _ _ _ L (int_cos_n (n + p) ltac:(lia)) (int_cos_diff n p))) as K.
  replace (if Nat.eqb n p then PI else 0) with (1 / 2 * (0 + if Nat.eqb n p then 2 * PI else 0)) by (destruct (Nat.eqb n p); field).
  revert K. apply integral_ext; [exact L|]. intros t _. rewrite plus_INR.
  replace ((INR n + INR p) * t) with (INR n * t + INR p * t) by ring. replace ((INR n - INR p) * t) with (INR n * t - INR p * t) by ring. rewrite cos_plus, cos_minus. field.
Qed.
Lemma ortho_sc (n p : nat) : integral (fun t => sin (INR n * t) * cos (INR p * t)) 0 (2 * PI) 0.
Proof.
  pose proof PI_RGT_0. assert (L : 0 <= 2 * PI) by lra.
  pose proof (integral_scal _ _ _ (1 / 2) _ L (integral_plus _ _ _ _ _ _ L (int_sin_n (n + p)) (int_sin_diff n p))) as K.
  apply (integral_val _ _ _ (1 / 2 * (0 + 0))); [field|].
  revert K. apply integral_ext; [exact L|]. intros t _. rewrite plus_INR.
  replace ((INR n + INR p) * t) with (INR n * t + INR p * t) by ring. replace ((INR n - INR p) * t) with (INR n * t - INR p * t) by ring. rewrite sin_plus, sin_minus. field.
Qed.
(** Integrals of finite sums. *)
Lemma integral_Rsum {A} (f : A -> R -> R) (v : A -> R) l a b : a <= b -> (forall x, In x l -> integral (f x) a b (v x)) ->
  integral (fun t => Rsum (map (fun x => f x t) l)) a b (Rsum (map v l)).
Proof.
  intros Hab. induction l as [|x l IH]; intros H.
  - cbn. apply (integral_val _ _ _ (0 * (b - a))); [ring|apply integral_const].
  - cbn [map]. change (Rsum (v x :: map v l)) with (v x + Rsum (map v l)).
    apply (integral_ext (fun t => f x t + Rsum (map (fun y => f y t) l))); [exact Hab|reflexivity|].
    apply integral_plus; [exact Hab|apply H; left; reflexivity|apply IH; intros; apply H; right; assumption].
Qed.
(** The cosine polynomial with coefficients c_1 .. c_m. *)
Definition cpoly (c : nat -> R) (m : nat) (t : R) : R := (1 + 2 * Rsum (map (fun p => c p * cos (INR p * t)) (seq 1 m))) / (2 * PI).
Lemma Rsum_pick (n : nat) (c : nat -> R) (l : list nat) : NoDup l -> Rsum (map (fun p => c p * (if Nat.eqb n p then PI else 0)) l) = if existsb (Nat.eqb n) l then c n * PI else 0.
Proof.
  induction l as [|p l IH]; intros N; [reflexivity|]. inversion N; subst. cbn [map existsb]. change (Rsum (?a :: ?b)) with (a + Rsum b). rewrite IH by assumption.
  destruct (Nat.eqb_spec n p) as [->|D]; cbn [orb]; [|lra].
  replace (existsb (Nat.eqb p) l) with false; [lra|]. symmetry. apply not_true_is_false. intros E. apply existsb_exists in E as (x & I & Q).
  apply Nat.eqb_eq in Q. subst. contradiction.
Qed.
Lemma existsb_seq n m : existsb (Nat.eqb n) (seq 1 m) = Nat.leb 1 n && Nat.leb n m.
Proof.
  apply eq_iff_eq_true. rewrite existsb_exists, andb_true_iff, !Nat.leb_le. split.
  - intros (x & I & E). apply Nat.eqb_eq in E. subst. apply in_seq in I. lia.
  - intros H. exists n. split; [apply in_seq; lia|apply Nat.eqb_refl].
Qed.
Lemma cpoly_moment c m n : (1 <= n)%nat ->
  integral (fun t => cos (INR n * t) * cpoly c m t) 0 (2 * PI) (if Nat.leb n m then c n else 0) /\
  integral (fun t => sin (INR n * t) * cpoly c m t) 0 (2 * PI) 0.
Proof.
  intros Hn. pose proof PI_RGT_0. assert (L : 0 <= 2 * PI) by lra. split.
  - pose proof (integral_Rsum (fun p t => c p * (cos (INR n * t) * cos (INR p * t))) (fun p => c p * (if Nat.eqb n p then PI else 0)) (seq 1 m) 0 (2 * PI) L) as K.
    assert (K' := K (fun p I => integral_scal _ _ _ (c p) _ L (ortho_cc n p (proj1 (proj1 (in_seq _ _ _) I))))). clear K.
    rewrite Rsum_pick in K' by apply seq_NoDup. rewrite existsb_seq, (proj2 (Nat.leb_le 1 n)) in K' by exact Hn. cbn [andb] in K'.
    pose proof (integral_lin _ _ _ _ 2 _ _ (int_cos_n n Hn) K') as J. pose proof (integral_scal _ _ _ (/ (2 * PI)) _ L J) as J'.
    replace (if Nat.leb n m then c n else 0) with (/ (2 * PI) * (0 + 2 * (if Nat.leb n m then c n * PI else 0))) by (destruct (Nat.leb n m); field; lra).
    revert J'. apply integral_ext; [exact L|]. intros t _. cbv beta. unfold cpoly.
    rewrite (Rsum_ext_map (fun p => c p * (cos (INR n * t) * cos (INR p * t))) (fun p => cos (INR n * t) * (c p * cos (INR p * t)))) by (intros; ring).
    rewrite Rsum_scal_map. field. lra.
  - pose proof (integral_Rsum (fun p t => c p * (sin (INR n * t) * cos (INR p * t))) (fun p => c p * 0) (seq 1 m) 0 (2 * PI) L) as K.
    assert (K' := K (fun p I => integral_scal _ _ _ (c p) _ L (ortho_sc n p))). clear K.
    pose proof (integral_lin _ _ _ _ 2 _ _ (int_sin_n n) K') as J. pose proof (integral_scal _ _ _ (/ (2 * PI)) _ L J) as J'.
    refine (integral_val _ _ _ _ _ _ (integral_ext _ _ _ _ _ L _ J')).
    + rewrite (Rsum_ext_map (fun p => c p * 0) (fun p => 0 * c p)) by (intros; ring). rewrite Rsum_scal_map. ring.
    + intros t _. cbv beta. unfold cpoly.
      rewrite (Rsum_ext_map (fun p => c p * (sin (INR n * t) * cos (INR p * t))) (fun p => sin (INR n * t) * (c p * cos (INR p * t)))) by (intros; ring).
      rewrite Rsum_scal_map. field. lra.
Qed.
Lemma cpoly_total c m : integral (cpoly c m) 0 (2 * PI) 1.
Proof.
  pose proof PI_RGT_0. assert (L : 0 <= 2 * PI) by lra.
  pose proof (integral_Rsum (fun p t => c p * cos (INR p * t)) (fun p => c p * 0) (seq 1 m) 0 (2 * PI) L) as K.
  assert (K' := K (fun p I => integral_scal _ _ _ (c p) _ L (int_cos_n p (proj1 (proj1 (in_seq _ _ _) I))))). clear K.
  pose proof (integral_lin _ _ _ _ 2 _ _ int_one K') as J. pose proof (integral_scal _ _ _ (/ (2 * PI)) _ L J) as J'.
  refine (integral_val _ _ _ _ _ _ (integral_ext _ _ _ _ _ L _ J')).
  - rewrite (Rsum_ext_map (fun p => c p * 0) (fun p => 0 * c p)) by (intros; ring). rewrite Rsum_scal_map. field. lra.
  - intros t _. unfold cpoly. field. lra.
Qed.
Lemma cpoly_cont c m x : continuity_pt (cpoly c m) x.
Proof.
  eapply dlim_cont. unfold cpoly. apply dlim_divc. apply dlim_plus; [apply dlim_const|]. apply dlim_scal.
  apply (dlim_Rsum (fun p y => c p * cos (INR p * y)) (fun p => c p * (- sin (INR p * x) * INR p))). intros p _.
  apply dlim_scal. eapply dlim_eq; [|apply dlim_cos, dlim_mulc]. ring.
Qed.
Lemma cpoly_per c m x : cpoly c m (x + 2 * PI) = cpoly c m x.
Proof. unfold cpoly. do 3 f_equal. apply Rsum_ext_map. intros p _. rewrite cos_per. reflexivity. Qed.
Lemma wn_cpoly mu rho x : wn_pdf mu rho x = cpoly (fun p => rho ^ (p ^ 2)) 29 (x - mu).
Proof. reflexivity. Qed.

(** ** The pdf *)
Lemma wn_moments mu rho f (n : nat) : (1 <= n)%nat -> wn_ok mu rho = true ->
  (forall x, public_pdf (wn_ok mu rho) (wn_pdf mu rho) x = Fin (f x)) ->
  let r := if Nat.leb n 29 then rho ^ (n ^ 2) else 0 in
  trig_moment_of f (Z.of_nat n) (r * cos (INR n * mu)) (r * sin (INR n * mu)).
Proof.
  intros Hn Hok E r. rewrite Hok in E. apply wn_ok_spec in Hok as [Hm H]. pose proof (pub_pdf_on _ _ E) as E'.
  destruct (cpoly_moment (fun p => rho ^ (p ^ 2)) 29 n Hn) as [A B]. fold r in A.
  destruct (moment_shift (cpoly (fun p => rho ^ (p ^ 2)) 29) f mu n r 0 Hm) as [K1 K2]; try assumption.
  - intros. apply cpoly_cont.
  - apply cpoly_per.
  - unfold trig_moment_of. rewrite <- INR_IZR_INZ. split.
    + replace (r * cos (INR n * mu)) with (r * cos (INR n * mu) - 0 * sin (INR n * mu)) by ring. exact K1.
    + replace (r * sin (INR n * mu)) with (r * sin (INR n * mu) + 0 * cos (INR n * mu)) by ring. exact K2.
Qed.
Lemma wn_per mu rho x : wn_pdf mu rho (x + 2 * PI) = wn_pdf mu rho x.
Proof. rewrite !wn_cpoly. replace (x + 2 * PI - mu) with (x - mu + 2 * PI) by ring. apply cpoly_per. Qed.
Lemma wn_cont mu rho x : continuity_pt (wn_pdf mu rho) x.
Proof. apply (continuity_shift (cpoly (fun p => rho ^ (p ^ 2)) 29)). apply cpoly_cont. Qed.
Lemma wn_total mu rho : 0 <= mu <= 2 * PI -> integral (wn_pdf mu rho) 0 (2 * PI) 1.
Proof.
  intros Hm. apply (integral_shift (cpoly (fun p => rho ^ (p ^ 2)) 29)); [exact Hm|apply cpoly_cont|apply cpoly_per|apply cpoly_total].
Qed.
(** Negative at the antipode of mu once rho^841 exceeds 1/2. *)
Lemma cos_npi (n : nat) : cos (INR n * PI) = (-1) ^ n.
Proof.
  induction n as [|n IH]; [cbn [INR pow]; rewrite Rmult_0_l; apply cos_0|]. rewrite S_INR. replace ((INR n + 1) * PI) with (INR n * PI + PI) by ring.
  rewrite neg_cos, IH. cbn [pow]. ring.
Qed.
Lemma alt_sum rho m : 0 <= rho <= 1 -> Rsum (map (fun p => rho ^ (p ^ 2) * (-1) ^ p) (seq 1 (2 * m + 1))) <= - rho ^ ((2 * m + 1) ^ 2).
Proof.
  intros Hr. induction m as [|m IH].
  - cbn [Nat.mul Nat.add seq map]. unfold Rsum. cbn [fold_right]. cbn [Nat.pow Nat.mul Nat.add]. lra.
  - replace (2 * S m + 1)%nat with (S (S (2 * m + 1)))%nat by lia. rewrite !seq_S, !map_app, !Rsum_app. cbn [map]. unfold Rsum at 2 3. cbn [fold_right].
    replace (1 + (2 * m + 1))%nat with (2 * (m + 1))%nat by lia. replace (1 + S (2 * m + 1))%nat with (S (2 * (m + 1)))%nat by lia.
    rewrite (pow_1_even (m + 1)), (pow_1_odd (m + 1)).
    assert (M : rho ^ ((2 * (m + 1)) ^ 2) <= rho ^ ((2 * m + 1) ^ 2)).
    { replace ((2 * (m + 1)) ^ 2)%nat with ((2 * m + 1) ^ 2 + (4 * m + 3))%nat by (cbn [Nat.pow]; lia). rewrite pow_add.
      pose proof (pow_le rho ((2 * m + 1) ^ 2) (proj1 Hr)). pose proof (pow_incr rho 1 (4 * m + 3) Hr) as B. rewrite pow1 in B. nra. }
    replace (S (S (2 * m + 1))) with (S (2 * (m + 1)))%nat by lia. lra.
Qed.
Lemma wn_antipode mu rho : 0 < rho < 1 -> 1 / 2 < rho ^ 841 -> wn_pdf mu rho (mu + PI) < 0.
Proof.
  intros Hr H. rewrite wn_cpoly. replace (mu + PI - mu) with PI by ring. unfold cpoly. pose proof PI_RGT_0.
  pose proof (alt_sum rho 14 ltac:(lra)) as A. change (2 * 14 + 1)%nat with 29%nat in A. change (29 ^ 2)%nat with 841%nat in A.
  rewrite (Rsum_ext_map (fun p => rho ^ (p ^ 2) * cos (INR p * PI)) (fun p => rho ^ (p ^ 2) * (-1) ^ p)) by (intros; rewrite cos_npi; reflexivity).
  apply Rmult_lt_reg_r with (2 * PI); [lra|]. unfold Rdiv. rewrite Rmult_assoc, Rinv_l by lra. lra.
Qed.
Lemma bern_lower x (n : nat) : 0 <= x <= 1 -> 1 - INR n * x <= (1 - x) ^ n.
Proof.
  intros Hx. induction n as [|n IH]; [cbn; lra|]. rewrite S_INR. cbn [pow]. pose proof (pow_le (1 - x) n ltac:(lra)). pose proof (pos_INR n). nra.
Qed.
Lemma ex_wn_negative : exists mu rho x v, wn_ok mu rho = true /\ public_pdf (wn_ok mu rho) (wn_pdf mu rho) x = Fin v /\ v < 0.
Proof.
  pose proof PI_RGT_0. exists 0, (1 - / 2000), (0 + PI), (wn_pdf 0 (1 - / 2000) (0 + PI)).
  assert (E : wn_ok 0 (1 - / 2000) = true) by (apply wn_ok_intro; lra). split; [exact E|]. split.
  - rewrite E, public_pdf_fin. rewrite wrap_in by lra. reflexivity.
  - apply wn_antipode; [lra|]. pose proof (bern_lower (/ 2000) 841 ltac:(lra)) as B. replace (INR 841) with 841 in B by (rewrite INR_IZR_INZ; reflexivity). revert B. generalize ((1 - / 2000) ^ 841). intros b B. lra.
Qed.

(** ** Monotonicity of the cdf *)
Definition mono (f : R -> R) : Prop := forall x y, x <= y -> f x <= f y.
Lemma wn_delta_mono ndtr mu sg a b s : mono ndtr -> 0 < sg -> a <= b -> wn_delta ndtr mu sg a s <= wn_delta ndtr mu sg b s.
Proof.
  intros M Hs Hab. unfold wn_delta. apply Rplus_le_compat_r. apply M. apply Rmult_le_compat_r; [|lra].
  apply Rlt_le, Rdiv_lt_0_compat; lra.
Qed.
Lemma wn_delta_0 ndtr mu sg s : wn_delta ndtr mu sg 0 s = 0.
Proof. unfold wn_delta. replace (0 - mu + s) with (- mu + s) by ring. ring. Qed.
Lemma wn_delta_pos ndtr mu sg a s : mono ndtr -> 0 < sg -> 0 <= a -> 0 <= wn_delta ndtr mu sg a s.
Proof. intros M Hs Ha. rewrite <- (wn_delta_0 ndtr mu sg s). apply wn_delta_mono; assumption. Qed.
Lemma wn_loop_ge ndtr mu sg a fuel : mono ndtr -> 0 < sg -> 0 <= a -> forall k c p, c <= fst (wn_loop ndtr mu sg a fuel k c p).
Proof.
  intros M Hs Ha. induction fuel as [|f IH]; intros k c p; [apply Rle_refl|]. cbn [wn_loop]. cbv zeta.
  pose proof (wn_delta_pos ndtr mu sg a (2 * PI * INR k) M Hs Ha). pose proof (wn_delta_pos ndtr mu sg a (- (2 * PI * INR k)) M Hs Ha).
  destruct (Rltb _ _); [|cbn [fst]; lra]. eapply Rle_trans; [|apply IH]. lra.
Qed.
Lemma wn_loop_mono ndtr mu sg a b fuel : mono ndtr -> 0 < sg -> 0 <= a <= b -> forall k c c' p p', c <= c' ->
  fst (wn_loop ndtr mu sg a fuel k c p) <= fst (wn_loop ndtr mu sg b fuel k c' p').
Proof.
  intros M Hs Hab. induction fuel as [|f IH]; intros k c c' p p' Hc; [exact Hc|]. cbn [wn_loop]. cbv zeta.
  set (sh := 2 * PI * INR k).
  pose proof (wn_delta_pos ndtr mu sg a sh M Hs ltac:(lra)). pose proof (wn_delta_pos ndtr mu sg a (- sh) M Hs ltac:(lra)).
  pose proof (wn_delta_mono ndtr mu sg a b sh M Hs ltac:(lra)). pose proof (wn_delta_mono ndtr mu sg a b (- sh) M Hs ltac:(lra)).
  set (da := wn_delta ndtr mu sg a sh) in *. set (ea := wn_delta ndtr mu sg a (- sh)) in *.
  set (db := wn_delta ndtr mu sg b sh) in *. set (eb := wn_delta ndtr mu sg b (- sh)) in *.
  rewrite !Rabs_right by lra.
  destruct (Rltb_spec (/ 10 ^ 13) (Rmax da ea)) as [A|A].
  - rewrite (proj2 (Rltb_true (/ 10 ^ 13) (Rmax db eb))).
    + apply IH. lra.
    + eapply Rlt_le_trans; [exact A|]. apply Rmax_lub; [eapply Rle_trans; [|apply Rmax_l]|eapply Rle_trans; [|apply Rmax_r]]; lra.
  - destruct (Rltb (/ 10 ^ 13) (Rmax db eb)).
    + cbn [fst]. eapply Rle_trans; [|apply wn_loop_ge; [exact M|exact Hs|lra]]. lra.
    + cbn [fst]. lra.
Qed.
Lemma clip_mono x y lo hi : x <= y -> clip x lo hi <= clip y lo hi.
Proof. intros. unfold clip. apply Rle_min_compat_r, Rle_max_compat_r. assumption. Qed.
Lemma wn_cp_mono ndtr mu sg a b : mono ndtr -> 0 < sg -> 0 <= a <= b -> fst (wn_cdf_pdf ndtr mu sg a) <= fst (wn_cdf_pdf ndtr mu sg b).
Proof.
  intros M Hs Hab. unfold wn_cdf_pdf.
  pose proof (wn_loop_mono ndtr mu sg a b 500 M Hs Hab 1 (wn_delta ndtr mu sg a 0) (wn_delta ndtr mu sg b 0) (wn_gauss mu sg a 0) (wn_gauss mu sg b 0)
    (wn_delta_mono ndtr mu sg a b 0 M Hs (proj2 Hab))) as K.
  destruct (wn_loop ndtr mu sg a 500 1 _ _), (wn_loop ndtr mu sg b 500 1 _ _). cbn [fst] in *. apply clip_mono, K.
Qed.
Lemma wn_cp_range ndtr mu sg a : 0 <= fst (wn_cdf_pdf ndtr mu sg a) <= 1.
Proof. unfold wn_cdf_pdf. destruct (wn_loop _ _ _ _ _ _ _ _). cbn [fst]. apply clip_range. lra. Qed.
Lemma ftiny_pos : 0 < ftiny.
Proof. unfold ftiny. apply Rinv_0_lt_compat, pow_lt. lra. Qed.
Lemma ftiny_small : ftiny < / 10 ^ 12.
Proof.
  unfold ftiny. apply Rinv_lt_contravar; [apply Rmult_lt_0_compat; apply pow_lt; lra|].
  apply Rlt_le_trans with (2 ^ 40); [lra|apply Rle_pow; [lra|lia]].
Qed.
Lemma wn_sigma_pos rho : 0 < wn_sigma rho.
Proof.
  unfold wn_sigma. apply sqrt_lt_R0. pose proof ftiny_pos as A. pose proof ftiny_small as B. set (r := clip rho ftiny (1 - / 10 ^ 15)).
  assert (Hr : ftiny <= r <= 1 - / 10 ^ 15) by (apply clip_range; lra).
  assert (ln r < 0) by (rewrite <- ln_1; apply ln_increasing; lra). lra.
Qed.
Lemma close_2pi_up a b : a <= b -> b < 2 * PI -> close_2pi a = true -> close_2pi b = true.
Proof.
  intros Hab Hb. unfold close_2pi, isclose, isclose_tol. rewrite !Rleb_true. intros H. rewrite Rabs_left1 in * by lra. lra.
Qed.
Lemma wn_cdf_range ndtr mu rho x : 0 < x < 2 * PI -> 0 <= wn_cdf ndtr mu rho x <= 1.
Proof.
  intros Hx. unfold wn_cdf. cbv zeta. destruct (Rleb rho _), (close_2pi x); try lra; [|apply wn_cp_range].
  pose proof PI_RGT_0. split; [apply Rlt_le, Rdiv_lt_0_compat; lra|]. apply Rmult_le_reg_r with (2 * PI); [lra|]. unfold Rdiv. rewrite Rmult_assoc, Rinv_l by lra. lra.
Qed.
Lemma wn_cdf_mono ndtr mu rho a b : mono ndtr -> 0 < a -> a <= b -> b < 2 * PI -> wn_cdf ndtr mu rho a <= wn_cdf ndtr mu rho b.
Proof.
  intros M Ha Hab Hb. pose proof (wn_cdf_range ndtr mu rho a ltac:(lra)) as Ra.
  destruct (close_2pi b) eqn:Eb.
  - apply Rle_trans with 1; [lra|]. unfold wn_cdf. cbv zeta. rewrite Eb. destruct (Rleb rho _); lra.
  - destruct (close_2pi a) eqn:Ea; [rewrite (close_2pi_up a b Hab Hb Ea) in Eb; discriminate|].
    unfold wn_cdf. cbv zeta. rewrite Ea, Eb. destruct (Rleb rho _).
    + pose proof PI_RGT_0. apply Rmult_le_compat_r; [apply Rlt_le, Rinv_0_lt_compat; lra|exact Hab].
    + apply wn_cp_mono; [exact M|apply wn_sigma_pos|lra].
Qed.
Lemma wn_public_mono ndtr mu rho a b u v : mono ndtr -> wn_ok mu rho = true -> 0 <= a -> a <= b -> b <= 2 * PI ->
  public_cdf (wn_ok mu rho) (wn_cdf ndtr mu rho) a = Fin u -> public_cdf (wn_ok mu rho) (wn_cdf ndtr mu rho) b = Fin v ->
  0 <= u /\ u <= v /\ v <= 1.
Proof.
  intros M -> Ha Hab Hb. rewrite !public_cdf_fin. intros E1 E2. injection E1 as <-. injection E2 as <-. unfold pub_F. rewrite !wrap_in by lra.
  assert (G : forall y, 0 < y < 2 * PI -> 0 <= wn_cdf ndtr mu rho y <= 1) by (intros; apply wn_cdf_range; assumption).
  destruct (Rleb_spec (2 * PI) a), (Rleb_spec (2 * PI) b), (Rltb_spec 0 a), (Rltb_spec 0 b); try lra.
  - pose proof (G a ltac:(lra)). lra.
  - pose proof (G a ltac:(lra)). pose proof (G b ltac:(lra)). pose proof (wn_cdf_mono ndtr mu rho a b M ltac:(lra) Hab ltac:(lra)). lra.
  - pose proof (G b ltac:(lra)). lra.
Qed.

(** ** The moment fit *)
Lemma wn_fit_spec s mu rho : wn_fit_moments s = Ok (mu, rho) ->
  let C := Rsum (map (fun p => snd p * cos (fst p)) s) / Rsum (map snd s) in
  let S := Rsum (map (fun p => snd p * sin (fst p)) s) / Rsum (map snd s) in
  wn_ok mu rho = true /\ rho = Rmin (Rmax (sqrt (C ^ 2 + S ^ 2)) (/ 10 ^ 9)) (1 - / 10 ^ 9) /\
  (/ 10 ^ 9 <= sqrt (C ^ 2 + S ^ 2) <= 1 - / 10 ^ 9 -> rho * cos mu = C /\ rho * sin mu = S).
Proof.
  intros E. cbv zeta. unfold wn_fit_moments in E. destruct s as [|p0 s0]; [discriminate|]. set (s := p0 :: s0) in *.
  destruct (existsb _ s) eqn:Ex; [discriminate|]. destruct (Rleb (wtotal s) 0) eqn:Ew; [discriminate|]. apply Rleb_false in Ew.
  cbv zeta in E. set (s' := map (fun p => (wrap_angles (fst p), snd p)) s) in *.
  assert (W' : wtotal s' = wtotal s) by apply wrap_total.
  destruct (wrap_moment s 1 0) as [M1 M2]. fold s' in M1, M2.
  set (C := Rsum (map (fun p => snd p * cos (fst p)) s)). set (S := Rsum (map (fun p => snd p * sin (fst p)) s)). change (Rsum (map snd s)) with (wtotal s).
  assert (C1 : Csum s' = C).
  { unfold Csum, C. transitivity (Rsum (map (fun x => snd x * cos (INR 1 * (fst x - 0))) s')); [|rewrite M1]; apply Rsum_ext_map; intros p _; cbn [INR]; f_equal; f_equal; ring. }
  assert (S1 : Ssum s' = S).
  { unfold Ssum, S. transitivity (Rsum (map (fun x => snd x * sin (INR 1 * (fst x - 0))) s')); [|rewrite M2]; apply Rsum_ext_map; intros p _; cbn [INR]; f_equal; f_equal; ring. }
  assert (Rs : circ_r_s s' = sqrt ((C / wtotal s) ^ 2 + (S / wtotal s) ^ 2)).
  { unfold circ_r_s. rewrite compute_C_eq, compute_S_eq, C1, S1, W'. reflexivity. }
  pose proof PI2_pos as Hp.
  assert (En : snd (circ_mean_and_r_s s') = circ_r_s s') by (unfold circ_mean_and_r_s; cbv zeta; destruct (isclose12 _ _); reflexivity).
  destruct (circ_mean_and_r_s s') as [m r] eqn:Em. cbn [snd] in En. subst r.
  assert (E1 : wrap_direction (pymod match m with Fin m => m | _ => 0 end (2 * PI)) = mu) by congruence.
  assert (E2 : clip (circ_r_s s') (/ 10 ^ 9) (1 - / 10 ^ 9) = rho) by congruence. subst mu rho. clear E.
  assert (Rr : / 10 ^ 9 <= clip (circ_r_s s') (/ 10 ^ 9) (1 - / 10 ^ 9) <= 1 - / 10 ^ 9) by (apply clip_range; lra).
  split; [|split].
  - apply wn_ok_intro; [unfold wrap_direction; apply wrap_range|lra].
  - rewrite <- Rs. reflexivity.
  - rewrite <- Rs. intros B. rewrite clip_in by exact B.
    destruct (circ_mean_and_r_s_cases s') as [[Hr Ec]|[Hr Ec]]; rewrite Ec in Em; [lra|]. injection Em as <-.
    destruct (mean_dir_polar s' ltac:(lra) ltac:(lra)) as (P1 & P2 & P3). rewrite C1 in P1. rewrite S1 in P2.
    set (mm := wrap_direction _).
    assert (D : same_dir mm (mean_dir s')).
    { unfold mm, wrap_direction. eapply same_dir_trans; [apply wrap_same|]. apply pymod_same_dir. }
    rewrite (same_dir_cos _ _ D), (same_dir_sin _ _ D), circ_r_s_eq, W' by lra. rewrite P1, P2. split; field; lra.
Qed.

(** ** A density when rho is not large *)
Lemma wn_pos_small mu rho x : 0 <= rho <= 1 / 3 -> 0 < wn_pdf mu rho x.
Proof.
  intros Hr. rewrite wn_cpoly. unfold cpoly. pose proof PI_RGT_0.
  assert (G : forall m, - (1 / 2) * (1 - (1 / 3) ^ m) <= Rsum (map (fun p => rho ^ (p ^ 2) * cos (INR p * (x - mu))) (seq 1 m))).
  { induction m as [|m IH]; [cbn; lra|]. rewrite seq_S, map_app, Rsum_app. cbn [map]. unfold Rsum at 2. cbn [fold_right].
    assert (B : - (1 / 3) ^ (S m) <= rho ^ ((1 + m) ^ 2) * cos (INR (1 + m) * (x - mu))).
    { pose proof (COS_bound (INR (1 + m) * (x - mu))) as [C1 _]. pose proof (pow_le rho ((1 + m) ^ 2) ltac:(lra)) as P0.
      assert (rho ^ ((1 + m) ^ 2) <= (1 / 3) ^ S m); [|nra].
      apply Rle_trans with (rho ^ S m); [|apply pow_incr; lra].
      replace ((1 + m) ^ 2)%nat with (S m + (S m * m))%nat by (cbn [Nat.pow]; lia). rewrite pow_add.
      pose proof (pow_le rho (S m) ltac:(lra)). pose proof (pow_incr rho 1 (S m * m) ltac:(lra)) as Q. rewrite pow1 in Q. nra. }
    cbn [pow] in B |- *. lra. }
  specialize (G 29%nat). pose proof (pow_lt (1 / 3) 29 ltac:(lra)). apply Rmult_lt_0_compat; [lra|apply Rinv_0_lt_compat; lra].
Qed.
