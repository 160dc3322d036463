(** triangular's diagnostics, and the samplers of circularuniform, triangular and cardioid. *)
From Coq Require Import String.
From Verif Require Import Prelude NpModel NpProofs CircleSpec IntSpec IntProofs DescModel DescProofs CorrModel DistModel DistSpec DistProofs Dist2Proofs Dist3Proofs Dist4Proofs Dist6Proofs Dist7Proofs Dist8Proofs JpProofs Jp8Proofs CwModel CwSpec Cw3Proofs Cw4Proofs FcModel FcSpec FcProofs Fc2Proofs Fc3Proofs.
Import ListNotations.
Open Scope R_scope.
Open Scope list_scope.

(** The triangular density at any angle. *)
Definition tri_at (r x : R) : R := tri_pdf r (pymod x (2 * PI)).
Lemma tri_at_eq r x : tri_at r x = (4 + r * tri_c x) / (8 * PI).
Proof. unfold tri_at, tri_pdf, tri_c. pose proof PI_RGT_0. field. lra. Qed.
Lemma tri_at_pos r x : 0 < tri_at r x -> 0 < 4 + r * tri_c x.
Proof. intros H. rewrite tri_at_eq in H. pose proof PI_RGT_0. replace (4 + r * tri_c x) with ((4 + r * tri_c x) / (8 * PI) * (8 * PI)) by (field; lra). apply Rmult_lt_0_compat; lra. Qed.
Lemma tri_at_public r x : tri_ok r = true -> public_pdf (tri_ok r) (tri_pdf r) x = Fin (tri_at r x).
Proof.
  intros H. rewrite H, public_pdf_fin. f_equal. unfold tri_at, wrap_angles. destruct (Reqb_spec x (2 * PI)) as [->|]; [|reflexivity].
  replace (2 * PI) with (0 + 2 * PI * IZR 1) at 2 by ring. rewrite pymod_add by (pose proof PI2_pos; lra). pose proof PI2_pos. pose proof PI_pos. rewrite pymod_small by lra. unfold tri_pdf. rewrite (Rabs_left1 (PI - 2 * PI)), (Rabs_right (PI - 0)) by lra. f_equal. f_equal. ring.
Qed.
Lemma tri_loglik r s : (forall d, In d s -> 0 < tri_at r (fst d)) ->
  loglik (tri_at r) s = Rsum (map (fun p => snd p * ln (4 - PI ^ 2 * r + 2 * PI * r * Rabs (PI - pymod (fst p) (2 * PI)))) s) - Rsum (map snd s) * ln (8 * PI).
Proof.
  intros H. pose proof PI_RGT_0 as P. unfold loglik. induction s as [|d s IH]; [simpl; ring|]. cbn [map]. rewrite !Rsum_cons. rewrite IH by (intros; apply H; right; assumption). pose proof (tri_at_pos r (fst d) (H d (or_introl eq_refl))) as Q. rewrite tri_at_eq, ln_div_pos by lra. unfold tri_c in *. replace (4 - PI ^ 2 * r + 2 * PI * r * Rabs (PI - pymod (fst d) (2 * PI))) with (4 + r * (2 * PI * Rabs (PI - pymod (fst d) (2 * PI)) - PI ^ 2)) by ring. ring.
Qed.
Lemma tri_info s rho : (forall d, In d s -> 0 <= snd d) -> (forall d, In d s -> 0 < tri_at rho (fst d)) -> forall ll se, tri_diag s rho = (ll, se) ->
  ll = Fin (loglik (tri_at rho) s) /\
  exists L1 I, (forall r, (forall d, In d s -> 0 < tri_at r (fst d)) -> derivable_pt_lim (fun r => loglik (tri_at r) s) r (L1 r)) /\ derivable_pt_lim L1 rho (- I) /\ 0 <= I /\ (0 < I -> se = Fin (1 / sqrt I)) /\ (I = 0 -> se = NaN).
Proof.
  intros Hw H ll se. pose proof PI_RGT_0 as P. unfold tri_diag. assert (B : forall f : R * R -> bool, existsb (fun p => Rleb (4 + rho * tri_c (fst p)) 0 && f p) s = false).
  { intros f. apply not_true_is_false. intros B. apply existsb_exists in B. destruct B as (d & D1 & D2). apply andb_prop in D2. destruct D2 as [D2 _]. apply Rleb_true in D2. pose proof (tri_at_pos _ _ (H d D1)). lra. }
  rewrite (B (fun p => Rleb (snd p) 0)). assert (B2 : existsb (fun p => Rleb (4 + rho * tri_c (fst p)) 0) s = false).
  { rewrite <- (B (fun _ => true)). f_equal. apply FunctionalExtensionality.functional_extensionality. intros p. rewrite andb_true_r. reflexivity. }
  rewrite B2. intros E. assert (E1 := f_equal fst E). assert (E2 := f_equal snd E). cbn [fst snd] in E1, E2. split; [rewrite <- E1, tri_loglik by exact H; reflexivity|].
  set (I := Rsum (map (fun p => snd p * tri_c (fst p) ^ 2 / (4 + rho * tri_c (fst p)) ^ 2) s)) in *. exists (fun r => Rsum (map (fun p => snd p * (tri_c (fst p) / (4 + r * tri_c (fst p)))) s)), I. split; [|split; [|split; [|split]]].
  - intros r Hr. unfold loglik. apply (dlim_Rsum (fun p r => snd p * ln (tri_at r (fst p)))). intros d Hd. pose proof (tri_at_pos _ _ (Hr d Hd)) as Q. eapply dlim_eq; [|apply dlim_scal, dlim_ln; [exact (Hr d Hd)|]].
    2:{ apply (dlim_ext_loc (fun r => (4 + r * tri_c (fst d)) / (8 * PI)) _ r _ (r - 1) (r + 1)); [lra|intros; symmetry; apply tri_at_eq|apply dlim_divc, dlim_plus; [apply dlim_const|apply dlim_mult; [apply dlim_id|apply dlim_const]]]. }
    cbv beta. rewrite tri_at_eq. field. split; lra.
  - unfold I. rewrite <- Rsum_map_opp. apply (dlim_Rsum (fun p r => snd p * (tri_c (fst p) / (4 + r * tri_c (fst p))))). intros d Hd. pose proof (tri_at_pos _ _ (H d Hd)) as Q. eapply dlim_eq; [|apply dlim_scal; apply derivable_pt_lim_div; [apply dlim_const|apply dlim_plus; [apply dlim_const|apply dlim_mult; [apply dlim_id|apply dlim_const]]|cbv beta; lra]].
    cbv beta. unfold Rsqr. field. lra.
  - unfold I. apply Rsum_map_nonneg. intros d Hd. pose proof (tri_at_pos _ _ (H d Hd)) as Q. apply Rmult_le_pos; [|apply Rlt_le, Rinv_0_lt_compat, pow_lt, Q]. apply Rmult_le_pos; [apply Hw, Hd|apply pow2_ge_0].
  - intros K. rewrite <- E2. rewrite (proj2 (Rltb_true 0 I) K). reflexivity.
  - intros K. rewrite <- E2. rewrite K. rewrite (proj2 (Rltb_false 0 0)) by lra. reflexivity.
Qed.
Lemma tri_fit_checks root method s : (exists d, In d s /\ snd d < 0) \/ Rsum (map snd s) <= 0 -> tri_fit root method s = Err ValueError.
Proof.
  intros H. unfold tri_fit, tri_fit_moments, tri_fit_mle. assert (E : (if existsb (fun p => Rltb (snd p) 0) s then true else Rleb (Rsum (map snd s)) 0) = true).
  { destruct (existsb (fun p => Rltb (snd p) 0) s) eqn:Ew; [reflexivity|]. destruct H as [(p & Hp & L)|H]; [|apply Rleb_true, H]. exfalso. assert (B : existsb (fun p => Rltb (snd p) 0) s = true) by (apply existsb_exists; exists p; split; [exact Hp|apply Rltb_true; exact L]). congruence. }
  destruct (existsb _ s); [destruct (String.eqb _ _); reflexivity|]. rewrite E. destruct (String.eqb _ _); reflexivity.
Qed.
Lemma tri_ok_intro rho : 0 <= rho <= 4 / PI ^ 2 -> tri_ok rho = true.
Proof. intros. unfold tri_ok. apply andb_true_intro; split; apply Rleb_true; lra. Qed.
Lemma four_pi2 : 0 < 4 / PI ^ 2. Proof. apply Rdiv_lt_0_compat; [lra|apply pow_lt, PI_RGT_0]. Qed.
Lemma tri_fit_spec root method s rho ll se n :
  (0 < tri_score s 0 -> tri_score s tri_hi < 0 -> 0 <= root (tri_score s) 0 tri_hi <= tri_hi /\ tri_score s (root (tri_score s) 0 tri_hi) = 0) ->
  tri_fit root method s = Ok (rho, ll, se, n) ->
  tri_ok rho = true /\ n = Rsum (map snd s) ^ 2 / Rsum (map (fun d => snd d ^ 2) s) /\
  ((forall d, In d s -> 0 < tri_at rho (fst d)) ->
     ll = Fin (loglik (tri_at rho) s) /\
     exists L1 I, (forall r, (forall d, In d s -> 0 < tri_at r (fst d)) -> derivable_pt_lim (fun r => loglik (tri_at r) s) r (L1 r)) /\ derivable_pt_lim L1 rho (- I) /\ 0 <= I /\ (0 < I -> se = Fin (1 / sqrt I)) /\ (I = 0 -> se = NaN)) /\
  ((exists d, In d s /\ 0 < snd d /\ tri_at rho (fst d) = 0) -> (forall d, In d s -> 0 < snd d) -> ll = NInf /\ se = Fin 0).
Proof.
  intros HR. unfold tri_fit. pose proof four_pi2 as F. destruct (if String.eqb method "moments" then tri_fit_moments s else tri_fit_mle root s) as [r|] eqn:Er; [|discriminate]. cbv beta iota delta [bind]. destruct (tri_diag s r) as [l e] eqn:Ed. intros E. injection E as <- <- <- <-.
  assert (W : tri_ok r = true /\ forall d, In d s -> 0 <= snd d).
  { destruct (String.eqb method "moments").
    - unfold tri_fit_moments in Er. destruct (existsb (fun p => Rltb (snd p) 0) s) eqn:EN; [discriminate|]. destruct (Rleb _ _); [discriminate|]. injection Er as <-. split; [|exact (existsb_neg _ EN)]. apply tri_ok_intro. apply clip_range. lra.
    - destruct (tri_fit_max root s r HR Er) as [G _]. split; [apply tri_ok_intro; unfold tri_hi in G; pose proof e12; lra|]. unfold tri_fit_mle in Er. destruct (existsb (fun p => Rltb (snd p) 0) s) eqn:EN; [discriminate|]. exact (existsb_neg _ EN). }
  destruct W as [W1 W2]. split; [exact W1|]. split; [reflexivity|]. split.
  - intros H. exact (tri_info s r W2 H l e Ed).
  - intros (d & D1 & D2 & D3) Hp. unfold tri_diag in Ed. pose proof PI_RGT_0 as P. assert (B1 : existsb (fun p => Rleb (4 + r * tri_c (fst p)) 0 && Rleb (snd p) 0) s = false).
    { apply not_true_is_false. intros B. apply existsb_exists in B. destruct B as (q & Q1 & Q2). apply andb_prop in Q2. destruct Q2 as [_ Q2]. apply Rleb_true in Q2. pose proof (Hp q Q1). lra. }
    assert (B2 : existsb (fun p => Rleb (4 + r * tri_c (fst p)) 0) s = true).
    { apply existsb_exists. exists d. split; [exact D1|]. apply Rleb_true. right. rewrite tri_at_eq in D3. replace (4 + r * tri_c (fst d)) with ((4 + r * tri_c (fst d)) / (8 * PI) * (8 * PI)) by (field; lra). rewrite D3. ring. }
    rewrite B1, B2 in Ed. injection Ed as <- <-. split; reflexivity.
Qed.
Lemma tri_fit_mom root s rho ll se n : tri_fit root "moments" s = Ok (rho, ll, se, n) ->
  let c := Rsum (map (fun d => snd d * cos (fst d)) s) / Rsum (map snd s) in
  rho = clip c 0 (4 / PI ^ 2) /\ (0 <= c <= 4 / PI ^ 2 -> trig_moment_of (tri_at rho) 1 c 0).
Proof.
  intros E c. revert E. unfold tri_fit. change (String.eqb "moments" "moments") with true. cbv iota. unfold tri_fit_moments. destruct (existsb (fun p => Rltb (snd p) 0) s); [discriminate|]. destruct (Rleb_spec (Rsum (map snd s)) 0) as [W|W]; [discriminate|]. cbv beta iota delta [bind]. match goal with |- context [tri_diag s ?x] => set (r := x) end. destruct (tri_diag s r). intros E. injection E as <- <- <- <-.
  assert (Ec : r = clip c 0 (4 / PI ^ 2)).
  { unfold r. f_equal. replace c with (/ Rsum (map snd s) * Rsum (map (fun d => snd d * cos (fst d)) s)) by (unfold c, Rdiv; ring). rewrite <- Rsum_scal_map. apply Rsum_ext_map. intros d _. destruct (pymod_same_dir (fst d)) as [k Ek]. assert (Q : cos (pymod (fst d) (2 * PI)) = cos (fst d)) by (apply same_dir_cos, pymod_same_dir). rewrite Q. unfold Rdiv. ring. }
  split; [exact Ec|]. intros K. rewrite clip_in in Ec by exact K. rewrite <- Ec. assert (Hok : tri_ok r = true) by (apply tri_ok_intro; lra). apply tri_moment; [exact Hok|]. intros x. apply tri_at_public, Hok.
Qed.
Lemma tri_fit_any_method : exists root method s r, method <> "mle"%string /\ method <> "moments"%string /\ tri_fit root method s = Ok r.
Proof.
  exists (fun _ a _ => a), "median"%string, [(PI, 1)]. assert (E : exists r, tri_fit_mle (fun _ a _ => a) [(PI, 1)] = Ok r).
  { unfold tri_fit_mle. cbn [existsb map snd]. rewrite (proj2 (Rltb_false 1 0)) by lra. cbn [orb]. rewrite Rsum_cons, Rsum_nil. rewrite (proj2 (Rleb_false (1 + 0) 0)) by lra. destruct (Rleb _ 0); [eexists; reflexivity|]. destruct (Rleb 0 _); eexists; reflexivity. }
  destruct E as [r E]. unfold tri_fit. change (String.eqb "median" "moments") with false. cbv iota. rewrite E. cbv beta iota delta [bind]. destruct (tri_diag _ _). eexists. split; [discriminate|]. split; [discriminate|reflexivity].
Qed.

(** ** The samplers *)
Lemma cu_sampler : samples_from cu_rvs cu_pdf.
Proof.
  pose proof PI_RGT_0 as P. exists (fun u => u). split; [auto|]. split; [auto|]. split; [intros; apply same_dir_refl|]. intros u v H. apply (integral_val _ _ _ (v / (2 * PI) - u / (2 * PI))); [field; lra|].
  apply (ftc cu_pdf (fun x => x / (2 * PI))); [exact H| |]; intros x _.
  - apply cont_const.
  - unfold cu_pdf. apply dlim_divc, dlim_id.
Qed.
Lemma tri_sampler rho u : tri_ok rho = true -> 0 < u < 1 -> exists x p, tri_rvs (Some rho) u = Ok x /\ 0 <= x <= 2 * PI /\ integral (tri_pdf rho) 0 x p /\ Rabs (p - u) <= / 10 ^ 12 /\ (/ 10 ^ 12 < rho -> u <= 1 - / 10 ^ 15 -> p = u).
Proof.
  intros Hok Hu. destruct (tri_inverse rho u Hok ltac:(lra)) as (x & p & E & Hx & Ec & B1 & B2). exists x, p. rewrite Hok in E, Ec. unfold public_ppf in E. cbn [negb] in E. rewrite (proj2 (Rltb_true 0 u)), (proj2 (Rltb_true u 1)) in E by lra. cbn [andb] in E. injection E as E. unfold tri_rvs. rewrite E. split; [reflexivity|]. split; [exact Hx|]. split; [|split; assumption].
  rewrite public_cdf_fin in Ec. injection Ec as Ec. rewrite (pub_F_eq _ (tri_G rho)) in Ec; [|apply tri_G_0|apply tri_G_2pi|intros y Hy; apply tri_cdf_G; exact Hy|exact Hx]. apply (integral_val _ _ _ (tri_G rho x - tri_G rho 0)); [rewrite tri_G_0; lra|]. apply ftc; [lra|intros; apply tri_pdf_cont|intros; apply tri_G_d].
Qed.
Lemma car_sampler mu rho u v : 0 <= rho <= 1 / 2 -> 0 <= u <= 1 -> 0 <= v <= 2 * PI ->
  exists x p, car_rvs (Some mu) (Some rho) u v = Ok x /\ 0 <= x <= 2 * PI /\ integral (car_pdf mu rho) 0 x p /\
    (rho <= / 10 ^ 15 -> Rabs (p - v / (2 * PI)) <= / 10 ^ 15) /\ (/ 10 ^ 15 < rho -> Rabs (p - u) <= / 2 ^ 32).
Proof.
  intros Hr Hu Hv. pose proof PI_RGT_0 as P. pose proof PI_gt3 as P3.
  assert (F : forall x, 0 <= x -> integral (car_pdf mu rho) 0 x (car_cdf mu rho x)).
  { intros x Hx. apply (integral_val _ _ _ (car_cdf mu rho x - car_cdf mu rho 0)); [rewrite car_cdf_0; lra|]. apply ftc; [lra|intros; apply car_pdf_cont|intros; apply car_cdf_d]. }
  unfold car_rvs. rewrite (proj2 (Rleb_true 0 rho)), (proj2 (Rleb_true rho (1 / 2))) by lra. cbn [andb negb]. unfold close_0, isclose_tol. replace (rho - 0) with rho by ring. rewrite Rabs_R0, (Rabs_right rho) by lra. rewrite Rmult_0_r, Rplus_0_r. destruct (Rleb_spec rho (/ 10 ^ 15)) as [C|C].
  - exists v, (car_cdf mu rho v). split; [reflexivity|]. split; [exact Hv|]. split; [apply F; lra|]. split; [intros _|intros; lra]. unfold car_cdf. replace ((v + 2 * rho * (sin (v - mu) + sin mu)) / (2 * PI) - v / (2 * PI)) with (rho * ((sin (v - mu) + sin mu) / PI)) by (field; lra). rewrite Rabs_mult, (Rabs_right rho) by lra.
    assert (B : Rabs ((sin (v - mu) + sin mu) / PI) <= 1).
    { pose proof (SIN_bound (v - mu)). pose proof (SIN_bound mu). unfold Rdiv. rewrite Rabs_mult, (Rabs_right (/ PI)) by (apply Rle_ge, Rlt_le, Rinv_0_lt_compat, P). apply Rmult_le_reg_r with PI; [lra|]. rewrite Rmult_assoc, Rinv_l by lra. rewrite Rmult_1_r. apply Rle_trans with 2; [apply Rabs_le; lra|lra]. }
    pose proof (Rabs_pos ((sin (v - mu) + sin mu) / PI)). nra.
  - destruct (car_solve_spec (pymod mu (2 * PI)) rho u Hr Hu) as [A B]. exists (car_solve (pymod mu (2 * PI)) rho u), (car_cdf mu rho (car_solve (pymod mu (2 * PI)) rho u)). split; [reflexivity|]. split; [exact A|]. split; [apply F; lra|]. split; [intros; lra|intros _].
    rewrite <- (car_cdf_turn mu (pymod mu (2 * PI))); [exact B|]. apply pymod_same_dir.
Qed.
Lemma car_rvs_rejects mu rho u v : (mu = None \/ rho = None \/ exists r, rho = Some r /\ ~ 0 <= r <= 1 / 2) -> car_rvs mu rho u v = Err ValueError.
Proof.
  intros [->|[->|(r & -> & N)]]; unfold car_rvs; [reflexivity|destruct mu; reflexivity|]. destruct mu as [m|]; [|reflexivity]. destruct (Rleb_spec 0 r); [|reflexivity]. destruct (Rleb_spec r (1 / 2)); [|reflexivity]. exfalso. apply N. lra.
Qed.
Lemma tri_rvs_unchecked : exists rho, tri_ok rho = false /\ forall u, exists x, tri_rvs (Some rho) u = Ok x.
Proof.
  exists 1. split; [|intros u; eexists; reflexivity]. unfold tri_ok. rewrite (proj2 (Rleb_true 0 1)) by lra. cbn [andb]. apply Rleb_false. pose proof PI_gt3 as P. apply Rmult_lt_reg_r with (PI ^ 2); [apply pow_lt; lra|]. unfold Rdiv. rewrite Rmult_assoc, Rinv_l by (apply pow_nonzero; lra). simpl. nra.
Qed.
