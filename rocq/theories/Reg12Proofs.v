(** Likelihoods of the circular-linear regression. *)
From Verif Require Import Prelude NpModel NpProofs UtilsModel CircleSpec IntSpec IntProofs VonSpec VonProofs Von2Proofs Von4Proofs RegModel RegSpec RegClSpec RegProofs Reg2Proofs Reg3Proofs Reg4Proofs Em5Proofs Reg10Proofs Reg11Proofs.

(** What a result reports. *)
Definition cl_loc (m : cl_type) (f : fit) : list R -> R :=
  match m with Kappa => fun _ => f_mu f | _ => tan_link (f_mu f) (p_beta (f_par f)) end.
Definition cl_conc (m : cl_type) (f : fit) : list R -> R :=
  match m with Mean => fun _ => match f_kappa f with One k => k | Each _ => 0 end | _ => log_link (p_alpha (f_par f)) (p_gamma (f_par f)) end.

Lemma loglik_sum iv loc conc theta rows : is_iv iv ->
  vm_loglik iv (under loc conc theta rows) =
  Rsum (map (fun o => conc (snd o) * cos (fst o - loc (snd o)) - ln (iv 0%nat (conc (snd o)))) (combine theta rows)) - INR (length (combine theta rows)) * ln (2 * PI).
Proof.
  intros H. unfold vm_loglik, under. rewrite map_map. pose proof PI_RGT_0.
  rewrite (Rsum_map_ext _ (fun o => (conc (snd o) * cos (fst o - loc (snd o)) - ln (iv 0%nat (conc (snd o)))) - ln (2 * PI))).
  - rewrite Rsum_map_minus, Rsum_map_const. ring.
  - intros o _. pose proof (i0_pos iv (conc (snd o)) H). unfold Rdiv. rewrite ln_mult; [|apply exp_pos|apply Rinv_0_lt_compat; apply Rmult_lt_0_compat; lra].
    rewrite ln_exp, ln_Rinv by (apply Rmult_lt_0_compat; lra). rewrite ln_mult by lra. ring.
Qed.
Lemma mean_ll_lik iv theta (rows : list (list R)) b mu k : is_iv iv ->
  mean_ll (iv 0%nat) (combine theta rows) b mu k = vm_loglik iv (under (tan_link mu b) (fun _ => k) theta rows) + INR (length (combine theta rows)) * ln (2 * PI).
Proof.
  intros H. rewrite loglik_sum by auto. unfold mean_ll, obs, vec. rewrite Rsum_map_minus, Rsum_map_const, Rsum_map_scal.
  rewrite (Rsum_map_ext (fun o => cos (fst o - tan_link mu b (snd o))) (fun o => cos (rdev b o - mu))); [ring|].
  intros o _. unfold tan_link, rdev. rewrite dot_inner. unfold vec in *. f_equal. ring.
Qed.
Lemma conc_ll_lik iv theta (rows : list (list R)) q loc d : is_iv iv -> (forall o, In o (combine theta rows) -> d o = fst o - loc (snd o)) ->
  conc_ll (iv 0%nat) (combine theta rows) q d = vm_loglik iv (under loc (log_link (p_alpha q) (p_gamma q)) theta rows) + INR (length (combine theta rows)) * ln (2 * PI).
Proof.
  intros H Hd. rewrite loglik_sum by auto. unfold conc_ll, obs, vec. rewrite Rsum_map_minus.
  rewrite (Rsum_map_ext (fun o => log_link (p_alpha q) (p_gamma q) (snd o) * cos (fst o - loc (snd o))) (fun o => kap q o * cos (d o))).
  2:{ intros o Ho. rewrite (Hd o Ho). unfold log_link, kap. now rewrite dot_inner. }
  rewrite (Rsum_map_ext (fun o => ln (iv 0%nat (log_link (p_alpha q) (p_gamma q) (snd o)))) (fun o => ln (iv 0%nat (kap q o)))); [ring|].
  intros o Ho. unfold log_link, kap. now rewrite dot_inner.
Qed.

(** The direction of a weighted resultant maximises the weighted cosines. *)
Lemma dir_max {A} (w d : A -> R) l mu' :
  let mu := arctan2 (Rsum (map (fun o => w o * sin (d o)) l)) (Rsum (map (fun o => w o * cos (d o)) l)) in
  Rsum (map (fun o => w o * cos (d o - mu')) l) <= Rsum (map (fun o => w o * cos (d o - mu)) l).
Proof.
  cbv zeta. set (S := Rsum (map (fun o => w o * sin (d o)) l)). set (C := Rsum (map (fun o => w o * cos (d o)) l)).
  assert (E : forall m, Rsum (map (fun o => w o * cos (d o - m)) l) = C * cos m + S * sin m).
  { intros m. unfold S, C. rewrite <- !Rsum_map_scal_r, <- Rsum_map_plus. apply Rsum_map_ext. intros o _. rewrite cos_minus. ring. }
  rewrite !E. destruct (polar C S) as [E1 E2]. pose proof (hypot_nonneg C S) as HN. generalize dependent (hypot C S). generalize (arctan2 S C). intros a h E1 E2 HN. rewrite <- E1, <- E2.
  pose proof (sin2_cos2 a) as T. unfold Rsqr in T. pose proof (COS_bound (a - mu')) as [_ B]. rewrite cos_minus in B.
  replace (h * cos a * cos mu' + h * sin a * sin mu') with (h * (cos a * cos mu' + sin a * sin mu')) by ring.
  replace (h * cos a * cos a + h * sin a * sin a) with (h * (sin a * sin a + cos a * cos a)) by ring. rewrite T. now apply Rmult_le_compat_l.
Qed.
Lemma arctan2_scale c y x : 0 < c -> arctan2 (c * y) (c * x) = arctan2 y x.
Proof.
  intros Hc. unfold arctan2.
  assert (S1 : forall a, Rltb 0 (c * a) = Rltb 0 a). { intros a. destruct (Rltb_spec 0 (c * a)), (Rltb_spec 0 a); try reflexivity; exfalso; nra. }
  assert (S2 : forall a, Rltb (c * a) 0 = Rltb a 0). { intros a. destruct (Rltb_spec (c * a) 0), (Rltb_spec a 0); try reflexivity; exfalso; nra. }
  assert (S3 : forall a, Rleb 0 (c * a) = Rleb 0 a). { intros a. destruct (Rleb_spec 0 (c * a)), (Rleb_spec 0 a); try reflexivity; exfalso; nra. }
  rewrite !S1, !S2, S3. destruct (Rltb_spec 0 x); [f_equal; field; lra|]. destruct (Rltb_spec x 0); [|reflexivity]. replace (c * y / (c * x)) with (y / x) by (field; lra). reflexivity.
Qed.
Lemma Mres_max b l mu' : l <> [] -> Rsum (map (fun o => cos (rdev b o - mu')) l) <= Rsum (map (fun o => cos (rdev b o - Mres b l)) l).
Proof.
  intros Hl. assert (Hn : 0 < INR (length l)) by (apply lt_0_INR; destruct l; [congruence|cbn; lia]).
  pose proof (dir_max (fun _ : obs => 1) (rdev b) l mu') as D. cbv beta zeta in D.
  assert (M : Mres b l = arctan2 (Rsum (map (fun o => 1 * sin (rdev b o)) l)) (Rsum (map (fun o => 1 * cos (rdev b o)) l))).
  { unfold Mres, mean. rewrite !map_length, !Rsum_map_scal. rewrite !Rmult_1_l. unfold Rdiv. rewrite !(Rmult_comm _ (/ INR (length l))). apply arctan2_scale. now apply Rinv_0_lt_compat. }
  rewrite <- M in D. rewrite !Rsum_map_scal in D. lra.
Qed.

(** A result whose values are those of its parameters. *)
Definition settled (m : cl_type) (iv : nat -> R -> R) (theta : list R) (rows : list (list R)) (f : fit) : Prop :=
  f_ll f = vm_loglik iv (under (cl_loc m f) (cl_conc m f) theta rows) + INR (length theta) * ln (2 * PI) /\
  (forall mu', vm_loglik iv (under (match m with Kappa => fun _ => mu' | _ => tan_link mu' (p_beta (f_par f)) end) (cl_conc m f) theta rows) <= vm_loglik iv (under (cl_loc m f) (cl_conc m f) theta rows)) /\
  - PI < f_mu f <= PI /\
  match m with
  | Mean => f_kappa f = One (A1inv (resultant (map (fun o => fst o - 2 * atan (inner (snd o) (p_beta (f_par f)))) (combine theta rows))))
  | _ => f_kappa f = Each (map (cl_conc m f) rows)
  end.
Lemma step_settled m iv solve pinv p theta rows f new : is_iv iv -> cc_data theta p rows ->
  cl_step m (iv 0%nat) (iv 1%nat) solve pinv p (combine theta rows) (f_par f) = Step new (f_mu f) (f_kappa f) (f_ll f) -> settled m iv theta rows f.
Proof.
  intros Hi D E. destruct (data_obs _ _ _ D) as [_ Hne]. destruct D as (L & N & Hr).
  assert (Lc : length (combine theta rows) = length theta) by (rewrite combine_length; lia).
  assert (Cr : forall (F : list R -> R), map (fun o : R * list R => F (snd o)) (combine theta rows) = map F rows).
  { intros F. clear -L. revert rows L. induction theta as [|t theta IH]; intros [|r rows] L; try discriminate; cbn; [reflexivity|]. f_equal. apply IH. cbn in L. lia. }
  destruct m; cbn [cl_step] in E.
  - destruct (mean_step_inv _ _ _ _ _ _ _ _ _ _ _ E) as (Hr1 & Em & k & Ek & Ekr & Ell & _). unfold settled. cbn [cl_loc cl_conc]. rewrite Ek. split; [|split; [|split]].
    + rewrite Ell, mean_ll_lik, Lc by auto. reflexivity.
    + intros mu'. pose proof (mean_ll_lik iv theta rows (p_beta (f_par f)) mu' k Hi) as A. pose proof (mean_ll_lik iv theta rows (p_beta (f_par f)) (f_mu f) k Hi) as B.
      enough (mean_ll (iv 0%nat) (combine theta rows) (p_beta (f_par f)) mu' k <= mean_ll (iv 0%nat) (combine theta rows) (p_beta (f_par f)) (f_mu f) k) by lra.
      unfold mean_ll. apply Rplus_le_compat_l. apply Rmult_le_compat_l; [rewrite Ekr; apply A1inv_nonneg; pose proof (Rres_bounds (p_beta (f_par f)) _ Hne); lra|]. rewrite Em. now apply Mres_max.
    + rewrite Em. apply arctan2_range.
    + rewrite Ekr. do 2 f_equal. set (b := p_beta (f_par f)).
      assert (M : forall g : R -> R, map (fun o => g (rdev b o)) (combine theta rows) = map g (map (fun o => fst o - 2 * atan (inner (snd o) b)) (combine theta rows))).
      { intros g. rewrite map_map. apply map_ext. intros o. unfold rdev. now rewrite dot_inner. }
      unfold Rres, resultant, hypot, mean. rewrite (M sin), (M cos), !map_length. f_equal. ring.
  - destruct (kappa_step_inv _ _ _ _ _ _ _ _ _ _ _ E) as (Em & Ek & Ell & _). unfold settled. cbn [cl_loc cl_conc]. split; [|split; [|split]].
    + rewrite Ell, (conc_ll_lik iv theta rows (f_par f) (fun _ => f_mu f)), Lc by auto. reflexivity.
    + intros mu'. pose proof (conc_ll_lik iv theta rows (f_par f) (fun _ => mu') (fun o => fst o - mu') Hi ltac:(auto)) as A. pose proof (conc_ll_lik iv theta rows (f_par f) (fun _ => f_mu f) (fun o => fst o - f_mu f) Hi ltac:(auto)) as B.
      apply (Rplus_le_reg_r (INR (length (combine theta rows)) * ln (2 * PI))). eapply Rle_trans; [right; symmetry; exact A|]. eapply Rle_trans; [|right; exact B].
      unfold conc_ll. apply Rplus_le_compat_l. rewrite Em. apply (dir_max (kap (f_par f)) fst).
    + rewrite Em. apply arctan2_range.
    + rewrite Ek. f_equal. rewrite <- Cr. apply map_ext. intros o. unfold kap, log_link. now rewrite dot_inner.
  - destruct (mixed_step_inv _ _ _ _ _ _ _ _ _ _ _ E) as (Em & Ek & Ell & _). unfold settled. cbn [cl_loc cl_conc].
    assert (Hd : forall mu o, rdev (p_beta (f_par f)) o - mu = fst o - tan_link mu (p_beta (f_par f)) (snd o)) by (intros mu o; unfold rdev, tan_link; rewrite dot_inner; unfold obs, vec in *; ring).
    split; [|split; [|split]].
    + rewrite Ell, (conc_ll_lik iv theta rows (f_par f) (tan_link (f_mu f) (p_beta (f_par f)))), Lc by auto. reflexivity.
    + intros mu'. pose proof (conc_ll_lik iv theta rows (f_par f) (tan_link mu' (p_beta (f_par f))) (fun o => rdev (p_beta (f_par f)) o - mu') Hi (fun o _ => Hd mu' o)) as A.
      pose proof (conc_ll_lik iv theta rows (f_par f) (tan_link (f_mu f) (p_beta (f_par f))) (fun o => rdev (p_beta (f_par f)) o - f_mu f) Hi (fun o _ => Hd (f_mu f) o)) as B.
      apply (Rplus_le_reg_r (INR (length (combine theta rows)) * ln (2 * PI))). eapply Rle_trans; [right; symmetry; exact A|]. eapply Rle_trans; [|right; exact B].
      unfold conc_ll. apply Rplus_le_compat_l. rewrite Em. apply (dir_max (kap (f_par f)) (rdev (p_beta (f_par f)))).
    + rewrite Em. apply arctan2_range.
    + rewrite Ek. f_equal. rewrite <- Cr. apply map_ext. intros o. unfold kap, log_link. now rewrite dot_inner.
Qed.
Lemma cl_settled iv solve pinv theta p rows mt b0 a0 g0 tol it c c' f : is_iv iv -> cc_data theta p rows ->
  cl_run iv solve pinv theta p rows mt b0 a0 g0 tol it = Ok c -> cl_run iv solve pinv theta p rows mt b0 a0 g0 tol (S it) = Ok c' ->
  cl_fit c = Fitted f -> cl_fit c' = Fitted f -> settled (cl_mt c) iv theta rows f.
Proof.
  intros Hi D E E' Ef Ef'. destruct (cl_run_inv _ _ _ _ _ _ _ _ _ _ _ _ _ D E) as (T & Hb & Hg & _ & _ & El).
  destruct (cl_run_inv _ _ _ _ _ _ _ _ _ _ _ _ _ D E') as (T' & _ & _ & _ & _ & El'). rewrite T in T'. injection T' as T'. rewrite <- T', Ef' in El'. rewrite Ef in El.
  destruct (loop_settled _ _ _ _ _ _ _ El El') as [new En]. exact (step_settled _ _ _ _ _ _ _ _ _ Hi D En).
Qed.
