From Verif Require Import Prelude NpModel NpProofs CircleSpec UtilsModel UtilsProofs DescModel Desc2Model DescProofs
  DescSpec DescApi DescApi2 HypProofs HypMultiModel HypMulti2Model HypMultiSpec HypMultiProofs HypMulti7Proofs
  CorrSpec CorrProofs Corr2Proofs Corr4Proofs Corr6Proofs ClusModel ClusSpec ClusProofs Clus2Proofs Clus3Proofs Clus4Proofs Clus6Proofs Clus8Proofs
  EmModel EmSpec EmProofs Em2Proofs Em3Proofs Em4Proofs Em5Proofs Em6Proofs Em7Proofs Em8Proofs Em9Proofs Em10Proofs.

(** * Turning the data of MovM *)
Lemma mr_moved_w t a a' w : valid_sample a w -> moved t a a' ->
  turned_fl t (fst (circ_mean_and_r a w)) (fst (circ_mean_and_r a' w)) /\ snd (circ_mean_and_r a' w) = snd (circ_mean_and_r a w).
Proof.
  intros V M. assert (T : turned (map (fun x => x + t) a) a').
  { clear V. induction M as [|x x' a a' H M IH]; cbn; constructor; auto. }
  destruct (api_turned _ _ w T) as (_ & E & _). rewrite <- E. unfold circ_mean_and_r. fold (smp a w) (smp (map (fun x => x + t) a) w). rewrite smp_shift.
  pose proof (smp_pos _ _ V) as P.
  destruct (circ_mean_and_r_s_cases (smp a w)) as [[A ->]|[A ->]]; destruct (circ_mean_and_r_s_cases (rot t (smp a w))) as [[B ->]|[B ->]]; rewrite circ_r_rot in * by exact P; try lra; cbn [fst snd]; split; auto.
  - left; auto.
  - right. eexists. eexists. split; [reflexivity|]. split; [reflexivity|]. rewrite mean_dir_rot by lra. apply same_dir_sym, angmod0_same_dir.
Qed.
Definition in_turn (x : fl) : Prop := forall m, x = Fin m -> 0 <= m <= 2 * PI.
Definition vrel (t : R) (c c' : vm) : Prop :=
  turned_fl t (vm_mu c) (vm_mu c') /\ vm_r c' = vm_r c /\ vm_kappa c' = vm_kappa c /\ in_turn (vm_mu c) /\ in_turn (vm_mu c').
Lemma mr_in_turn a w : in_turn (fst (circ_mean_and_r a w)).
Proof.
  intros m. unfold circ_mean_and_r. destruct (circ_mean_and_r_s_cases (combine a (weights a w))) as [[_ ->]|[_ ->]]; [discriminate|].
  cbn [fst]. intros E. injection E as <-. pose proof (mean_dir_range (combine a (weights a w))). lra.
Qed.
Lemma ld_rel I0 t c c' x x' : vrel t c c' -> same_dir (x + t) x' -> vm_ld I0 c' x' = vm_ld I0 c x.
Proof.
  intros (T & _ & Ek & U & U') H. unfold vm_ld. rewrite Ek. destruct T as [[-> ->]|(m & m' & E & E' & D)]; [reflexivity|].
  rewrite E, E'. specialize (U m E). specialize (U' m' E'). destruct (vm_kappa c) as [k| | |]; auto.
  rewrite (proj2 (Rleb_true 0 m)), (proj2 (Rleb_true 0 m')), (proj2 (Rleb_true m (2 * PI))), (proj2 (Rleb_true m' (2 * PI))) by lra.
  destruct (Rltb 0 k); cbn [andb]; auto.
  destruct H as [i Hi], D as [j Hj]. rewrite (same_dir_cos (x' - m') (x - m)); [reflexivity|]. exists (j - i)%Z. rewrite minus_IZR. lra.
Qed.
Lemma log_col_rel I0 t p cs cs' x x' : Forall2 (vrel t) cs cs' -> same_dir (x + t) x' ->
  log_col wt32 (vm_ld I0) p cs' x' = log_col wt32 (vm_ld I0) p cs x.
Proof.
  intros F H. unfold log_col, map2. revert p. induction F as [|c c' cs cs' R F IH]; intros [|q p]; cbn [combine map]; auto.
  rewrite IH. cbn [fst snd]. now rewrite (ld_rel I0 t c c' x x').
Qed.
Lemma gammas_rel I0 t p cs cs' a a' : Forall2 (vrel t) cs cs' -> moved t a a' ->
  gammas wt32 (vm_ld I0) p cs' a' = gammas wt32 (vm_ld I0) p cs a /\ nll wt32 (vm_ld I0) p cs' a' = nll wt32 (vm_ld I0) p cs a.
Proof.
  intros F M. split; [|unfold nll; f_equal; f_equal]; induction M as [|x x' a a' H M IH]; cbn [gammas map]; auto.
  - unfold gammas in *. cbn [map]. rewrite IH. f_equal. now rewrite (log_col_rel I0 t p cs cs' x x').
  - rewrite IH. f_equal. now rewrite (log_col_rel I0 t p cs cs' x x').
Qed.
Lemma update_rel t a a' c c' w : a <> [] -> moved t a a' -> vrel t c c' ->
  In NaN w \/ (exists qs, w = map Fin qs /\ Forall (fun q => 0 < q) qs /\ length qs = length a) ->
  vrel t (vm_update a c w) (vm_update a' c' w).
Proof.
  intros N M (T & Er & Ek & U & U') H. unfold vm_update. destruct H as [H|(qs & -> & P & L)].
  - rewrite fsum_nan by auto. split; [left; auto|]. split; [reflexivity|]. split; [reflexivity|]. split; intros ? E; discriminate E.
  - rewrite fsum_fin. destruct (isclose (Rsum qs) 0).
    + split; [exact T|]. split; [reflexivity|]. split; [reflexivity|]. split; assumption.
    + rewrite fval_fin. assert (V : valid_sample a (Some qs)).
      { split; auto. split; auto. split; [eapply Forall_impl; [|exact P]; cbn; intros; lra|]. apply pos_sum; auto. intros ->. destruct a; [congruence|discriminate]. }
      destruct (mr_moved_w t a a' (Some qs) V M) as [A B]. pose proof (mr_in_turn a (Some qs)) as I1. pose proof (mr_in_turn a' (Some qs)) as I2.
      destruct (circ_mean_and_r a (Some qs)) as [m r], (circ_mean_and_r a' (Some qs)) as [m' r']. cbn [fst snd] in *. subst r'.
      split; [exact A|]. split; [reflexivity|]. split; [reflexivity|]. split; assumption.
Qed.
Lemma F2_len {A B} (P : A -> B -> Prop) l l' : Forall2 P l l' -> length l' = length l.
Proof. induction 1; cbn; auto. Qed.
Lemma moved_ne t a a' : moved t a a' -> a <> [] -> a' <> [].
Proof. intros M N Z. subst. inversion M. congruence. Qed.
Lemma step_rel I0 K t a a' p cs cs' : (forall x, 0 < I0 x) -> a <> [] -> moved t a a' -> (1 <= K)%nat -> inv K (p, cs) -> Forall2 (vrel t) cs cs' ->
  exists q ds ds' v, movm_step I0 K a (p, cs) = Ok ((q, ds), v) /\ movm_step I0 K a' (p, cs') = Ok ((q, ds'), v) /\ Forall2 (vrel t) ds ds'.
Proof.
  intros HI N M HK (L1 & L2 & D) F. unfold movm_step. destruct (gammas_rel I0 t p cs cs' a a' F M) as [-> ->].
  pose proof (F2_len _ _ _ F) as LF. cbn [fst snd] in *.
  set (g := gammas wt32 (vm_ld I0) p cs a). eexists. eexists. eexists. eexists. split; [reflexivity|]. split; [reflexivity|].
  assert (Lg : Forall (fun col => length col = K) g) by (rewrite <- L2; apply gammas_lengths; congruence).
  assert (Ng : g <> []) by (unfold g, gammas; intros Z; apply map_eq_nil in Z; auto).
  assert (W : forall c, (c < K)%nat -> In NaN (row g c) \/ exists qs, row g c = map Fin qs /\ Forall (fun q => 0 < q) qs /\ length qs = length a).
  { intros c Hc. assert (Bad : In NaN p \/ (exists c, In c cs /\ lost c) -> In NaN (row g c)).
    { intros B. apply (row_undefined g K); auto. apply gamma_undefined; [congruence|]. destruct B as [B|(d & B & B')]; [left; auto|right; exists d; split; auto; intros; now apply lost_ld]. }
    assert (Nc : cs <> []) by (intros ->; cbn in L2; lia).
    destruct D as [[S F']|[S F']]; [|left; apply Bad; left; apply undef_in; auto; intros Z; rewrite Z in L1; cbn in L1; lia].
    destruct (sound_or_lost cs F') as [Fs|Fl]; [|left; auto]. right.
    assert (GS : Forall shares g).
    { apply gamma_shares; auto; [congruence|]. eapply Forall_impl; [|exact (sounds_log I0 cs HI Fs)]. cbn. intros d Hd x. destruct (Hd x) as [_ E]. eauto. }
    destruct (row_shares g K c GS Lg Hc) as (qs & E & P). exists qs. split; auto. split; auto.
    rewrite <- (map_length Fin qs), <- E, row_length. apply gammas_length. }
  rewrite LF. clear D L1. assert (G : forall k, (k + length cs = K)%nat -> Forall2 (vrel t)
      (map (fun c : nat * vm => vm_update a (snd c) (row g (fst c))) (combine (seq k (length cs)) cs))
      (map (fun c : nat * vm => vm_update a' (snd c) (row g (fst c))) (combine (seq k (length cs)) cs'))).
  { clear L2 LF Lg Ng. clearbody g. induction F as [|c c' cs cs' R F IH]; intros k Hk; cbn [length seq combine map]; constructor.
    - cbn [fst snd]. apply update_rel; auto. apply W. cbn in Hk. lia.
    - apply IH. cbn in Hk. lia. }
  apply G. lia.
Qed.
Lemma loop_rel I0 K t a a' burnin thr : (forall x, 0 < I0 x) -> a <> [] -> moved t a a' -> (1 <= K)%nat ->
  forall left it p cs cs' hist, inv K (p, cs) -> Forall2 (vrel t) cs cs' ->
  exists q ds ds' h cv, em_loop (movm_step I0 K a) burnin thr left it (p, cs) hist = Ok ((q, ds), h, cv) /\
    em_loop (movm_step I0 K a') burnin thr left it (p, cs') hist = Ok ((q, ds'), h, cv) /\ Forall2 (vrel t) ds ds'.
Proof.
  intros HI N M HK. induction left as [|k IH]; intros it p cs cs' hist I F; cbn [em_loop].
  - do 5 eexists. split; [reflexivity|]. split; [reflexivity|]. exact F.
  - destruct (step_rel I0 K t a a' p cs cs' HI N M HK I F) as (q & ds & ds' & v & E & E' & F'). rewrite E, E'. cbn [bind].
    destruct (_ && _).
    + do 5 eexists. split; [reflexivity|]. split; [reflexivity|]. exact F'.
    + apply IH; auto. apply (movm_step_spec I0 K a (p, cs) (q, ds) v HI N HK I E).
Qed.
Lemma subset_moved t a a' labels c : moved t a a' -> moved t (subset a labels c) (subset a' labels c).
Proof.
  intros M. unfold subset. revert labels. induction M as [|x x' a a' H M IH]; intros [|l labels]; cbn; try constructor.
  destruct (Nat.eqb l c); cbn; [constructor; auto; apply IH|apply IH].
Qed.
Definition same_settings (cfg cfg' : em_cfg) : Prop :=
  c_burnin cfg' = c_burnin cfg /\ c_K cfg' = c_K cfg /\ c_iters cfg' = c_iters cfg /\ c_threshold cfg' = c_threshold cfg.
Lemma movm_turned I0 cfg cfg' old cands X X' m t : (forall x, 0 < I0 x) -> cfg_ok cfg -> same_settings cfg cfg' ->
  Forall (fun l => length l = length X) cands ->
  moved t (in_radians (c_radian cfg) (c_cycle cfg) X) (in_radians (c_radian cfg') (c_cycle cfg') X') ->
  movm_fit I0 cfg old cands X = Ok m ->
  exists m', movm_fit I0 cfg' old cands X' = Ok m' /\ mx_p m' = mx_p m /\ mx_gamma m' = mx_gamma m /\ mx_labels m' = mx_labels m /\
    mx_nll m' = mx_nll m /\ mx_flags m' = mx_flags m /\ movm_bic I0 (c_K cfg) (Some m') = movm_bic I0 (c_K cfg) (Some m) /\
    Forall2 (fun c c' => turned_fl t (vm_mu c) (vm_mu c') /\ vm_r c' = vm_r c /\ vm_kappa c' = vm_kappa c) (mx_cs m) (mx_cs m').
Proof.
  intros HI (HK & HN & HT) (S1 & S2 & S3 & S4) CL M E. unfold movm_fit in *. destruct X as [|x0 X0]; [discriminate|]. set (X := x0 :: X0) in *.
  destruct X' as [|y0 Y0]; [exfalso; apply moved_length in M; rewrite !in_radians_length in M; discriminate|]. set (Y := y0 :: Y0) in *.
  rewrite !to_rad_in in *. set (a := in_radians (c_radian cfg) (c_cycle cfg) X) in *. set (b := in_radians (c_radian cfg') (c_cycle cfg') Y) in *.
  cbv zeta in *. rewrite S1, S2, S3, S4, (moved_length _ _ _ M). destruct (Nat.ltb (length a) (c_K cfg)); [discriminate|].
  destruct (pick (c_K cfg) cands) as [labels|] eqn:EP; [|discriminate]. cbn [bind] in *.
  destruct (pick_spec _ _ _ EP) as [Pi Pc]. rewrite Forall_forall in CL. specialize (CL labels Pi).
  assert (La : length a = length X) by apply in_radians_length.
  destruct (vm_begin_ok (c_K cfg) a labels ltac:(congruence) Pc HK) as [_ VI].
  assert (Na : a <> []) by (intros Z; rewrite Z in La; discriminate).
  assert (F0 : Forall2 (vrel t) (map (fun c => vm_start (subset a labels c)) (seq 0 (c_K cfg))) (map (fun c => vm_start (subset b labels c)) (seq 0 (c_K cfg)))).
  { generalize (seq 0 (c_K cfg)). induction l as [|c l IH]; cbn [map]; constructor; auto. unfold vm_start.
    destruct (mr_moved t (subset a labels c) (subset b labels c) (subset_moved t a b labels c M)) as [A B].
    pose proof (mr_in_turn (subset a labels c) None) as I1. pose proof (mr_in_turn (subset b labels c) None) as I2.
    destruct (circ_mean_and_r (subset a labels c) None) as [m1 r1], (circ_mean_and_r (subset b labels c) None) as [m2 r2]. cbn [fst snd] in *. subst r2.
    split; [exact A|]. split; [reflexivity|]. split; [reflexivity|]. split; assumption. }
  destruct (loop_rel I0 (c_K cfg) t a b (c_burnin cfg) (c_threshold cfg) HI Na M HK (c_iters cfg) 0 _ _ _ [] VI F0) as (q & ds & ds' & h & cv & E1 & E2 & F).
  rewrite E1 in E. rewrite E2. cbn [bind] in *. injection E as <-. eexists. split; [reflexivity|]. unfold finish. cbn [mx_p mx_gamma mx_labels mx_nll mx_flags mx_cs mx_alpha].
  destruct (gammas_rel I0 t q ds ds' a b F M) as [-> EN]. repeat (split; [reflexivity|]). split.
  - unfold movm_bic. cbn [mx_p mx_cs mx_alpha]. now rewrite EN, (moved_length _ _ _ M).
  - clear -F. induction F as [|c c' cs cs' (A & B & C & _) F IH]; constructor; auto.
Qed.
