(** Property theorems for the mixture estimators MovM, MoKJ and MoCD (C53-C56, C72, C101-C106). *)
From Verif Require Import Prelude NpModel CircleSpec UtilsModel DescModel Desc2Model DescSpec NpProofs HypMultiModel HypMulti2Model HypMultiSpec
  HypMulti7Proofs CorrSpec ClusModel ClusSpec ClusProofs EmModel EmSpec EmProofs Em2Proofs Em3Proofs Em4Proofs Em5Proofs Em6Proofs Em7Proofs
  Em8Proofs Em9Proofs Em10Proofs Em11Proofs Em12Proofs Em13Proofs EmEx.

(** ** C53: EM bookkeeping *)
(** MovM: the start, every pass and the stopping rule are as in the textbook algorithm
    ([vm_begin], [vm_pass], [em_run]); the responsibilities are the posterior probabilities
    of the returned parameters, or everything is NaN because some mean direction is. *)
Theorem C53_movm : forall I0 cfg old cands X m, (forall x, 0 < I0 x) -> cfg_ok cfg ->
  Forall (fun l => length l = length X) cands -> movm_fit I0 cfg old cands X = Ok m ->
  let alpha := in_radians (c_radian cfg) (c_cycle cfg) X in
  exists labels start, In labels cands /\ vm_begin kappa0 (c_K cfg) alpha labels start /\
    em_run (vm_pass I0 kappa0 alpha) (c_burnin cfg) (c_threshold cfg) (c_iters cfg) start (mx_p m, map pars (mx_cs m)) (mx_nll m) old (mx_flags m) /\
    length (mx_p m) = c_K cfg /\ length (mx_cs m) = c_K cfg /\
    ((shares (mx_p m) /\ exists cs, map pars (mx_cs m) = map (fun c => (Fin (fst c), Fin (snd c))) cs /\
       Forall (fun c => 0 <= fst c < 2 * PI /\ / 1000 <= snd c) cs /\
       responsibilities (fun c x => vm_density I0 (fst c) (snd c) x) (fun q => q + / 10 ^ 32) (mx_p m) cs alpha (mx_gamma m) (mx_labels m)) \/
     ((undefined (mx_p m) \/ shares (mx_p m)) /\ (exists c, In c (map pars (mx_cs m)) /\ fst c = NaN) /\
        no_responsibilities (c_K cfg) alpha (mx_gamma m) (mx_labels m))).
Proof. exact movm_fit_spec. Qed.
Print Assumptions C53_movm.
(** The angles 0 and pi with one component: no responsibility is a number and nLL is empty. *)
Theorem C53_movm_refuted : forall I0, (forall x, 0 < I0 x) -> exists cfg cands X m, cfg_ok cfg /\
  Forall (fun l => length l = length X) cands /\ movm_fit I0 cfg (false, None) cands X = Ok m /\
  Forall undefined (mx_gamma m) /\ mx_gamma m <> [] /\ undefined (mx_p m) /\ mx_p m <> [] /\ mx_nll m = [].
Proof.
  intros I0 HI. exists cfg1, [[0; 0]%nat], [0; PI]. destruct (ex_balanced I0 HI) as (m & H). exists m.
  split; [exact cfg1_ok|]. split; [repeat constructor|exact H].
Qed.
Print Assumptions C53_movm_refuted.
(** More generally: whenever a starting group is balanced. *)
Theorem C53_movm_balanced : forall I0 cfg old X m labels c, (forall x, 0 < I0 x) -> cfg_ok cfg ->
  length labels = length X -> (c < c_K cfg)%nat ->
  let alpha := in_radians (c_radian cfg) (c_cycle cfg) X in
  Rsum (map cos (labelled alpha labels c)) = 0 -> Rsum (map sin (labelled alpha labels c)) = 0 ->
  movm_fit I0 cfg old [labels] X = Ok m ->
  undefined (mx_p m) /\ Forall (fun c => pars c = (NaN, NaN)) (mx_cs m) /\ Forall undefined (mx_gamma m) /\
  mx_labels m = repeat 0%nat (length X) /\ mx_nll m = [] /\ mx_flags m = old.
Proof. intros I0 cfg old X m labels c HI HC. exact (movm_balanced I0 cfg old [labels] X m labels c HI HC eq_refl). Qed.
Print Assumptions C53_movm_balanced.
Theorem C53_mokj : forall moments mle tiny min_w cfg old kseed cands X m, 0 < tiny -> 0 < min_w -> cfg_ok cfg ->
  mokj_fit moments mle tiny min_w cfg old kseed cands X = Ok m ->
  let alpha := in_radians (c_radian cfg) (c_cycle cfg) X in
  let pass := kj_pass quad_of regularise degenerate moments mle tiny min_w alpha in
  exists labels start,
    (In labels cands \/ exists k, km_fit Center true 360 (c_K cfg) 100 (/ 1000000) kseed alpha = Ok k /\ labels = km_labels k) /\
    kj_begin moments (c_K cfg) alpha labels start /\
    passes pass start (mx_nll m) (mx_p m, mx_cs m) /\ (length (mx_nll m) <= c_iters cfg)%nat /\
    (mx_flags m = (true, Some (length (mx_nll m))) /\ stop_rule (c_burnin cfg) (c_threshold cfg) (c_iters cfg) (mx_nll m) (Some (length (mx_nll m))) \/
     mx_flags m = old /\ length (mx_nll m) = c_iters cfg /\ stop_rule (c_burnin cfg) (c_threshold cfg) (c_iters cfg) (mx_nll m) None) /\
    length (mx_p m) = c_K cfg /\ length (mx_cs m) = c_K cfg /\ shares (mx_p m) /\
    responsibilities (kj_dens tiny) (fun q => Rmax q (/ 10 ^ 300)) (mx_p m) (map quad_of (mx_cs m)) alpha (mx_gamma m) (mx_labels m).
Proof.
  intros moments mle tiny min_w cfg old kseed cands X m Ht Hm HC E alpha pass.
  destruct (mokj_fit_spec moments mle tiny min_w cfg old kseed cands X m Ht Hm HC E) as (labels & start & A & B & C & D1 & D2 & D3 & _ & D4 & _).
  exists labels, start. split; [exact A|]. split; [exact B|].
  destruct (run_full _ _ _ _ _ _ _ _ _ (kj_pass_fin quad_of regularise degenerate moments mle tiny min_w alpha) C) as (R1 & R2 & R3). auto 9.
Qed.
Print Assumptions C53_mokj.
Theorem C53_mocd : forall P (ld : P -> R -> fl) dens dfit methods cfg old cands X m,
  (forall m a w c, dfit m a w = Ok c -> log_of ld dens c) -> cfg_ok cfg ->
  mocd_fit ld dfit methods cfg old cands X = Ok m ->
  let alpha := in_radians (c_radian cfg) (c_cycle cfg) X in
  exists labels start, In labels cands /\ cd_begin dfit methods (c_K cfg) alpha labels start /\
    passes (cd_pass dens dfit methods alpha) start (mx_nll m) (mx_p m, mx_cs m) /\ (length (mx_nll m) <= c_iters cfg)%nat /\
    (mx_flags m = (true, Some (length (mx_nll m))) /\ stop_rule (c_burnin cfg) (c_threshold cfg) (c_iters cfg) (mx_nll m) (Some (length (mx_nll m))) \/
     mx_flags m = old /\ length (mx_nll m) = c_iters cfg /\ stop_rule (c_burnin cfg) (c_threshold cfg) (c_iters cfg) (mx_nll m) None) /\
    length (mx_p m) = c_K cfg /\ length (mx_cs m) = c_K cfg /\ shares (mx_p m) /\
    responsibilities dens (fun q => q + / 10 ^ 32) (mx_p m) (mx_cs m) alpha (mx_gamma m) (mx_labels m).
Proof.
  intros P ld dens dfit methods cfg old cands X m HL HC E alpha.
  destruct (mocd_fit_spec ld dens dfit methods cfg old cands X m HL HC E) as (labels & start & A & B & C & D1 & D2 & D3 & D4 & _).
  exists labels, start. split; [exact A|]. split; [exact B|].
  destruct (run_full _ _ _ _ _ _ _ _ _ (cd_pass_fin dens dfit methods alpha) C) as (R1 & R2 & R3). auto 9.
Qed.
Print Assumptions C53_mocd.
Example C53_example : forall I0, (forall x, 0 < I0 x) ->
  cfg_ok cfg1 /\ Forall (fun l : list nat => length l = length [1; 1]) [[0; 0]%nat] /\
  (exists m, movm_fit I0 cfg1 (false, None) [[0; 0]%nat] [1; 1] = Ok m /\ mx_p m = [Fin 1] /\ mx_flags m = (true, Some 32%nat)) /\
  (exists m, mokj_fit kj_moments kj_mle (/ 10 ^ 300) (/ 10 ^ 6) cfg1 (false, None) [0]%nat [[0; 0]%nat] [0; 1] = Ok m) /\
  (forall m a w c, vm_dfit m a w = Ok c -> log_of (vm_ld I0) (dens_of I0) c) /\ cfg_ok (cfg_cd false) /\
  (exists m, mocd_fit (vm_ld I0) vm_dfit [None] (cfg_cd false) (false, None) [[0]%nat] [180] = Ok m /\ mx_p m = [Fin 1] /\ mx_cs m = [c_pi]).
Proof.
  intros I0 HI. split; [exact cfg1_ok|]. split; [repeat constructor|]. split.
  { destruct (ex_movm I0 HI) as (m & E & P & _ & F & _). exists m. auto. }
  split; [exact ex_mokj|]. split; [exact (vm_dfit_log I0 HI)|]. split; [apply cfg_cd_ok|].
  destruct (mocd_pi I0 false [180] HI) as (m & E & P & C & _); [unfold in_radians; cbn [map]; f_equal; field|]. exists m. auto.
Qed.
Example C53_balanced_example : length [0; 0]%nat = length [0; PI] /\
  Rsum (map cos (labelled [0; PI] [0; 0]%nat 0)) = 0 /\ Rsum (map sin (labelled [0; PI] [0; 0]%nat 0)) = 0.
Proof. cbn. rewrite cos_0, sin_0, cos_PI, sin_PI. repeat split; ring. Qed.

(** ** C54: the flag converged *)
(** A fit that does not converge keeps the flag of the fit before. *)
Theorem C54_refuted : forall I0, (forall x, 0 < I0 x) -> exists cfg cands X1 X2 m1 m2 m3, cfg_ok cfg /\
  movm_fit I0 cfg (false, None) cands X1 = Ok m1 /\ fst (mx_flags m1) = true /\
  movm_fit I0 cfg (mx_flags m1) cands X2 = Ok m2 /\ fst (mx_flags m2) = true /\
  movm_fit I0 cfg (false, None) cands X2 = Ok m3 /\ fst (mx_flags m3) = false.
Proof.
  intros I0 HI. exists cfg1, [[0; 0]%nat], [1; 1], [0; PI]. destruct (stale_movm I0 HI) as (m1 & m2 & m3 & H). exists m1, m2, m3.
  split; [exact cfg1_ok|exact H].
Qed.
Print Assumptions C54_refuted.
(** The flags are the only thing that depends on earlier fits. *)
Theorem C54_history : forall I0 cfg old cands X m, movm_fit I0 cfg old cands X = Ok m ->
  (mx_flags m = old \/ exists k, mx_flags m = (true, Some k)) /\
  forall old', exists m', movm_fit I0 cfg old' cands X = Ok m' /\ mx_p m' = mx_p m /\ mx_cs m' = mx_cs m /\ mx_gamma m' = mx_gamma m /\
    mx_labels m' = mx_labels m /\ mx_nll m' = mx_nll m /\ (mx_flags m' = old' /\ mx_flags m = old \/ mx_flags m' = mx_flags m /\ exists k, mx_flags m = (true, Some k)).
Proof. exact movm_flags. Qed.
Print Assumptions C54_history.
(** The first fit of an estimator reports the truth. *)
Theorem C54_first_fit_movm : forall I0 cfg cands X m, (forall x, 0 < I0 x) -> cfg_ok cfg ->
  Forall (fun l => length l = length X) cands -> movm_fit I0 cfg (false, None) cands X = Ok m ->
  let alpha := in_radians (c_radian cfg) (c_cycle cfg) X in
  exists start hist, passes (vm_pass I0 kappa0 alpha) start hist (mx_p m, map pars (mx_cs m)) /\
    mx_nll m = filter (fun v => match v with NaN => false | _ => true end) hist /\
    (fst (mx_flags m) = true <-> exists j, may_stop (c_burnin cfg) (c_threshold cfg) hist j) /\
    (fst (mx_flags m) = false -> length hist = c_iters cfg) /\ (fst (mx_flags m) = true -> snd (mx_flags m) = Some (length hist)).
Proof.
  intros I0 cfg cands X m HI HC CL E alpha. destruct (movm_fit_spec I0 cfg _ cands X m HI HC CL E) as (_ & start & _ & _ & R & _).
  exists start. apply fresh_flag, R.
Qed.
Print Assumptions C54_first_fit_movm.
Theorem C54_first_fit_mokj : forall moments mle tiny min_w cfg kseed cands X m, 0 < tiny -> 0 < min_w -> cfg_ok cfg ->
  mokj_fit moments mle tiny min_w cfg (false, None) kseed cands X = Ok m ->
  (fst (mx_flags m) = true <-> exists j, may_stop (c_burnin cfg) (c_threshold cfg) (mx_nll m) j) /\
  (fst (mx_flags m) = false -> length (mx_nll m) = c_iters cfg) /\ (fst (mx_flags m) = true -> snd (mx_flags m) = Some (length (mx_nll m))).
Proof.
  intros moments mle tiny min_w cfg kseed cands X m Ht Hm HC E.
  destruct (C53_mokj _ _ _ _ _ _ _ _ _ _ Ht Hm HC E) as (_ & _ & _ & _ & _ & _ & [(F & S)|(F & L & S)] & _); rewrite F; cbn [fst snd].
  - destruct S as (_ & _ & _ & _ & S). split; [split; eauto|]. split; [discriminate|auto].
  - destruct S as (_ & _ & _ & S). split; [split; [discriminate|intros (j & H); exfalso; exact (S j H)]|]. split; auto. discriminate.
Qed.
Print Assumptions C54_first_fit_mokj.
Theorem C54_first_fit_mocd : forall P (ld : P -> R -> fl) dens dfit methods cfg cands X m,
  (forall m a w c, dfit m a w = Ok c -> log_of ld dens c) -> cfg_ok cfg ->
  mocd_fit ld dfit methods cfg (false, None) cands X = Ok m ->
  (fst (mx_flags m) = true <-> exists j, may_stop (c_burnin cfg) (c_threshold cfg) (mx_nll m) j) /\
  (fst (mx_flags m) = false -> length (mx_nll m) = c_iters cfg) /\ (fst (mx_flags m) = true -> snd (mx_flags m) = Some (length (mx_nll m))).
Proof.
  intros P ld dens dfit methods cfg cands X m HL HC E.
  destruct (C53_mocd _ _ _ _ _ _ _ _ _ _ HL HC E) as (_ & _ & _ & _ & _ & _ & [(F & S)|(F & L & S)] & _); rewrite F; cbn [fst snd].
  - destruct S as (_ & _ & _ & _ & S). split; [split; eauto|]. split; [discriminate|auto].
  - destruct S as (_ & _ & _ & S). split; [split; [discriminate|intros (j & H); exfalso; exact (S j H)]|]. split; auto. discriminate.
Qed.
Print Assumptions C54_first_fit_mocd.
Example C54_example : forall I0, (forall x, 0 < I0 x) -> exists m1 m3,
  movm_fit I0 cfg1 (false, None) [[0; 0]%nat] [1; 1] = Ok m1 /\ mx_flags m1 = (true, Some 32%nat) /\
  movm_fit I0 cfg1 (false, None) [[0; 0]%nat] [0; PI] = Ok m3 /\ fst (mx_flags m3) = false.
Proof.
  intros I0 HI. destruct (ex_movm I0 HI) as (m1 & E1 & _ & _ & F1 & _). destruct (stale_movm I0 HI) as (_ & _ & m3 & _ & _ & _ & _ & E3 & F3). exists m1, m3. auto.
Qed.

(** ** C55: BIC and the unit *)
(** One observation, 180 degrees or pi. *)
Theorem C55_refuted : forall I0, (forall x, 0 < I0 x) -> exists dfit m1 m2 b1 b2,
  (forall m a w c, dfit m a w = Ok c -> log_of (vm_ld I0) (dens_of I0) c) /\ cfg_ok (cfg_cd false) /\ cfg_ok (cfg_cd true) /\
  mocd_fit (vm_ld I0) dfit [None] (cfg_cd false) (false, None) [[0]%nat] [180] = Ok m1 /\
  mocd_fit (vm_ld I0) dfit [None] (cfg_cd true) (false, None) [[0]%nat] [PI] = Ok m2 /\
  mocd_bic (vm_ld I0) (cfg_cd false) 2 (Some m1) = Ok (Fin b1) /\ mocd_bic (vm_ld I0) (cfg_cd true) 2 (Some m2) = Ok (Fin b2) /\ b1 <> b2.
Proof.
  intros I0 HI. exists vm_dfit. destruct (bic_differs I0 HI) as (m1 & m2 & b1 & b2 & H). exists m1, m2, b1, b2.
  split; [exact (vm_dfit_log I0 HI)|]. split; [apply cfg_cd_ok|]. split; [apply cfg_cd_ok|exact H].
Qed.
Print Assumptions C55_refuted.
(** With the unit radian it is the textbook value. *)
Theorem C55_radian : forall P (ld : P -> R -> fl) dens dfit methods cfg old cands X m n_params,
  (forall m a w c, dfit m a w = Ok c -> log_of ld dens c) -> cfg_ok cfg -> c_radian cfg = true ->
  mocd_fit ld dfit methods cfg old cands X = Ok m ->
  exists ps, mx_p m = map Fin ps /\
  mocd_bic ld cfg n_params (Some m) = Ok (Fin (bic_value (neg_loglik dens (map (fun q => q + / 10 ^ 32) ps) (mx_cs m) X) (length X) (n_params * c_K cfg + (c_K cfg - 1)))).
Proof. exact @mocd_bic_radian. Qed.
Print Assumptions C55_radian.
Example C55_example : forall I0, (forall x, 0 < I0 x) -> cfg_ok (cfg_cd true) /\ c_radian (cfg_cd true) = true /\
  exists m, mocd_fit (vm_ld I0) vm_dfit [None] (cfg_cd true) (false, None) [[0]%nat] [PI] = Ok m /\ mx_p m = [Fin 1] /\ mx_cs m = [c_pi].
Proof.
  intros I0 HI. split; [apply cfg_cd_ok|]. split; [reflexivity|]. destruct (mocd_pi I0 true [PI] HI eq_refl) as (m & E & P & C & _). exists m. auto.
Qed.

(** ** C56: the Kato-Jones parameter space *)
Theorem C56_admissible : forall q,
  kj_space (kj_mu (regularise q)) (kj_gamma (regularise q)) (kj_rho (regularise q)) (kj_lam (regularise q)) /\
  kj_argcheck (regularise q) = true /\ (forall x, 0 <= kj_density (quad_of (regularise q)) x).
Proof.
  intros q. destruct (regularise_space q) as [H _]. split; [exact H|]. split; [apply space_argcheck, H|]. intros x. unfold quad_of. apply kj_density_nonneg, H.
Qed.
Print Assumptions C56_admissible.
(** After every fit. *)
Theorem C56_after_fit : forall moments mle tiny min_w cfg old kseed cands X m, 0 < tiny -> 0 < min_w -> cfg_ok cfg ->
  mokj_fit moments mle tiny min_w cfg old kseed cands X = Ok m -> Forall (fun c => in_space (quad_of c)) (mx_cs m).
Proof.
  intros moments mle tiny min_w cfg old kseed cands X m Ht Hm HC E.
  destruct (mokj_fit_spec moments mle tiny min_w cfg old kseed cands X m Ht Hm HC E) as (_ & _ & _ & _ & _ & _ & _ & _ & H & _). exact H.
Qed.
Print Assumptions C56_after_fit.
Example C56_example : let q := {| kj_mu := 7; kj_gamma := 2; kj_rho := 3; kj_lam := -1 |} in
  kj_argcheck q = false /\ kj_argcheck (regularise q) = true /\
  exists m, mokj_fit kj_moments kj_mle (/ 10 ^ 300) (/ 10 ^ 6) cfg1 (false, None) [0]%nat [[0; 0]%nat] [0; 1] = Ok m.
Proof.
  split; [|split; [apply C56_admissible|exact ex_mokj]]. unfold kj_argcheck. cbn [kj_gamma]. destruct (Rltb_spec 2 1); [lra|].
  now rewrite !andb_false_r.
Qed.

(** ** C72: the default grid of predict_density *)
Theorem C72_refuted : exists n is_radian full_cycle, (2 <= n)%nat /\ 0 < full_cycle /\ ~ full_turn n (density_grid n is_radian full_cycle).
Proof.
  exists 100%nat, false, 24. split; [lia|]. split; [lra|]. rewrite grid_full by (try lia; lra). intros [H|H]; [discriminate|lra].
Qed.
Print Assumptions C72_refuted.
Theorem C72_when : forall n is_radian full_cycle, (2 <= n)%nat -> full_cycle <> 0 ->
  (full_turn n (density_grid n is_radian full_cycle) <-> is_radian = true \/ full_cycle = 360).
Proof. exact grid_full. Qed.
Print Assumptions C72_when.
(** At any angle predict_density is the weighted sum of the component densities. *)
Theorem C72_density : forall I0 cfg old cands X m x, (forall x, 0 < I0 x) -> cfg_ok cfg -> Forall (fun l => length l = length X) cands ->
  movm_fit I0 cfg old cands X = Ok m -> (forall c, In c (mx_cs m) -> vm_mu c <> NaN) ->
  exists ps cs, mx_p m = map Fin ps /\ map pars (mx_cs m) = map (fun c => (Fin (fst c), Fin (snd c))) cs /\
    density (vm_pdf I0) m x = Fin (Rsum (terms (fun c x => vm_density I0 (fst c) (snd c) x) ps cs x)).
Proof. exact movm_density. Qed.
Print Assumptions C72_density.
Example C72_example : full_turn 4 (density_grid 4 false 360) /\ ~ full_turn 4 (density_grid 4 false 24) /\
  forall I0, (forall x, 0 < I0 x) -> exists m, movm_fit I0 cfg1 (false, None) [[0; 0]%nat] [1; 1] = Ok m /\ forall c, In c (mx_cs m) -> vm_mu c <> NaN.
Proof.
  split; [apply grid_full; try lia; try lra; auto|]. split; [rewrite grid_full by (try lia; lra); intros [H|H]; [discriminate|lra]|].
  intros I0 HI. destruct (ex_movm I0 HI) as (m & E & _ & _ & _ & N). exists m. auto.
Qed.

(** ** C101: predict and predict_proba *)
Theorem C101_training : forall I0 moments mle tiny min_w P (ld : P -> R -> fl) dfit methods cfg old kseed cands X,
  (forall m, movm_fit I0 cfg old cands X = Ok m ->
     movm_proba I0 (c_radian cfg) (c_cycle cfg) (Some m) X = Ok (mx_gamma m) /\ movm_predict I0 (c_radian cfg) (c_cycle cfg) (Some m) X = Ok (mx_labels m)) /\
  (forall m, mokj_fit moments mle tiny min_w cfg old kseed cands X = Ok m ->
     mokj_proba tiny (c_radian cfg) (c_cycle cfg) (Some m) X = Ok (mx_gamma m) /\ mokj_predict tiny (c_radian cfg) (c_cycle cfg) (Some m) X = Ok (mx_labels m)) /\
  (forall m, mocd_fit ld dfit methods cfg old cands X = Ok m ->
     mocd_proba ld cfg (Some m) X = Ok (mx_gamma m) /\ mocd_predict ld cfg (Some m) X = Ok (mx_labels m)).
Proof.
  intros. split; [|split]; intros m E; [eapply movm_predict_train|eapply mokj_predict_train|eapply mocd_predict_train]; exact E.
Qed.
Print Assumptions C101_training.
Theorem C101_movm : forall I0 cfg old cands X m b fc Y, (forall x, 0 < I0 x) -> cfg_ok cfg -> Forall (fun l => length l = length X) cands ->
  movm_fit I0 cfg old cands X = Ok m -> (forall c, In c (mx_cs m) -> vm_mu c <> NaN) ->
  exists cs g l, map pars (mx_cs m) = map (fun c => (Fin (fst c), Fin (snd c))) cs /\
    movm_proba I0 b fc (Some m) Y = Ok g /\ movm_predict I0 b fc (Some m) Y = Ok l /\
    responsibilities (fun c x => vm_density I0 (fst c) (snd c) x) (fun q => q + / 10 ^ 32) (mx_p m) cs (in_radians b fc Y) g l.
Proof. exact movm_predict_new. Qed.
Print Assumptions C101_movm.
Theorem C101_mokj : forall moments mle tiny min_w cfg old kseed cands X m b fc Y, 0 < tiny -> 0 < min_w -> cfg_ok cfg ->
  mokj_fit moments mle tiny min_w cfg old kseed cands X = Ok m ->
  exists g l, mokj_proba tiny b fc (Some m) Y = Ok g /\ mokj_predict tiny b fc (Some m) Y = Ok l /\
    responsibilities (kj_dens tiny) (fun q => Rmax q (/ 10 ^ 300)) (mx_p m) (map quad_of (mx_cs m)) (in_radians b fc Y) g l.
Proof. exact mokj_predict_new. Qed.
Print Assumptions C101_mokj.
Theorem C101_mocd : forall P (ld : P -> R -> fl) dens dfit methods cfg old cands X m Y,
  (forall m a w c, dfit m a w = Ok c -> log_of ld dens c) -> cfg_ok cfg -> mocd_fit ld dfit methods cfg old cands X = Ok m ->
  exists g l, mocd_proba ld cfg (Some m) Y = Ok g /\ mocd_predict ld cfg (Some m) Y = Ok l /\
    responsibilities dens (fun q => q + / 10 ^ 32) (mx_p m) (mx_cs m) (in_radians (c_radian cfg) (c_cycle cfg) Y) g l.
Proof. exact @mocd_predict_new. Qed.
Print Assumptions C101_mocd.
Theorem C101_unfitted : forall I0 tiny P (ld : P -> R -> fl) cfg b fc Y,
  movm_predict I0 b fc None Y = Err ValueError /\ mokj_predict tiny b fc None Y = Err ValueError /\ mocd_predict ld cfg None Y = Err ValueError.
Proof. intros. repeat split; reflexivity. Qed.
Print Assumptions C101_unfitted.
Example C101_example : forall I0, (forall x, 0 < I0 x) -> exists m,
  movm_fit I0 cfg1 (false, None) [[0; 0]%nat] [1; 1] = Ok m /\ (forall c, In c (mx_cs m) -> vm_mu c <> NaN) /\
  movm_predict I0 true 360 (Some m) [1; 1] = Ok [0; 0]%nat.
Proof.
  intros I0 HI. destruct (ex_movm I0 HI) as (m & E & _ & L & _ & N). exists m. split; auto. split; auto.
  rewrite <- L. apply (movm_predict_train I0 cfg1 (false, None) [[0; 0]%nat] [1; 1] m E).
Qed.

(** ** C102: BIC is 2 nLL + k ln n at the returned parameters *)
Theorem C102_movm : forall I0 cfg old cands X m, (forall x, 0 < I0 x) -> cfg_ok cfg -> Forall (fun l => length l = length X) cands ->
  movm_fit I0 cfg old cands X = Ok m ->
  forall ps cs, mx_p m = map Fin ps -> map pars (mx_cs m) = map (fun c => (Fin (fst c), Fin (snd c))) cs ->
  movm_bic I0 (c_K cfg) (Some m) = Ok (Fin (bic_value (neg_loglik (fun c x => vm_density I0 (fst c) (snd c) x) (map (fun q => q + / 10 ^ 32) ps) cs
    (in_radians (c_radian cfg) (c_cycle cfg) X)) (length X) (2 * c_K cfg + (c_K cfg - 1)))).
Proof. exact movm_bic_spec. Qed.
Print Assumptions C102_movm.
Theorem C102_mokj : forall moments mle tiny min_w cfg old kseed cands X m, 0 < tiny -> 0 < min_w -> cfg_ok cfg ->
  mokj_fit moments mle tiny min_w cfg old kseed cands X = Ok m ->
  exists ps, mx_p m = map Fin ps /\
  let v := neg_loglik (kj_dens tiny) (map (fun q => Rmax q (/ 10 ^ 300)) ps) (map quad_of (mx_cs m)) (in_radians (c_radian cfg) (c_cycle cfg) X) in
  mokj_bic tiny (c_K cfg) (Some m) = Ok (Fin (bic_value v (length X) (4 * c_K cfg + (c_K cfg - 1)))).
Proof.
  intros moments mle tiny min_w cfg old kseed cands X m Ht Hm HC E. destruct (mokj_bic_spec _ _ _ _ _ _ _ _ _ _ Ht Hm HC E) as (ps & A & B & _). exists ps. auto.
Qed.
Print Assumptions C102_mokj.
Example C102_example : forall I0, (forall x, 0 < I0 x) -> exists m ps cs,
  movm_fit I0 cfg1 (false, None) [[0; 0]%nat] [1; 1] = Ok m /\ mx_p m = map Fin ps /\ map pars (mx_cs m) = map (fun c => (Fin (fst c), Fin (snd c))) cs.
Proof.
  intros I0 HI. destruct (ex_movm I0 HI) as (m & E & P & _ & _ & N). assert (CL : Forall (fun l : list nat => length l = length [1; 1]) [[0; 0]%nat]) by repeat constructor.
  destruct (movm_density I0 cfg1 (false, None) [[0; 0]%nat] [1; 1] m 0 HI cfg1_ok CL E N) as (ps & cs & A & B & _).
  exists m, ps, cs. auto.
Qed.

(** ** C103: the last entry of nLL belongs to the returned parameters *)
Theorem C103_mokj : forall moments mle tiny min_w cfg old kseed cands X m, 0 < tiny -> 0 < min_w -> cfg_ok cfg ->
  mokj_fit moments mle tiny min_w cfg old kseed cands X = Ok m ->
  exists ps, mx_p m = map Fin ps /\
  last (mx_nll m) NaN = Fin (neg_loglik (kj_dens tiny) (map (fun q => Rmax q (/ 10 ^ 300)) ps) (map quad_of (mx_cs m)) (in_radians (c_radian cfg) (c_cycle cfg) X)).
Proof.
  intros moments mle tiny min_w cfg old kseed cands X m Ht Hm HC E. destruct (mokj_bic_spec _ _ _ _ _ _ _ _ _ _ Ht Hm HC E) as (ps & A & _ & B). exists ps. auto.
Qed.
Print Assumptions C103_mokj.
(** In MovM it belongs to the parameters before the last update. *)
Theorem C103_movm_refuted : forall I0, (forall x, 0 < I0 x) -> i0_like I0 -> exists cfg cands X m v w, cfg_ok cfg /\
  movm_fit I0 cfg (false, None) cands X = Ok m /\ last (mx_nll m) NaN = Fin v /\
  movm_bic I0 (c_K cfg) (Some m) = Ok (Fin (bic_value w (length X) (3 * c_K cfg - 1))) /\ w < v.
Proof.
  intros I0 HI HB. destruct (movm_last_nll I0 HI HB) as (m & v & w & E & N & B & L).
  exists cfg2, [[0; 1]%nat], [0; PI], m, v, w. split; [exact cfg2_ok|]. split; [exact E|]. rewrite N. split; [reflexivity|]. split; [exact B|exact L].
Qed.
Print Assumptions C103_movm_refuted.
Example C103_example : (forall k, 0 < 1 + k ^ 2 / 4) /\ i0_like (fun k => 1 + k ^ 2 / 4) /\
  exists m, mokj_fit kj_moments kj_mle (/ 10 ^ 300) (/ 10 ^ 6) cfg1 (false, None) [0]%nat [[0; 0]%nat] [0; 1] = Ok m.
Proof.
  split; [intros k; pose proof (pow2_ge_0 k); lra|]. split; [|exact ex_mokj]. intros k Hk. pose proof (pow_le k 4 (proj1 Hk)). lra.
Qed.

(** ** C104: MovM is equivariant under rotations and changes of unit *)
Theorem C104_turned : forall I0 cfg cfg' old cands X X' m t, (forall x, 0 < I0 x) -> cfg_ok cfg -> same_settings cfg cfg' ->
  Forall (fun l => length l = length X) cands ->
  moved t (in_radians (c_radian cfg) (c_cycle cfg) X) (in_radians (c_radian cfg') (c_cycle cfg') X') ->
  movm_fit I0 cfg old cands X = Ok m ->
  exists m', movm_fit I0 cfg' old cands X' = Ok m' /\ mx_p m' = mx_p m /\ mx_gamma m' = mx_gamma m /\ mx_labels m' = mx_labels m /\
    mx_nll m' = mx_nll m /\ mx_flags m' = mx_flags m /\ movm_bic I0 (c_K cfg) (Some m') = movm_bic I0 (c_K cfg) (Some m) /\
    Forall2 (fun c c' => turned_fl t (vm_mu c) (vm_mu c') /\ vm_r c' = vm_r c /\ vm_kappa c' = vm_kappa c) (mx_cs m) (mx_cs m').
Proof. exact movm_turned. Qed.
Print Assumptions C104_turned.
Definition cfg1_deg : em_cfg := {| c_burnin := 30; c_K := 1; c_iters := 100; c_threshold := / 10 ^ 16; c_radian := false; c_cycle := 360 |}.
Example C104_example : same_settings cfg1 cfg1_deg /\
  moved (PI - 1) (in_radians (c_radian cfg1) (c_cycle cfg1) [1; 1]) (in_radians (c_radian cfg1_deg) (c_cycle cfg1_deg) [180; -180]) /\
  forall I0, (forall x, 0 < I0 x) -> exists m, movm_fit I0 cfg1 (false, None) [[0; 0]%nat] [1; 1] = Ok m.
Proof.
  split; [repeat split|]. split.
  - cbn [cfg1 cfg1_deg c_radian c_cycle in_radians map]. constructor; [exists 0%Z; cbn [IZR]; field|constructor; [exists 1%Z; cbn [IZR]; field|constructor]].
  - intros I0 HI. destruct (ex_movm I0 HI) as (m & E & _). exists m. exact E.
Qed.

(** ** C105: one component *)
Theorem C105_one_component : forall I0 cfg old labels cands X, (forall x, 0 < I0 x) -> cfg_ok cfg -> c_K cfg = 1%nat ->
  length labels = length X -> Forall (fun l => l = 0%nat) labels -> X <> [] ->
  let alpha := in_radians (c_radian cfg) (c_cycle cfg) X in
  / 10 ^ 12 < circ_r alpha None ->
  exists m a k, movm_fit I0 cfg old (labels :: cands) X = Ok m /\ mx_p m = [Fin 1] /\
    mx_cs m = [{| vm_mu := fst (circ_mean_and_r alpha None); vm_r := Fin (circ_r alpha None); vm_kappa := Fin (Rmax (kappa0 (circ_r alpha None)) (/ 1000)) |}] /\
    mx_gamma m = map (fun _ => [Fin 1]) X /\ mx_labels m = repeat 0%nat (length X) /\ k = Nat.min (c_iters cfg) (c_burnin cfg + 2) /\
    mx_nll m = repeat (Fin a) k /\ mx_flags m = if Nat.leb (c_burnin cfg + 2) (c_iters cfg) then (true, Some (c_burnin cfg + 2)%nat) else old.
Proof. exact movm_one. Qed.
Print Assumptions C105_one_component.
(** Identical angles are fitted with concentration 1/1000, close to the uniform distribution. *)
Theorem C105_identical_refuted : forall I0, (forall x, 0 < I0 x) -> exists cfg cands X m c, cfg_ok cfg /\ (exists x, Forall (fun y => y = x) X) /\
  movm_fit I0 cfg (false, None) cands X = Ok m /\ mx_cs m = [c] /\ vm_r c = Fin 1 /\ vm_kappa c = Fin (/ 1000).
Proof.
  intros I0 HI. destruct (movm_one I0 cfg1 (false, None) [0; 0]%nat [] [1; 1] HI cfg1_ok eq_refl eq_refl ltac:(repeat constructor) ltac:(discriminate)) as (m & a & k & E & P & C & _).
  { cbn [cfg1 c_radian c_cycle in_radians]. rewrite r_ones. lra. }
  exists cfg1, [[0; 0]%nat], [1; 1], m. eexists. split; [exact cfg1_ok|]. split; [exists 1; repeat constructor|]. split; [exact E|]. split; [exact C|].
  cbn [vm_r vm_kappa cfg1 c_radian c_cycle in_radians]. rewrite r_ones, kappa0_1. auto.
Qed.
Print Assumptions C105_identical_refuted.
Example C105_example : cfg_ok cfg1 /\ c_K cfg1 = 1%nat /\ / 10 ^ 12 < circ_r (in_radians (c_radian cfg1) (c_cycle cfg1) [1; 1]) None.
Proof. split; [exact cfg1_ok|]. split; [reflexivity|]. cbn [cfg1 c_radian c_cycle in_radians]. rewrite r_ones. lra. Qed.

(** ** C106: admissible Kato-Jones parameters are left alone *)
(** True inside the safety margins ... *)
Theorem C106_kept : forall q, gamma_floor <= kj_gamma q <= 1 - gamma_margin -> 0 <= kj_rho q <= 1 - rho_margin ->
  (kj_rho q * cos (kj_lam q) - kj_gamma q) ^ 2 + (kj_rho q * sin (kj_lam q)) ^ 2 < (1 - kj_gamma q) ^ 2 - constraint_margin ->
  0 <= kj_mu q < 2 * PI -> 0 <= kj_lam q < 2 * PI -> regularise q = q.
Proof.
  intros q G R C Hm Hl. rewrite regularise_keeps by assumption. assert (Em : forall x, 0 <= x < 2 * PI -> mod2pi x = x).
  { intros x Hx. unfold mod2pi. apply pymod_small, Hx. }
  rewrite !Em by assumption. now destruct q.
Qed.
Print Assumptions C106_kept.
(** ... but not everywhere. *)
Theorem C106_refuted : exists q, kj_space (kj_mu q) (kj_gamma q) (kj_rho q) (kj_lam q) /\
  (kj_rho (regularise q) <> kj_rho q \/ kj_lam (regularise q) <> kj_lam q).
Proof. exists near_one. split; [exact near_one_space|exact near_one_moved]. Qed.
Print Assumptions C106_refuted.
Example C106_example : gamma_floor <= kj_gamma kj0 <= 1 - gamma_margin /\ 0 <= kj_rho kj0 <= 1 - rho_margin /\
  (kj_rho kj0 * cos (kj_lam kj0) - kj_gamma kj0) ^ 2 + (kj_rho kj0 * sin (kj_lam kj0)) ^ 2 < (1 - kj_gamma kj0) ^ 2 - constraint_margin.
Proof.
  destruct floor_margins as (_ & _ & -> & -> & _ & -> & ->). cbn [kj0 kj_gamma kj_rho kj_lam]. rewrite cos_0, sin_0. repeat split; lra.
Qed.
