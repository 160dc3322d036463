(** Example data and corollaries for the mixture estimators. *)
From Verif Require Import Prelude NpModel NpProofs CircleSpec UtilsModel UtilsProofs DescModel Desc2Model DescProofs
  DescSpec DescApi DescApi2 HypProofs HypMultiModel HypMulti2Model HypMultiSpec HypMultiProofs HypMulti7Proofs
  CorrSpec CorrProofs Corr2Proofs Corr4Proofs Corr6Proofs ClusModel ClusSpec ClusProofs Clus2Proofs Clus3Proofs Clus4Proofs Clus6Proofs Clus8Proofs
  EmModel EmSpec EmProofs Em2Proofs Em3Proofs Em4Proofs Em5Proofs Em6Proofs Em7Proofs Em8Proofs Em9Proofs Em10Proofs Em11Proofs Em12Proofs Em13Proofs.

Lemma may_stop_dec burnin thr hist j : may_stop burnin thr hist j \/ ~ may_stop burnin thr hist j.
Proof.
  unfold may_stop, close. destruct (lt_dec burnin j) as [H|H]; [|right; tauto].
  destruct (nth_error hist (j - 1)) as [u|]; [|right; intros (_ & u & v & E & _); discriminate].
  destruct (nth_error hist j) as [v|]; [|right; intros (_ & u' & v & _ & E & _); discriminate].
  destruct u as [a| | |]; try (right; intros (_ & u' & v' & E & _ & a & b & E' & _); injection E as <-; discriminate).
  destruct v as [b| | |]; try (right; intros (_ & u' & v' & _ & E & a' & b & _ & E' & _); injection E as <-; discriminate).
  destruct (Rlt_dec (Rabs (b - a)) thr) as [L|L].
  - left. split; auto. exists (Fin a), (Fin b). split; auto. split; auto. exists a, b. auto.
  - right. intros (_ & u' & v' & E & E' & a' & b' & -> & -> & L'). injection E as ->. injection E' as ->. auto.
Qed.
(** The flag of a fresh estimator. *)
Lemma fresh_flag {St} (pass : St -> St -> fl -> Prop) burnin thr n s s' nLL new :
  em_run pass burnin thr n s s' nLL (false, None) new ->
  exists hist, passes pass s hist s' /\ nLL = filter (fun v => match v with NaN => false | _ => true end) hist /\
    (fst new = true <-> exists j, may_stop burnin thr hist j) /\ (fst new = false -> length hist = n) /\
    (fst new = true -> snd new = Some (length hist)).
Proof.
  intros (hist & cv & P & (L & B & C) & E & ->). exists hist. split; auto. split; auto. destruct cv as [k|]; cbn [fst snd].
  - destruct C as (C1 & C2 & C3). split; [split; eauto|]. split; [discriminate|]. intros _. now rewrite C1.
  - destruct C as (C1 & C2). split; [split; [discriminate|intros (j & H); exfalso; exact (C2 j H)]|]. split; auto. discriminate.
Qed.
Lemma kj_pass_fin {P} qo reg bad mo (mle : list R -> list fl -> P -> res P) tiny fl0 alpha s s' v :
  kj_pass qo reg bad mo mle tiny fl0 alpha s s' v -> exists a, v = Fin a.
Proof. intros (ps & qs & G & H). cbv zeta in H. destruct H as (_ & _ & _ & _ & _ & _ & _ & _ & ->). eauto. Qed.
Lemma cd_pass_fin {M P} dens (dfit : M -> list R -> list fl -> res P) methods alpha s s' v :
  cd_pass dens dfit methods alpha s s' v -> exists a, v = Fin a.
Proof. intros (ps & qs & G & H). cbv zeta in H. destruct H as (_ & _ & _ & _ & _ & _ & _ & _ & ->). eauto. Qed.
Lemma rmap_total {A B} (f : A -> res B) l : (forall x, exists y, f x = Ok y) -> exists ys, rmap f l = Ok ys.
Proof. intros H. induction l as [|x l (ys & IH)]; cbn [rmap]; eauto. destruct (H x) as [y ->]. cbn [bind]. rewrite IH. cbn. eauto. Qed.
Lemma mokj_total moments mle tiny min_w cfg old kseed cands X : (forall a w, exists q, moments a w = Ok q) ->
  (c_K cfg <= length X)%nat -> X <> [] -> (exists l, In l cands /\ covers (c_K cfg) l = true) ->
  exists m, mokj_fit moments mle tiny min_w cfg old kseed cands X = Ok m.
Proof.
  intros Hm L N (l & Hl & Cl). unfold mokj_fit. destruct X as [|x X]; [congruence|]. rewrite to_rad_in. cbv zeta.
  rewrite in_radians_length. destruct (Nat.ltb_spec (length (x :: X)) (c_K cfg)) as [Z|_]; [lia|].
  set (alpha := in_radians (c_radian cfg) (c_cycle cfg) (x :: X)).
  assert (Ep : exists l', pick (c_K cfg) cands = Ok l').
  { unfold pick. destruct (find (covers (c_K cfg)) cands) as [l'|] eqn:E; [eauto|]. pose proof (find_none _ _ E l Hl). congruence. }
  assert (El : exists labels, mokj_labels (c_K cfg) kseed cands alpha = Ok labels).
  { unfold mokj_labels. destruct (km_fit _ _ _ _ _ _ _ _) as [k|e]; [|exact Ep]. destruct (covers (c_K cfg) (km_labels k)); [eexists; reflexivity|exact Ep]. }
  destruct El as [labels ->]. cbn [bind].
  match goal with |- context [rmap ?f ?l] => destruct (rmap_total f l) as [cs ->] end.
  { intros c. destruct (Hm (subset alpha labels c) (map (fun _ => Fin 1) (subset alpha labels c))) as [q ->]. cbn. eauto. }
  cbn [bind]. match goal with |- context [em_loop ?s ?b ?t ?n ?i ?st ?h] => assert (T : forall s0, exists r, s s0 = Ok r); [|destruct (em_loop_total s b t T n i st h) as [[[[p ds] hh] cv] ->]] end.
  { intros [p ds]. unfold mokj_step. match goal with |- context [rmap ?f ?l] => destruct (rmap_total f l) as [es ->] end.
    - intros [i c]. unfold kj_update. cbn [fst snd]. destruct (Hm alpha (row (gammas wt300 (kj_ld tiny) p ds alpha) i)) as [q ->]. cbn [bind].
      destruct (fsum _); eauto. destruct (Rleb _ _); eauto.
    - cbn [bind]. eauto. }
  cbn [bind]. eauto.
Qed.
(** A constant moment estimate; the likelihood fit always fails. *)
Definition kj0 : kj := {| kj_mu := 1; kj_gamma := / 2; kj_rho := / 4; kj_lam := 0 |}.
Definition kj_moments (a : list R) (w : list fl) : res kj := Ok kj0.
Definition kj_mle (a : list R) (w : list fl) (c : kj) : res kj := Err RuntimeError.
Lemma ex_mokj : exists m, mokj_fit kj_moments kj_mle (/ 10 ^ 300) (/ 10 ^ 6) cfg1 (false, None) [0]%nat [[0; 0]%nat] [0; 1] = Ok m.
Proof. apply mokj_total; [intros; eexists; reflexivity|cbn; lia|discriminate|exists [0; 0]%nat; split; [now left|reflexivity]]. Qed.
Lemma ex_movm I0 : (forall x, 0 < I0 x) -> exists m, movm_fit I0 cfg1 (false, None) [[0; 0]%nat] [1; 1] = Ok m /\
  mx_p m = [Fin 1] /\ mx_labels m = [0; 0]%nat /\ mx_flags m = (true, Some 32%nat) /\ forall c, In c (mx_cs m) -> vm_mu c <> NaN.
Proof.
  intros HI. destruct (movm_one I0 cfg1 (false, None) [0; 0]%nat [] [1; 1] HI cfg1_ok eq_refl eq_refl ltac:(repeat constructor) ltac:(discriminate)) as (m & a & k & E & P & C & _ & L & _ & _ & F).
  { cbn [cfg1 c_radian c_cycle in_radians]. rewrite r_ones. lra. }
  exists m. split; auto. split; auto. split; auto. split; [exact F|]. rewrite C. intros c [<-|[]]. cbn [vm_mu].
  unfold circ_mean_and_r. cbn [cfg1 c_radian c_cycle in_radians]. destruct (circ_mean_and_r_s_cases (combine [1; 1] (weights [1; 1] None))) as [[Z _]|[_ ->]]; [|discriminate].
  pose proof r_ones as R1. unfold circ_r in R1. rewrite R1 in Z. lra.
Qed.
Lemma ex_balanced I0 : (forall x, 0 < I0 x) -> exists m, movm_fit I0 cfg1 (false, None) [[0; 0]%nat] [0; PI] = Ok m /\
  Forall undefined (mx_gamma m) /\ mx_gamma m <> [] /\ undefined (mx_p m) /\ mx_p m <> [] /\ mx_nll m = [].
Proof.
  intros HI. destruct (movm_fit_total I0 cfg1 (false, None) [[0; 0]%nat] [0; PI]) as [m E]; [cbn; lia|discriminate|exists [0; 0]%nat; split; [now left|reflexivity]|].
  assert (Z1 : Rsum (map cos (labelled [0; PI] [0; 0]%nat 0)) = 0) by (cbn; rewrite cos_0, cos_PI; ring).
  assert (Z2 : Rsum (map sin (labelled [0; PI] [0; 0]%nat 0)) = 0) by (cbn; rewrite sin_0, sin_PI; ring).
  destruct (movm_balanced I0 cfg1 (false, None) [[0; 0]%nat] [0; PI] m [0; 0]%nat 0 HI cfg1_ok eq_refl eq_refl (le_n 1) Z1 Z2 E) as (U & _ & G & L & N & _).
  exists m. split; auto. split; auto.
  destruct (movm_fit_spec I0 cfg1 (false, None) [[0; 0]%nat] [0; PI] m HI cfg1_ok ltac:(repeat constructor) E) as (_ & _ & _ & _ & _ & Lp & _ & D).
  assert (Np : mx_p m <> []) by (intros Z; rewrite Z in Lp; discriminate).
  split; [|split; [auto|split; auto]].
  intros Z. rewrite Z in D. destruct D as [(_ & cs & _ & _ & ps & G' & _ & EG & PG & _)|(_ & _ & LG & _)]; [|discriminate LG].
  destruct G'; [|discriminate]. inversion PG.
Qed.
(** The mixture density at new angles. *)
Lemma movm_density I0 cfg old cands X m x : (forall x, 0 < I0 x) -> cfg_ok cfg -> Forall (fun l => length l = length X) cands ->
  movm_fit I0 cfg old cands X = Ok m -> (forall c, In c (mx_cs m) -> vm_mu c <> NaN) ->
  exists ps cs, mx_p m = map Fin ps /\ map pars (mx_cs m) = map (fun c => (Fin (fst c), Fin (snd c))) cs /\
    density (vm_pdf I0) m x = Fin (Rsum (terms (fun c x => vm_density I0 (fst c) (snd c) x) ps cs x)).
Proof.
  intros HI HC CL E N. destruct (movm_fit_spec I0 cfg old cands X m HI HC CL E) as (_ & _ & _ & _ & _ & Lp & Lc & D).
  destruct D as [((ps & Ep & _) & cs & Ec & Fc & _)|(_ & (c & Hc & Z) & _)].
  - exists ps, cs. split; auto. split; auto. unfold density, terms. rewrite Ep. clear Ep N E Lp Lc. revert ps cs Ec Fc. generalize (mx_cs m). clear.
    induction l as [|c l IH]; intros ps [|d cs] Ec Fc; try discriminate Ec.
    + destruct ps; reflexivity.
    + destruct ps as [|p ps]; [reflexivity|]. cbn [map] in Ec. injection Ec as E1 E2 Ec. inversion Fc as [|? ? [M K] Fc']; subst.
      specialize (IH ps cs Ec Fc'). unfold map2 in *. cbn [combine map fst snd]. rewrite fsum_cons, IH, Rsum_cons. unfold vm_pdf. rewrite E1, E2.
      destruct (Rleb_spec 0 (fst d)); [|lra]. destruct (Rleb_spec (fst d) (2 * PI)); [|lra]. destruct (Rltb_spec 0 (snd d)); [|lra]. reflexivity.
  - exfalso. apply in_map_iff in Hc. destruct Hc as (c0 & <- & Hc). exact (N c0 Hc Z).
Qed.
