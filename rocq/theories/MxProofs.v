(** The mixture densities of MovM, MoKJ and MoCD. *)
From Verif Require Import Prelude NpModel NpProofs CircleSpec UtilsModel UtilsProofs DescModel Desc2Model DescProofs DescSpec DescApi HypProofs HypMultiModel HypMulti2Model
  HypMultiSpec HypMultiProofs HypMulti7Proofs CorrModel CorrSpec CorrProofs Corr2Proofs Corr4Proofs Corr6Proofs ClusModel ClusSpec ClusProofs Clus2Proofs Clus3Proofs Clus4Proofs Clus8Proofs IntSpec IntProofs DistModel DistSpec DistProofs
  Dist7Proofs WnModel WnSpec WnProofs VonModel VonSpec VonProofs Von4Proofs KjSpec Kj2Proofs
  EmModel EmSpec EmProofs Em2Proofs Em3Proofs Em4Proofs Em5Proofs Em6Proofs Em7Proofs Em8Proofs MxModel MxSpec.

(** ** Mixtures of densities *)
Lemma mix_parts {P} (pdf : P -> R -> fl) ps cs : List.length ps = List.length cs -> Forall (fun q => 0 < q) ps ->
  Forall (fun c => pdf_is_density (pdf c)) cs ->
  exists f : R -> R, (forall x, fsum (map2 (fun q c => fmul q (pdf c x)) (map Fin ps) cs) = Fin (f x)) /\
    (forall x y, same_dir x y -> f x = f y) /\ (forall x, 0 <= f x) /\ integral f 0 (2 * PI) (Rsum ps).
Proof.
  pose proof PI_RGT_0 as HP. revert cs. induction ps as [|q ps IH]; intros [|c cs] L Q D; try discriminate L.
  - exists (fun _ => 0). split; [reflexivity|]. split; [reflexivity|]. split; [intros; lra|].
    apply (integral_val _ _ _ (0 * (2 * PI - 0))); [cbn; ring|apply integral_const].
  - inversion Q; subst. inversion D as [|? ? (g & G1 & G2 & G3 & G4) D']; subst.
    destruct (IH cs ltac:(cbn in L; lia) ltac:(assumption) D') as (f & F1 & F2 & F3 & F4).
    exists (fun x => q * g x + f x). split; [|split; [|split]].
    + intros x. unfold map2 in *. cbn [combine map fst snd]. rewrite fsum_cons, (F1 x), G1. reflexivity.
    + intros x y S. now rewrite (G2 x y S), (F2 x y S).
    + intros x. specialize (F3 x). specialize (G3 x). nra.
    + rewrite Rsum_cons. apply (integral_val _ _ _ (q * 1 + Rsum ps)); [ring|].
      apply integral_plus; [lra| |exact F4]. apply integral_scal; [lra|exact G4].
Qed.
Lemma mix_predicts {P} ex n (pdf : P -> R -> fl) (m : mix P) : shares (mx_p m) -> List.length (mx_p m) = List.length (mx_cs m) ->
  Forall (fun c => pdf_is_density (pdf c)) (mx_cs m) ->
  exists f, predicts_density (fun b k X => predict_density ex n pdf b k (Some m) (Some X)) f /\
    (forall b k, predict_density ex n pdf b k (Some m) None = Ok (map (fun x => Fin (f x)) (density_grid n b k))).
Proof.
  intros (ps & Ep & Q & S1) L D. rewrite Ep, map_length in L. destruct (mix_parts pdf ps (mx_cs m) L Q D) as (f & F1 & F2 & F3 & F4).
  assert (E : forall x, EmModel.density pdf m x = Fin (f x)) by (intros x; unfold EmModel.density; rewrite Ep; apply F1).
  exists f. split; [|intros b k; unfold predict_density; f_equal; apply map_ext; exact E].
  split; [exact F2|]. split; [split; [exact F3|]; rewrite <- S1; exact F4|].
  intros b k X. unfold predict_density. f_equal. rewrite to_rad_in. apply map_ext. exact E.
Qed.

(** ** MovM *)
Lemma i0_unique I0 iv k : is_i0 I0 -> is_iv iv -> I0 k = iv 0%nat k.
Proof.
  intros H J. pose proof PI_RGT_0. specialize (J 0%nat k). specialize (H k).
  assert (E : 2 * PI * I0 k = 2 * PI * iv 0%nat k); [|nra].
  eapply integral_unique; [exact H|]. revert J. apply integral_ext; [lra|]. intros x _. cbn [INR]. rewrite Rmult_0_l, cos_0. ring.
Qed.
Lemma is_i0_pos I0 : is_i0 I0 -> forall k, 0 < I0 k.
Proof. intros H k. destruct iv_exists as [iv J]. rewrite (i0_unique I0 iv k H J). now apply i0_pos. Qed.
Lemma von_pdf_dir iv mu k x y : same_dir x y -> von_pdf iv mu k x = von_pdf iv mu k y.
Proof.
  intros S. unfold von_pdf. do 2 f_equal. f_equal. apply same_dir_cos. destruct S as [z ->]. exists z. ring.
Qed.
Lemma vm_pdf_density I0 c mu k : is_i0 I0 -> vm_mu c = Fin mu -> vm_kappa c = Fin k -> 0 <= mu < 2 * PI -> 0 < k -> pdf_is_density (vm_pdf I0 c).
Proof.
  intros H E1 E2 Hm Hk. destruct iv_exists as [iv J].
  assert (O : von_ok mu k = true). { unfold von_ok. rewrite !(proj2 (Rleb_true _ _)) by lra. cbn [andb]. apply Rltb_true. lra. }
  destruct (von_density iv mu k J O) as (f & F1 & F2 & F3). exists f. split; [|auto]. intros x. rewrite <- (F1 x), O, public_pdf_fin.
  rewrite (von_pdf_dir iv mu k _ x (wrap_same x)). unfold vm_pdf. rewrite E1, E2. fold (von_ok mu k). rewrite O, (i0_unique I0 iv k H J). reflexivity.
Qed.
Lemma movm_mixture I0 cfg old cands X m : is_i0 I0 -> cfg_ok cfg -> Forall (fun l => List.length l = List.length X) cands ->
  movm_fit I0 cfg old cands X = Ok m ->
  (Forall (fun c => exists mu k, vm_mu c = Fin mu /\ vm_kappa c = Fin k) (mx_cs m) /\
   exists f, predicts_density (fun b k X => movm_predict_density I0 b k (Some m) (Some X)) f /\
     forall b k, movm_predict_density I0 b k (Some m) None = Ok (map (fun x => Fin (f x)) (density_grid 400 b k))) \/
  (exists c, In c (mx_cs m) /\ vm_mu c = NaN) /\ predicts_nothing (fun b k X => movm_predict_density I0 b k (Some m) (Some X)).
Proof.
  intros H HC CL E. destruct (movm_fit_spec I0 cfg old cands X m (is_i0_pos I0 H) HC CL E) as (_ & _ & _ & _ & _ & Lp & Lc & D).
  destruct D as [(S & cs & Ec & Fc & _)|(_ & (c & Hc & Z) & _)].
  - left. assert (Q : Forall (fun c => exists mu k, (vm_mu c = Fin mu /\ vm_kappa c = Fin k) /\ 0 <= mu < 2 * PI /\ 0 < k) (mx_cs m)).
    { clear - Ec Fc. revert cs Ec Fc. induction (mx_cs m) as [|c l IH]; intros [|d cs] Ec Fc; try discriminate Ec; constructor.
      - inversion Fc as [|? ? [A B] ?]; subst. cbn [map] in Ec. injection Ec as E1 E2 _. exists (fst d), (snd d). split; [split; assumption|]. split; lra.
      - inversion Fc; subst. cbn [map] in Ec. injection Ec as _ _ Ec. now apply (IH cs). }
    split; [eapply Forall_impl; [|exact Q]; intros c (mu & k & A & _); exists mu, k; exact A|].
    apply (mix_predicts TypeError 400 (vm_pdf I0) m S ltac:(congruence)).
    eapply Forall_impl; [|exact Q]. intros c (mu & k & (A & B) & M & K). now apply (vm_pdf_density I0 c mu k).
  - right. apply in_map_iff in Hc. destruct Hc as (c0 & <- & Hc). cbn [pars fst] in Z. split; [eauto|].
    intros b k Y. unfold movm_predict_density, predict_density. f_equal. rewrite to_rad_in.
    assert (N : forall x, EmModel.density (vm_pdf I0) m x = NaN).
    { intros x. unfold EmModel.density. assert (L : List.length (mx_p m) = List.length (mx_cs m)) by congruence. revert L Hc. generalize (mx_p m) (mx_cs m). clear - Z.
      induction l as [|q l IH]; intros [|c cs] L Hc; try discriminate L; [destruct Hc|]. unfold map2 in *. cbn [combine map fst snd]. rewrite fsum_cons. destruct Hc as [->|Hc].
      - unfold vm_pdf. rewrite Z. destruct q; reflexivity.
      - rewrite (IH cs ltac:(cbn in L; lia) Hc). destruct (fmul _ _); reflexivity. }
    unfold in_radians. destruct b; [|rewrite map_map]; apply map_ext; auto.
Qed.

(** ** MoKJ *)
Lemma fine_density c : fine c -> pdf_is_density (public_pdf (kj_argcheck c) (kj_pdf c)).
Proof.
  intros [Sp Hr]. apply Kj2Proofs.kj_density. split; [exact Sp|]. unfold rho_margin in Hr. lra.
Qed.
Lemma mokj_mixture moments mle tiny min_w cfg old kseed cands X m : 0 < tiny -> 0 < min_w -> cfg_ok cfg ->
  mokj_fit moments mle tiny min_w cfg old kseed cands X = Ok m ->
  exists f, predicts_density (fun b k X => mokj_predict_density b k (Some m) (Some X)) f /\
    forall b k, mokj_predict_density b k (Some m) None = Ok (map (fun x => Fin (f x)) (density_grid 400 b k)).
Proof.
  intros Ht Hm HC E. destruct (mokj_fit_spec _ _ _ _ _ _ _ _ _ _ Ht Hm HC E) as (labels & start & _ & _ & _ & L1 & L2 & S & _ & _ & _ & _ & FF).
  apply (mix_predicts ValueError 400 (fun c => public_pdf (kj_argcheck c) (kj_pdf c)) m S ltac:(congruence)).
  eapply Forall_impl; [|exact FF]. exact fine_density.
Qed.

(** ** MoCD *)
Definition came_from {P} (dfit : option string -> list R -> list fl -> res P) (methods : list (option string)) (c : P) : Prop :=
  exists a w, first_method (fun m => dfit m a w) methods c.
Lemma first_fit_method {P} (dfit : option string -> list R -> list fl -> res P) methods a w c :
  first_fit dfit methods a w = Ok c -> first_method (fun m => dfit m a w) methods c.
Proof.
  induction methods as [|m t IH]; [discriminate|]. cbn [first_fit]. destruct (dfit m a w) as [c0|e] eqn:E; intros H.
  - injection H as <-. now constructor.
  - eapply fm_next; [exact E|auto].
Qed.
Lemma fit_component_from {P} (dfit : option string -> list R -> list fl -> res P) methods a w old c :
  (forall d, old = Some d -> came_from dfit methods d) -> fit_component dfit methods a w old = Ok c -> came_from dfit methods c.
Proof.
  intros O H. unfold fit_component in H. destruct (match fsum w with Fin _ => _ | _ => _ end).
  - destruct old as [d|]; [injection H as <-; auto|]. eexists. eexists. eapply first_fit_method. exact H.
  - eexists. eexists. eapply first_fit_method. exact H.
Qed.
Lemma em_loop_inv {St} (Q : St -> Prop) step burnin thr : (forall s s' v, step s = Ok (s', v) -> Q s -> Q s') ->
  forall left it st hist st' h cv, em_loop step burnin thr left it st hist = Ok (st', h, cv) -> Q st -> Q st'.
Proof.
  intros HS. induction left as [|k IH]; intros it st hist st' h cv E H; cbn [em_loop] in E.
  - injection E as <- _ _. exact H.
  - destruct (step st) as [[s1 v]|] eqn:E1; [|discriminate]. cbn [bind] in E. pose proof (HS _ _ _ E1 H) as H1.
    destruct (_ && _); [injection E as <- _ _; exact H1|]. exact (IH _ _ _ _ _ _ E H1).
Qed.
Lemma Forall2_Forall_r {A B} (Rel : A -> B -> Prop) (Q : B -> Prop) l l' : Forall2 Rel l l' -> (forall a b, In a l -> Rel a b -> Q b) -> Forall Q l'.
Proof.
  induction 1 as [|a b l l' H F IH]; intros HQ; constructor.
  - apply (HQ a b); [now left|exact H].
  - apply IH. intros a0 b0 Hi. apply HQ. now right.
Qed.
Lemma mocd_from {P} (ld : P -> R -> fl) dfit methods cfg old cands X m :
  mocd_fit ld dfit methods cfg old cands X = Ok m -> Forall (came_from dfit methods) (mx_cs m).
Proof.
  intros E. unfold mocd_fit in E. destruct X as [|x0 X0]; [discriminate|]. cbv zeta in E.
  destruct (Nat.ltb _ _); [discriminate|]. destruct (pick _ _) as [labels|]; [|discriminate]. cbn [bind] in E.
  destruct (rmap _ _) as [cs|] eqn:EC; [|discriminate]. cbn [bind] in E.
  destruct (em_loop _ _ _ _ _ _ _) as [[[[p cs'] hist] cv]|] eqn:EL; [|discriminate]. cbn [bind] in E. injection E as <-.
  cbn [mx_cs finish].
  apply (em_loop_inv (fun st : list fl * list P => Forall (came_from dfit methods) (snd st)) _ _ _) in EL.
  - exact EL.
  - intros [q ds] [q' ds'] v ES FD. unfold mocd_step in ES. cbn [snd] in *.
    clear EC EL. cbv beta iota zeta in ES. destruct (rmap _ _) as [ds1|] eqn:ER; [|discriminate]. cbn [bind] in ES. assert (ds1 = ds') by congruence. subst ds1.
    apply rmap_F2 in ER. eapply Forall2_Forall_r; [exact ER|]. intros [k c] b Hi Hb. cbn [fst snd] in Hb.
    assert (Hc : came_from dfit methods c) by (apply in_combine_r in Hi; exact (proj1 (Forall_forall _ _) FD c Hi)).
    destruct (fsum _); try (refine (fit_component_from _ _ _ _ _ _ _ Hb); intros d Hd; injection Hd as <-; exact Hc).
    destruct (isclose _ _); [injection Hb as <-; exact Hc|]. refine (fit_component_from _ _ _ _ _ _ _ Hb); intros d Hd; injection Hd as <-; exact Hc.
  - cbn [snd]. apply rmap_F2 in EC. eapply Forall2_Forall_r; [exact EC|]. intros k b _ Hb. cbv zeta in Hb.
    refine (fit_component_from _ _ _ _ _ _ _ Hb). discriminate.
Qed.
Lemma came_from_one {P} (dfit : option string -> list R -> list fl -> res P) methods c : came_from dfit methods c ->
  exists meth a w, In meth methods /\ dfit meth a w = Ok c.
Proof.
  intros (a & w & F). induction F as [m ms c H|m ms e c H F IH].
  - exists m, a, w. split; [now left|exact H].
  - destruct IH as (m' & a' & w' & Hi & H'). exists m', a', w'. split; [now right|exact H'].
Qed.
Lemma mocd_mixture {P} (pdf ld : P -> R -> fl) dens dfit methods cfg old cands X m :
  (forall m a w c, dfit m a w = Ok c -> log_of ld dens c /\ pdf_is_density (pdf c)) -> cfg_ok cfg ->
  mocd_fit ld dfit methods cfg old cands X = Ok m ->
  exists f, predicts_density (fun b k X => mocd_predict_density pdf b k (Some m) (Some X)) f /\
    forall b k, mocd_predict_density pdf b k (Some m) None = Ok (map (fun x => Fin (f x)) (density_grid 200 b k)).
Proof.
  intros HF HC E. destruct (mocd_fit_spec ld dens dfit methods cfg old cands X m (fun m a w c H => proj1 (HF m a w c H)) HC E) as (labels & start & _ & _ & _ & L1 & L2 & S & _).
  apply (mix_predicts ValueError 200 pdf m S ltac:(congruence)).
  eapply Forall_impl; [|exact (mocd_from _ _ _ _ _ _ _ _ E)]. intros c Hc. destruct (came_from_one _ _ _ Hc) as (me & a & w & _ & H). exact (proj2 (HF me a w c H)).
Qed.
