From Verif Require Import Prelude NpModel NpProofs CircleSpec UtilsModel UtilsProofs DescModel Desc2Model DescProofs
  DescSpec DescApi DescApi2 HypProofs HypMultiModel HypMulti2Model HypMultiSpec HypMultiProofs HypMulti7Proofs
  CorrSpec CorrProofs Corr2Proofs Corr4Proofs Corr6Proofs ClusModel ClusSpec ClusProofs Clus2Proofs Clus3Proofs Clus4Proofs
  EmModel EmSpec EmProofs Em2Proofs Em3Proofs Em4Proofs Em5Proofs Em6Proofs.

(** * MoCD *)
Lemma first_fit_spec {P} (dfit : option string -> list R -> list fl -> res P) methods alpha w c :
  first_fit dfit methods alpha w = Ok c -> first_method (fun m => dfit m alpha w) methods c.
Proof.
  induction methods as [|m ms IH]; cbn [first_fit]; [discriminate|]. destruct (dfit m alpha w) eqn:E.
  - intros H. injection H as <-. now apply fm_here.
  - intros H. eapply fm_next; eauto.
Qed.
Lemma first_method_in {M P} (fit : M -> res P) methods c : first_method fit methods c -> exists m, In m methods /\ fit m = Ok c.
Proof. induction 1 as [m ms c H|m ms e c H F (m' & I & E)]; [exists m|exists m']; cbn; auto. Qed.
Definition inv_cd {P} (ld : P -> R -> fl) (dens : P -> R -> R) (K : nat) (s : list fl * list P) : Prop :=
  length (fst s) = K /\ length (snd s) = K /\ shares (fst s) /\ Forall (log_of ld dens) (snd s).
Lemma mocd_step_spec {P} (ld : P -> R -> fl) dens dfit methods K alpha s s' v :
  (forall m a w c, dfit m a w = Ok c -> log_of ld dens c) -> alpha <> [] -> (1 <= K)%nat -> inv_cd ld dens K s ->
  mocd_step ld dfit methods K alpha s = Ok (s', v) -> cd_pass dens dfit methods alpha s s' v /\ inv_cd ld dens K s'.
Proof.
  intros HF Na HK (L1 & L2 & Sp & F) E. destruct s as [p cs]. cbn [fst snd] in *. unfold mocd_step in E.
  destruct (rmap _ _) as [cs'|] eqn:ER in E; [|discriminate]. cbn [bind] in E. injection E as <- <-.
  assert (Nc : cs <> []) by (intros ->; cbn in L2; lia).
  destruct Sp as (ps & -> & Pp & _). rewrite map_length in L1.
  destruct (gammas_bayes wt32 ld dens ps cs alpha Nc ltac:(congruence) (wt32_pos ps Pp) F) as (EG & PG & FG).
  rewrite (nll_terms wt32 ld dens ps cs alpha Nc ltac:(congruence) (wt32_pos ps Pp) F).
  rewrite EG in *. set (G := bayes_cols _ (map wt32 ps) cs alpha) in *. rewrite L2 in FG.
  assert (FGL : Forall (fun g => length g = K) G) by (eapply Forall_impl; [|exact FG]; cbn; tauto).
  assert (GN : G <> []) by (unfold G, bayes_cols; intros Z; apply map_eq_nil in Z; auto).
  destruct (new_weights_avg G K GN FG) as (EW & NW & PW & SW). rewrite EW.
  pose proof (rmap_F2 _ _ _ ER) as RF. assert (Lc : length cs' = K). { pose proof (F2_length _ _ _ RF) as Z. rewrite combine_length, seq_length in Z. lia. }
  assert (UP : forall c old new, nth_error cs c = Some old -> nth_error cs' c = Some new ->
     cd_refit dfit methods alpha (of_comp G c) old new /\ log_of ld dens new).
  { intros c old new Ho Hn. assert (Hc : (c < K)%nat) by (rewrite <- L2; apply nth_error_Some; congruence).
    assert (Lo : log_of ld dens old) by (rewrite Forall_forall in F; apply F; eapply nth_error_In; eauto).
    assert (GE : forall (f : nat * P -> res P) k (l : list P) ys, Forall2 (fun x y => f x = Ok y) (combine (seq k (length l)) l) ys ->
       forall c old new, nth_error l c = Some old -> nth_error ys c = Some new -> f ((k + c)%nat, old) = Ok new).
    { clear. intros f k l. revert k. induction l as [|x l IH]; intros k ys H c old new Ho Hn; [destruct c; discriminate|]. cbn [length seq combine] in H. inversion H as [|? ? ? ? E R]; subst.
      destruct c as [|c]; cbn in Ho, Hn.
      - injection Ho as ->. injection Hn as ->. rewrite Nat.add_0_r. exact E.
      - rewrite <- plus_n_Sm. apply (IH (S k) _ R c); auto. }
    pose proof (GE _ 0%nat cs cs' RF c old new Ho Hn) as U. cbn [plus fst snd] in U. rewrite (row_fin G K) in U by auto. rewrite fsum_fin in U.
    assert (W : 0 < Rsum (of_comp G c)).
    { apply pos_sum; [unfold of_comp; intros Z; apply map_eq_nil in Z; auto|now apply (of_comp_pos G K)]. }
    destruct (isclose (Rsum (of_comp G c)) 0) eqn:EI.
    - apply isclose0_true in EI; [|lra]. injection U as <-. split; auto. left. split; [lra|reflexivity].
    - apply isclose0_false in EI; [|lra]. unfold fit_component in U. rewrite fsum_fin in U.
      destruct (Rleb_spec (Rsum (of_comp G c)) (/ 10 ^ 12)) as [Z|_]; [exfalso; lra|]. apply first_fit_spec in U. split.
      + right. split; [lra|exact U].
      + destruct (first_method_in _ _ _ U) as (mt & _ & Em). eapply HF; eauto. }
  assert (Fc : Forall (log_of ld dens) cs').
  { apply Forall_forall. intros new Hn. apply In_nth_error in Hn. destruct Hn as [c Hn]. assert (Hc : (c < K)%nat) by (rewrite <- Lc; apply nth_error_Some; congruence).
    destruct (nth_error cs c) as [old|] eqn:Ho; [|apply nth_error_None in Ho; lia]. now apply (UP c old new). }
  split.
  - exists ps, (avg G K), G. cbn [fst snd]. split; auto. split; auto. split; [exact PG|]. split; auto.
    split; auto. split; auto. split; [congruence|]. split; [intros; now apply UP|reflexivity].
  - split; [|split; [|split]]; cbn [fst snd]; auto; [unfold avg; now rewrite !map_length, seq_length|]. exists (avg G K). auto.
Qed.
Definition cd_begin {M P} (dfit : M -> list R -> list fl -> res P) (methods : list M) (K : nat) (alpha : list R) (labels : list nat) (s : list fl * list P) : Prop :=
  (forall c, (c < K)%nat -> In c labels) /\ fst s = repeat (Fin (1 / INR K)) K /\ length (snd s) = K /\
  forall c new, nth_error (snd s) c = Some new ->
    first_method (fun m => dfit m (labelled alpha labels c) (map (fun _ => Fin 1) (labelled alpha labels c))) methods new.
Lemma ones_fsum {A} (g : list A) : fsum (map (fun _ => Fin 1) g) = Fin (INR (length g)).
Proof. induction g as [|x g IH]; [reflexivity|]. cbn [map length]. rewrite fsum_cons, IH, S_INR. f_equal. ring. Qed.
Lemma fit_component_start {P} (dfit : option string -> list R -> list fl -> res P) methods g c :
  fit_component dfit methods g (map (fun _ => Fin 1) g) None = Ok c -> first_method (fun m => dfit m g (map (fun _ => Fin 1) g)) methods c.
Proof.
  unfold fit_component. rewrite ones_fsum. destruct (Rleb (INR (length g)) (/ 10 ^ 12)); intros H; apply first_fit_spec in H; auto.
  rewrite map_map in H. exact H.
Qed.
Lemma mocd_fit_spec {P} (ld : P -> R -> fl) dens dfit methods cfg old cands X m :
  (forall m a w c, dfit m a w = Ok c -> log_of ld dens c) -> cfg_ok cfg ->
  mocd_fit ld dfit methods cfg old cands X = Ok m ->
  let alpha := in_radians (c_radian cfg) (c_cycle cfg) X in
  exists labels start, In labels cands /\ cd_begin dfit methods (c_K cfg) alpha labels start /\
    em_run (cd_pass dens dfit methods alpha) (c_burnin cfg) (c_threshold cfg) (c_iters cfg) start (mx_p m, mx_cs m) (mx_nll m) old (mx_flags m) /\
    length (mx_p m) = c_K cfg /\ length (mx_cs m) = c_K cfg /\ shares (mx_p m) /\
    responsibilities dens (fun q => q + / 10 ^ 32) (mx_p m) (mx_cs m) alpha (mx_gamma m) (mx_labels m) /\
    mx_alpha m = alpha /\ mx_gamma m = gammas wt32 ld (mx_p m) (mx_cs m) alpha /\ Forall (log_of ld dens) (mx_cs m).
Proof.
  intros HF (HK & HN & HT) E alpha. unfold mocd_fit in E. destruct X as [|x0 X0]; [discriminate|]. set (X := x0 :: X0) in *.
  rewrite to_rad_in in E. fold alpha in E. cbv zeta in E. destruct (Nat.ltb (length alpha) (c_K cfg)) eqn:EK; [discriminate|].
  destruct (pick _ _) as [labels|] eqn:EP; [|discriminate]. cbn [bind] in E.
  destruct (rmap _ _) as [cs0|] eqn:ER; [|discriminate]. cbn [bind] in E.
  destruct (em_loop _ _ _ _ _ _ _) as [[[[p cs] hist] cv]|] eqn:EL; [|discriminate]. cbn [bind] in E. injection E as <-.
  destruct (pick_spec _ _ _ EP) as [Pi Pc]. destruct (seq_rmap _ _ _ ER) as [L0 S0].
  assert (S1 : forall c new, nth_error cs0 c = Some new -> first_method (fun m => dfit m (labelled alpha labels c) (map (fun _ => Fin 1) (labelled alpha labels c))) methods new).
  { intros c new Hc. apply S0 in Hc. now apply fit_component_start. }
  assert (VI : inv_cd ld dens (c_K cfg) (even_weights (c_K cfg), cs0)).
  { split; [apply repeat_length|]. split; auto. split; [now apply even_shares|]. apply Forall_forall. intros c Hc. apply In_nth_error in Hc. destruct Hc as [i Hi].
    destruct (first_method_in _ _ _ (S1 i c Hi)) as (mt & _ & Em). eapply HF; eauto. }
  apply em_loop_ok in EL; [|reflexivity|intros j [_ (u & v & H & _)]; destruct (j - 1)%nat; discriminate].
  destruct EL as (more & -> & PS & SR). cbn [app] in *.
  assert (Na : alpha <> []) by (intros Z; pose proof (in_radians_length (c_radian cfg) (c_cycle cfg) X) as Z'; fold alpha in Z'; rewrite Z in Z'; discriminate).
  destruct (passes_map _ (cd_pass dens dfit methods alpha) (fun s => s) (inv_cd ld dens (c_K cfg)) _ _ _
    (fun s s' v => mocd_step_spec ld dens dfit methods (c_K cfg) alpha s s' v HF Na HK) PS VI) as [PS' (I1 & I2 & I3 & I4)].
  exists labels, (even_weights (c_K cfg), cs0). split; auto. split; [split; auto|]. cbn [finish mx_p mx_cs mx_nll mx_flags mx_gamma mx_labels mx_alpha].
  cbn [fst snd] in *. split; [exists more, cv; split; [exact PS'|split; [exact SR|split; [apply drop_nan_spec|reflexivity]]]|].
  split; auto. split; auto. split; auto.
  split; [|split; [auto|split; [reflexivity|exact I4]]].
  destruct I3 as (ps & Ep & Pp & _). rewrite Ep. assert (Lp : length ps = length cs) by (rewrite Ep, map_length in I1; congruence).
  assert (Nc : cs <> []) by (intros Z; rewrite Z in I2; cbn in I2; lia).
  apply (resp_ok wt32 ld dens ps cs alpha Nc Lp (wt32_pos ps Pp) I4).
Qed.

(** * The nLL history *)
Lemma all_fin_drop (hist : list fl) : Forall (fun v => is_nan v = false) hist -> filter (fun v => match v with NaN => false | _ => true end) hist = hist.
Proof. induction 1 as [|v h H F IH]; cbn; auto. destruct v; cbn in H; try discriminate; now rewrite IH. Qed.
Lemma passes_fin {St} (pass : St -> St -> fl -> Prop) s hist s' : (forall s s' v, pass s s' v -> exists a, v = Fin a) ->
  passes pass s hist s' -> Forall (fun v => is_nan v = false) hist.
Proof. intros H P. induction P as [|s v s1 vs s' E P IH]; constructor; auto. destruct (H _ _ _ E) as [a ->]. reflexivity. Qed.
(** When no entry is NaN, nLL has one entry per iteration. *)
Lemma run_full {St} (pass : St -> St -> fl -> Prop) burnin thr n s s' nLL old new :
  (forall s s' v, pass s s' v -> exists a, v = Fin a) -> em_run pass burnin thr n s s' nLL old new ->
  passes pass s nLL s' /\ (length nLL <= n)%nat /\
  (new = (true, Some (length nLL)) /\ stop_rule burnin thr n nLL (Some (length nLL)) \/ new = old /\ length nLL = n /\ stop_rule burnin thr n nLL None).
Proof.
  intros H (hist & cv & P & SR & E1 & E2). rewrite (all_fin_drop hist (passes_fin pass s hist s' H P)) in E1. subst nLL.
  split; auto. split; [apply SR|]. destruct cv as [k|].
  - left. destruct SR as (A & B & C & D & F). subst k. split; auto. split; auto.
  - right. split; auto. split; [apply SR|exact SR].
Qed.
