From Verif Require Import Prelude NpModel NpProofs CircleSpec UtilsModel UtilsProofs DescModel Desc2Model DescProofs
  DescSpec DescApi DescApi2 HypProofs HypMultiModel HypMulti2Model HypMultiSpec HypMultiProofs HypMulti7Proofs
  CorrSpec CorrProofs Corr2Proofs Corr4Proofs Corr6Proofs ClusModel ClusSpec ClusProofs Clus2Proofs Clus3Proofs Clus4Proofs
  EmModel EmSpec EmProofs Em2Proofs Em3Proofs Em4Proofs Em5Proofs Em6Proofs Em7Proofs.

(** * MovM: a NaN mean spreads *)
Definition broken (s : list fl * list (fl * fl)) : Prop := In NaN (fst s) \/ exists c, In c (snd s) /\ fst c = NaN.
Lemma not_nan_map ps : ~ In NaN (map Fin ps).
Proof. intros H. apply in_map_iff in H. destruct H as (? & ? & _). discriminate. Qed.
Lemma broken_not_num s ps cs : s = (map Fin ps, map (fun c : R * R => (Fin (fst c), Fin (snd c))) cs) -> ~ broken s.
Proof.
  intros -> [H|(c & H & E)]; [now apply not_nan_map in H|]. cbn [snd] in H. apply in_map_iff in H. destruct H as (d & <- & _). discriminate.
Qed.
Lemma broken_pass I0 kap alpha s s' v : broken s -> snd s <> [] -> vm_pass I0 kap alpha s s' v ->
  v = NaN /\ undefined (fst s') /\ Forall (fun c => c = (NaN, NaN)) (snd s') /\ broken s' /\ snd s' <> [].
Proof.
  intros B N [(ps & cs & qs & G & E & _)|(_ & L1 & L2 & U & F & V)]; [now apply broken_not_num in E|]. split; auto. split; auto. split; auto.
  assert (N2 : snd s' <> []) by (intros Z; rewrite Z in L2; apply N; now apply length_zero_iff_nil). split; auto.
  right. destruct (snd s') as [|c cs]; [congruence|]. exists c. split; [now left|]. inversion F; subst. reflexivity.
Qed.
Lemma broken_passes I0 kap alpha s hist s' : passes (vm_pass I0 kap alpha) s hist s' -> broken s -> snd s <> [] ->
  broken s' /\ Forall (fun v => v = NaN) hist /\ (hist <> [] -> undefined (fst s') /\ Forall (fun c => c = (NaN, NaN)) (snd s')).
Proof.
  intros P. induction P as [|s v s1 vs s' E P IH]; intros B N; [split; auto; split; [constructor|congruence]|].
  destruct (broken_pass _ _ _ _ _ _ B N E) as (V & U & F & B1 & N1). destruct (IH B1 N1) as (A1 & A2 & A3). split; auto. split; [constructor; auto|].
  intros _. destruct P as [|]; [auto|]. apply A3. discriminate.
Qed.
Lemma nan_dropped hist : Forall (fun v => v = NaN) hist -> filter (fun v => match v with NaN => false | _ => true end) hist = [].
Proof. induction 1 as [|v h -> F IH]; auto. Qed.
Lemma nan_never_stops burnin thr hist j : Forall (fun v => v = NaN) hist -> ~ may_stop burnin thr hist j.
Proof.
  intros F (_ & u & v & E1 & _ & a & b & Ea & _). apply nth_error_In in E1. rewrite Forall_forall in F. rewrite (F u E1) in Ea. discriminate.
Qed.
(** If the angles of one starting group balance out, the whole fit is NaN. *)
Lemma movm_balanced I0 cfg old cands X m labels c : (forall x, 0 < I0 x) -> cfg_ok cfg -> 
  cands = [labels] -> length labels = length X -> (c < c_K cfg)%nat ->
  let alpha := in_radians (c_radian cfg) (c_cycle cfg) X in
  Rsum (map cos (labelled alpha labels c)) = 0 -> Rsum (map sin (labelled alpha labels c)) = 0 ->
  movm_fit I0 cfg old cands X = Ok m ->
  undefined (mx_p m) /\ Forall (fun c => pars c = (NaN, NaN)) (mx_cs m) /\ Forall undefined (mx_gamma m) /\
  mx_labels m = repeat 0%nat (length X) /\ mx_nll m = [] /\ mx_flags m = old.
Proof.
  intros HI HC -> LL Hc alpha Z1 Z2 E. destruct (movm_fit_spec I0 cfg old [labels] X m HI HC ltac:(constructor; auto) E) as (lab & start & A & B & (hist & cv & P & SR & E1 & E2) & L1 & L2 & R0).
  fold alpha in B, P, R0. destruct A as [<-|[]]. destruct B as (B1 & B2 & B3 & B4).
  destruct (nth_error (snd start) c) as [d|] eqn:Ed; [|apply nth_error_None in Ed; lia].
  specialize (B4 c d Ed). assert (NG : labelled alpha labels c <> []).
  { apply subset_nonempty; [unfold alpha; now rewrite in_radians_length|]. auto. }
  assert (S1 : forall f g, wsum f g (repeat 1 (length g)) = Rsum (map f g)).
  { clear. intros f g. induction g as [|x g IH]; cbn [length repeat wsum map]; [now rewrite Rsum_nil|]. rewrite Rsum_cons, IH. ring. }
  assert (BR : broken start).
  { right. exists d. split; [eapply nth_error_In; eauto|]. unfold vm_refit in B4. rewrite !S1, ones_sum, Z1, Z2 in B4.
    assert (1 <= INR (length (labelled alpha labels c))).
    { destruct (labelled alpha labels c) as [|y l]; [congruence|]. cbn [length]. rewrite S_INR. pose proof (pos_INR (length l)). lra. }
    destruct B4 as [[H0 _]|(_ & r & R1 & R2 & _ & [[_ F]|(R3 & _)])]; [lra|exact F|exfalso].
    assert (r = 0); [|lra]. assert (r ^ 2 * INR (length (labelled alpha labels c)) ^ 2 = (r * INR (length (labelled alpha labels c))) ^ 2) by ring.
    assert (0 < r * INR (length (labelled alpha labels c))) by (apply Rmult_lt_0_compat; lra). nra. }
  assert (NS : snd start <> []) by (intros Q; rewrite Q in B3; cbn in B3; destruct HC; lia).
  destruct (broken_passes _ _ _ _ _ _ P BR NS) as (B5 & B6 & B7).
  assert (NH : hist <> []).
  { destruct HC as (_ & HN & _). destruct cv as [k|]; [destruct SR as (_ & _ & Lk & Hk & _)|destruct SR as (_ & _ & Lk & _)]; intros ->; cbn in Lk; lia. }
  destruct (B7 NH) as [U F]. cbn [fst snd] in U, F.
  split; auto. split; [apply Forall_forall; intros d0 Hd; rewrite Forall_forall in F; apply F; now apply in_map|].
  destruct R0 as [((ps & Ep & _) & _)|(_ & _ & N1 & N2 & N3)].
  { exfalso. destruct HC as (HK & _). destruct (mx_p m) as [|q p]; [cbn in L1; lia|]. inversion U; subst. destruct ps; discriminate. }
  split; [eapply Forall_impl; [|exact N2]; cbn; tauto|]. unfold alpha in N3. rewrite in_radians_length in N3. split; auto.
  split; [rewrite E1; now apply nan_dropped|]. rewrite E2. destruct cv as [k|]; auto. destruct SR as (_ & _ & _ & _ & M). exfalso. exact (nan_never_stops _ _ _ _ B6 M).
Qed.
(** A fit only fails for bad input or for want of initial labels. *)
Lemma em_loop_total {St} (step : St -> res (St * fl)) burnin thr : (forall s, exists r, step s = Ok r) ->
  forall left it st hist, exists out, em_loop step burnin thr left it st hist = Ok out.
Proof.
  intros H. induction left as [|k IH]; intros it st hist; cbn [em_loop]; [eauto|]. destruct (H st) as [[st' v] ->]. cbn [bind].
  destruct (_ && _); [eauto|apply IH].
Qed.
Lemma movm_fit_total I0 cfg old cands X : (c_K cfg <= length X)%nat -> X <> [] -> (exists l, In l cands /\ covers (c_K cfg) l = true) ->
  exists m, movm_fit I0 cfg old cands X = Ok m.
Proof.
  intros L N (l & Hl & Cl). unfold movm_fit. destruct X as [|x X]; [congruence|]. rewrite to_rad_in, in_radians_length.
  destruct (Nat.ltb_spec (length (x :: X)) (c_K cfg)) as [Z|_]; [lia|]. unfold pick. destruct (find (covers (c_K cfg)) cands) as [l'|] eqn:E.
  - cbn [bind]. match goal with |- context [em_loop ?s ?b ?t ?n ?i ?st ?h] => destruct (em_loop_total s b t ltac:(intros [p cs]; eexists; reflexivity) n i st h) as [[[[p cs] hh] cv] ->] end.
    cbn [bind]. eauto.
  - pose proof (find_none _ _ E l Hl). congruence.
Qed.

(** * Stale flags *)
Lemma movm_flags I0 cfg old cands X m : movm_fit I0 cfg old cands X = Ok m ->
  (mx_flags m = old \/ exists k, mx_flags m = (true, Some k)) /\
  forall old', exists m', movm_fit I0 cfg old' cands X = Ok m' /\ mx_p m' = mx_p m /\ mx_cs m' = mx_cs m /\ mx_gamma m' = mx_gamma m /\
    mx_labels m' = mx_labels m /\ mx_nll m' = mx_nll m /\ (mx_flags m' = old' /\ mx_flags m = old \/ mx_flags m' = mx_flags m /\ exists k, mx_flags m = (true, Some k)).
Proof.
  unfold movm_fit. destruct X as [|x X]; [discriminate|]. destruct (Nat.ltb _ _); [discriminate|]. destruct (pick _ _); [|discriminate]. cbn [bind].
  destruct (em_loop _ _ _ _ _ _ _) as [[[[p cs] hist] cv]|]; [|discriminate]. cbn [bind]. intros E. injection E as <-. cbn [finish mx_flags mx_p mx_cs mx_gamma mx_labels mx_nll].
  split; [destruct cv; [right|left]; cbn; eauto|]. intros old'. eexists. split; [reflexivity|]. cbn [finish mx_flags mx_p mx_cs mx_gamma mx_labels mx_nll].
  repeat (split; [reflexivity|]). destruct cv as [k|]; [right|left]; cbn; eauto.
Qed.
