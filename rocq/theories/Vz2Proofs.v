(** Lemmas on [circ_plot]. *)
From Coq Require Import String.
From Verif Require Import Prelude NpModel DescModel Desc2Model HypMultiModel BaseModel BaseProofs VzModel VzSpec VzProofs.
Import ListNotations.
Open Scope R_scope.
Open Scope list_scope.

Ltac pstep H := match type of H with pbind ?e _ = Draw _ => let E := fresh "E" in let x := fresh "x" in remember e as x eqn:E in H; symmetry in E; destruct x; cbn [pbind] in H; [|discriminate H] end.
Lemma item_get c k v : item (VDict c) k = Draw v -> dget k c = Some v.
Proof. cbn. destruct (dget k c); congruence. Qed.
Lemma item_look v k x : item v k = Draw x -> look v [k] = Some x.
Proof. destruct v; cbn; try discriminate. destruct (dget k items); congruence. Qed.
Lemma number_inv v x : number v = Draw x -> v = VNum x.
Proof. destruct v; cbn; congruence. Qed.

(** The parts of a plot. *)
Lemma plot_inv nonpar mixture o config p : circ_plot nonpar mixture o config = Draw p ->
  exists c dens rose mean median,
    merge_dicts default_config (VDict (match config with Some d => d | None => [] end)) = Draw c /\
    dget "density" c = Some dens /\ dget "rose" c = Some rose /\ dget "mean" c = Some mean /\ dget "median" c = Some median /\
    dget "spine" c = Some (p_spine p) /\
    (o_grouped o = false -> exists out r0, dget "outward" c = Some out /\ look (VDict c) ["scatter"; "r_start"]%string = Some (VNum r0) /\ scatter (truthy out) r0 (o_alpha o) = Draw (p_scatter p)) /\
    (o_grouped o = true -> p_scatter p = []) /\
    (truthy rose = true -> exists beta w, rose_data rose o = Draw (beta, w) /\ p_bars p = bars beta w /\
       (dget "width" c = None -> p_width p = 2 * PI / INR (List.length beta)) /\
       (o_grouped o = true -> truthy dens = true -> mixture <> None /\ dget "rlim_max" c <> None)) /\
    (truthy rose = false -> p_bars p = []) /\
    (truthy mean = true -> exists ci, look mean ["ci"]%string = Some ci /\ p_mean_arc p = if truthy ci then Some (arc (o_mean_ci o)) else None) /\
    (truthy mean = false -> p_mean_arc p = None) /\
    (truthy median = true -> exists ci, look median ["ci"]%string = Some ci /\
       if truthy ci then exists mci, o_median_ci o = Some mci /\ p_median_arc p = Some (arc mci) else p_median_arc p = None) /\
    (truthy median = false -> p_median_arc p = None).
Proof.
  unfold circ_plot. intros H. cbv zeta in H. pstep H. rename a into c. pstep H. rename a into dens. pstep H. rename a into pts. pstep H. rename a into rose.
  pstep H. destruct a as [[bs width] extra]. cbv iota zeta in H. pstep H. rename a into mean. pstep H. rename a into marc. pstep H. rename a into median. pstep H. rename a into medarc.
  pstep H. rename a into spine. pstep H. rename a into rad. pstep H. injection H as <-. cbn [p_scatter p_bars p_width p_mean_arc p_median_arc p_spine].
  exists c, dens, rose, mean, median. repeat (split; [first [reflexivity|assumption|apply item_get; assumption]|]). repeat apply conj.
  - intros G. rewrite G in E1. do 11 pstep E1.
    match goal with H : (match ?d with _ => _ end) = Draw pts |- _ => assert (Hp : pts = (a4, d)) by (clear - H; repeat match type of H with (match ?e with _ => _ end) = _ => destruct e; try discriminate end; congruence) end. subst pts. cbn [fst]. exists a0, a3. apply number_inv in E14. subst.
    split; [apply item_get; assumption|]. split; [|assumption]. cbn [look]. rewrite (item_get _ _ _ E12). exact (item_look _ _ _ E13).
  - intros G. rewrite G in E1. injection E1 as <-. reflexivity.
  - intros T. rewrite T in E3. pstep E3. destruct a0 as [beta w]. cbv iota zeta in E3. do 7 pstep E3. injection E3 as <- <- <-. exists beta, w. split; [exact E11|]. split; [reflexivity|]. split.
    + intros N. cbn [get] in E12. rewrite N in E12. injection E12 as <-. cbn in E13. injection E13 as <-. reflexivity.
    + intros G D. rewrite G, D in E18. cbn [andb] in E18. destruct mixture; [|discriminate]. split; [discriminate|]. pstep E18. intros N. apply item_get in E3. congruence.
  - intros T. rewrite T in E3. pstep E3. destruct a0; try discriminate. injection E3 as <- <- <-. reflexivity.
  - intros T. rewrite T in E5. pstep E5. pstep E5. exists a1. split; [exact (item_look _ _ _ E12)|]. destruct (truthy a1); [pstep E5|]; injection E5 as <-; reflexivity.
  - intros T. rewrite T in E5. injection E5 as <-. reflexivity.
  - intros T. rewrite T in E7. pstep E7. pstep E7. exists a1. split; [exact (item_look _ _ _ E12)|]. destruct (truthy a1); [|injection E7 as <-; reflexivity].
    destruct (o_median_ci o) as [mci|]; [|discriminate]. injection E7 as <-. eauto.
  - intros T. rewrite T in E7. injection E7 as <-. reflexivity.
Qed.

(** * Grouped data *)
Lemma grouped_default nonpar mixture o : o_grouped o = true -> exists e, circ_plot nonpar mixture o None = Raise e /\ (mixture = None -> e = PAttributeError) /\ (mixture <> None -> e = PKeyError).
Proof.
  intros G. unfold circ_plot. cbn -[PI INR]. rewrite G. cbn -[PI INR]. unfold rose_data. rewrite G. cbn -[PI INR]. assert (T : negb (Reqb (IZR (- 1)) 0) = true \/ True) by (right; exact I).
  destruct mixture; cbn; eexists; (split; [reflexivity|split; congruence]).
Qed.
Definition off_for_groups : dict := [("density", VBool false); ("median", VBool false)]%string.
Lemma grouped_off nonpar mixture o : o_grouped o = true -> exists p, circ_plot nonpar mixture o (Some off_for_groups) = Draw p /\ p_bars p = bars (o_alpha o) (o_w o) /\
  p_width p = 2 * PI / INR (List.length (o_alpha o)) /\ p_mean_arc p = Some (arc (o_mean_ci o)).
Proof.
  intros G. unfold circ_plot. cbn -[PI INR bars arc]. rewrite G. cbn -[PI INR bars arc]. unfold rose_data. rewrite G. cbn -[PI INR bars arc]. eexists. split; [reflexivity|]. cbn -[PI INR bars arc]. auto.
Qed.
Lemma grouped_needs x g o k nonpar mixture config p : circular x g = Ok (o, k) -> o_grouped o = true -> circ_plot nonpar mixture o config = Draw p ->
  exists c, merge_dicts default_config (VDict (match config with Some d => d | None => [] end)) = Draw c /\
    (exists v, (dget "rose" c = Some v \/ dget "density" c = Some v) /\ truthy v = false \/ mixture <> None /\ dget "rlim_max" c = Some v) /\
    (exists v, (look (VDict c) ["median"]%string = Some v \/ look (VDict c) ["median"; "ci"]%string = Some v) /\ truthy v = false).
Proof.
  intros Hc G Hp. destruct (plot_inv _ _ _ _ _ Hp) as (c & dens & rose & mean & median & E & Ed & Er & Em & Emd & _ & _ & _ & Hr & _ & _ & _ & Hm & _). exists c. split; [exact E|]. split.
  - destruct (truthy rose) eqn:T; [|exists rose; auto]. destruct (Hr eq_refl) as (beta & w & _ & _ & _ & H). destruct (truthy dens) eqn:D; [|exists dens; auto].
    destruct (H G eq_refl) as [M L]. destruct (dget "rlim_max" c) as [v|] eqn:R; [|congruence]. exists v. right. auto.
  - cbn [look]. rewrite Emd. destruct (truthy median) eqn:T; [|exists median; auto]. destruct (Hm eq_refl) as (ci & L & H). cbn [look] in L.
    destruct median as [| | | | |md]; try discriminate. destruct (dget "ci" md) as [v|] eqn:V; [|discriminate]. injection L as ->.
    destruct (truthy ci) eqn:C; [|exists ci; split; [right; reflexivity|exact C]].
    destruct H as (mci & M & _). destruct (circular_inv _ _ _ _ Hc) as (pp & a0 & I). repeat match type of I with _ /\ _ => let J := fresh in destruct I as [J I] end.
    rewrite G in I. injection I as I. congruence.
Qed.
(** * Single angles *)
Lemma single_default nonpar mixture o : o_grouped o = false -> o_alpha o <> [] ->
  match o_median_ci o with
  | Some _ => exists p, circ_plot nonpar mixture o None = Draw p
  | None => circ_plot nonpar mixture o None = Raise PAttributeError
  end.
Proof.
  intros G N. unfold circ_plot. cbn -[PI INR bars arc scatter rose_data]. rewrite G. cbn -[PI INR bars arc scatter rose_data].
  destruct (o_alpha o) as [|a t] eqn:A; [congruence|]. cbn -[PI INR bars arc rose_data unique round3].
  set (rd := rose_data _ o). assert (R : exists b w, rd = Draw (b, w)).
  { subst rd. unfold rose_data. rewrite G. cbn [item dget number String.eqb Ascii.eqb Bool.eqb pbind].
    assert (F : Rfloor 12 = 12%Z). { unfold Rfloor. replace 12 with (INR 12) by (cbn; lra). rewrite Int_part_INR. reflexivity. }
    cbn -[Rfloor even_edges centers hist_counts]. rewrite F. cbn -[even_edges centers hist_counts]. eexists; eexists; reflexivity. }
  destruct R as (b & w & ->). cbn -[PI INR bars arc]. destruct (o_median_ci o); cbn -[PI INR bars arc]; [eexists|]; reflexivity.
Qed.
Lemma single_built x g o k : circular x g = Ok (o, k) -> o_grouped o = false -> o_alpha o <> [].
Proof.
  intros Hc G. destruct (circular_inv _ _ _ _ Hc) as (p & a0 & _ & _ & Ep & _ & Ea & _ & Eg & _ & _ & En & _ & _ & Hn & _).
  rewrite Ea. intros Z. assert (W : p_w p = ones (p_alpha p)).
  { rewrite G in Eg. unfold prepare in Ep. destruct (a_bins g); [|destruct (a_w g) as [w|]].
    - destruct (hist_edges b); cbn in Ep; try discriminate. 
      match type of Ep with context [list_min ?l] => destruct (list_min l) end; cbn in Ep; try discriminate; injection Ep as <-; discriminate.
    - destruct (negb _); [discriminate|]. destruct w; [discriminate|]. match type of Ep with context [list_min ?l] => destruct (list_min l) end; cbn in Ep; try discriminate. injection Ep as <-. discriminate.
    - injection Ep as <-. reflexivity. }
  rewrite W, Z in En. cbn in En. assert (T : trunc 0 = 0%Z). { unfold trunc. destruct (Rltb_spec 0 0); [lra|]. unfold Rfloor. change 0 with (INR 0). rewrite Int_part_INR. reflexivity. }
  rewrite T in En. lia.
Qed.
