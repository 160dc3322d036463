(** Objects and configurations for the examples of VzProps. *)
From Coq Require Import String.
From Verif Require Import Prelude NpModel NpProofs CircleSpec UtilsModel UtilsProofs DescModel DescProofs DescSpec DescApi DescApi2 Desc2Model Desc2Spec Desc4Proofs Desc6Proofs Desc7Proofs Desc8Proofs Desc2Ex HypMultiModel HypModel ArcProofs
  BaseModel BaseSpec BaseProofs Base2Proofs Base3Proofs Base4Proofs Base5Proofs Base7Proofs Base9Proofs Base10Proofs BaseEx VzModel VzSpec VzProofs Vz2Proofs Vz3Proofs.
Import ListNotations.
Open Scope R_scope.
Open Scope list_scope.

(** The intervals of a built object have their bounds in [0, 2 pi). *)
Lemma mean_ci_range x alpha w m r n method lb ub : mean_ci x alpha w m r n method = Ok (Some (lb, ub)) -> 0 <= lb < 2 * PI /\ 0 <= ub < 2 * PI.
Proof.
  assert (G : forall a b, Ok (Some (angmod0 a, angmod0 b)) = Ok (Some (lb, ub)) -> 0 <= lb < 2 * PI /\ 0 <= ub < 2 * PI) by (intros a b H; injection H as <- <-; split; apply angmod0_range).
  unfold mean_ci. repeat match goal with |- context [String.eqb ?a ?b] => destruct (String.eqb a b) end; try discriminate.
  - destruct m; try discriminate. unfold ci_approximate. cbv zeta. repeat match goal with |- context [if ?b then _ else _] => destruct b | |- context [orient ?a ?b ?c] => destruct (orient a b c) end; intros H; first [discriminate H|eapply G, H].
  - destruct (ci_bootstrap _ _ _); cbn [bind]; [|discriminate]. intros H. eapply G, H.
  - destruct m; try discriminate. unfold ci_dispersion. cbv zeta. repeat match goal with |- context [if ?b then _ else _] => destruct b | |- context [orient ?a ?b ?c] => destruct (orient a b c) end; intros H; first [discriminate H|eapply G, H].
Qed.
Lemma built_mean_ci x g o k lb ub : circular x g = Ok (o, k) -> o_mean_ci o = Some (lb, ub) -> 0 <= lb < 2 * PI /\ 0 <= ub < 2 * PI.
Proof.
  intros Hc E. destruct (circular_inv _ _ _ _ Hc) as (p & a0 & I). do 17 (destruct I as [_ I]). destruct I as [I _]. rewrite E in I.
  destruct (o_method o); [|discriminate]. destruct (Rltb _ _); [|discriminate]. eapply mean_ci_range, I.
Qed.
Lemma median_ci_range alpha m z lb ub : circ_median_ci alpha m z = Ok (Some (lb, ub)) -> 0 <= lb < 2 * PI /\ 0 <= ub < 2 * PI.
Proof.
  assert (G : forall a b, Ok (Some (angmod0 a, angmod0 b)) = Ok (Some (lb, ub)) -> 0 <= lb < 2 * PI /\ 0 <= ub < 2 * PI) by (intros a b H; injection H as <- <-; split; apply angmod0_range).
  unfold circ_median_ci, circ_median_ci_large. destruct (Nat.ltb _ _).
  - destruct (median_ci_indices _ _ _). cbv zeta. destruct (py_index _ _); [|discriminate]. cbn [bind]. destruct (py_index _ _); [|discriminate]. cbn [bind]. destruct (orient _ _ _). cbn [bind]. apply G.
  - destruct (median_ci_table _) as [[i j]|]; [|discriminate]. cbv zeta. destruct (nth_err _ _); [|discriminate]. cbn [bind]. destruct (nth_err _ _); [|discriminate]. cbn [bind]. apply G.
Qed.
Lemma built_median_ci x g o k : circular x g = Ok (o, k) -> (o_grouped o = false -> o_median o <> MNaN -> o_median_ci o <> None) /\ (o_grouped o = true \/ o_median o = MNaN -> o_median_ci o = None) /\
  forall lb ub, o_median_ci o = Some (Some (lb, ub)) -> 0 <= lb < 2 * PI /\ 0 <= ub < 2 * PI.
Proof.
  intros Hc. destruct (circular_inv _ _ _ _ Hc) as (p & a0 & I). repeat match type of I with _ /\ _ => destruct I as [_ I] end. destruct (o_grouped o).
  - injection I as <-. split; [discriminate|split; [reflexivity|discriminate]].
  - destruct (o_median o); try discriminate.
    + injection I as <-. split; [congruence|split; [reflexivity|discriminate]].
    + destruct (circ_median_ci _ _ _) eqn:E; [|discriminate]. cbn [bind] in I. injection I as <-. split; [discriminate|]. split; [intros [H|H]; discriminate|]. intros lb ub H. injection H as ->. eapply median_ci_range, E.
Qed.

(** Three observations at 90 degrees: the interval of the median is the point pi/2. *)
Definition three_same : args := plain [90; 90; 90] "degree".
Lemma three_same_ok x : exists o, circular x three_same = Ok (o, None) /\ o_grouped o = false /\ o_alpha o = [PI / 2; PI / 2; PI / 2] /\ o_median o = MOne (PI / 2) /\ o_median_ci o = Some (Some (PI / 2, PI / 2)).
Proof.
  pose proof PI_RGT_0. destruct (plain_one x three_same 360 (PI / 2) 3) as (o & E & _ & _ & _ & Em & _ & Ea); try reflexivity; try lra; try lia.
  { cbn [to_alpha three_same plain a_data a_rotate map repeat]. unfold data2rad. do 2 f_equal; [|f_equal; [|f_equal]]; field. }
  destruct (circular_inv _ _ _ _ E) as (p & a0 & _ & _ & I3 & _ & _ & _ & I7 & I). cbn [three_same plain a_w a_bins prepare] in I3. injection I3 as <-. cbn [p_grouped] in I7.
  repeat match type of I with _ /\ _ => destruct I as [_ I] end. exists o. repeat split; auto.
  rewrite I7, Em, Ea in I. unfold circ_median_ci in I. rewrite nsort_repeat in I. cbn in I. rewrite angmod0_id in I by lra. injection I as <-. reflexivity.
Qed.
(** Thirteen observations at -90 degrees and thirteen at 0. *)
Definition turned : args := with_median (plain (repeat (-90) 13 ++ repeat 0 13) "degree") no_median.
Lemma turned_alpha : map (angle_of 360) (repeat (-90) 13 ++ repeat 0 13) = repeat (- (PI / 2)) 13 ++ repeat 0 13.
Proof. rewrite map_app, !repeat_map. f_equal; f_equal; unfold angle_of; field. Qed.
Lemma turned_r : circ_r (map (angle_of 360) (repeat (-90) 13 ++ repeat 0 13)) None = sqrt (1/2).
Proof.
  rewrite turned_alpha. unfold circ_r. cbn [weights]. set (al := (_ ++ _)%list).
  destruct (ones_sums al) as (O1 & O2 & O3). rewrite circ_r_s_eq by (rewrite O3; unfold al; cbn; lra).
  unfold Rlen. rewrite O1, O2, O3.
  assert (C : Rsum (map cos al) = 13 /\ Rsum (map sin al) = - 13).
  { unfold al. cbn [repeat app map]. rewrite cos_neg, sin_neg, cos_0, sin_0, cos_PI2, sin_PI2. repeat rewrite ?Rsum_cons, ?Rsum_nil. split; lra. }
  destruct C as (-> & ->). unfold al. cbn [repeat app List.length].
  replace (INR 26) with (sqrt (26 * 26)) by (rewrite sqrt_square by lra; cbn; lra).
  rewrite <- sqrt_div_alt by lra. f_equal. field.
Qed.
Lemma turned_ok x : 0 < x_z x <= 2 -> exists o, circular x turned = Ok (o, None) /\ o_grouped o = false /\ o_alpha o = repeat (- (PI / 2)) 13 ++ repeat 0 13 /\ o_median o = MNaN.
Proof.
  intros Hz. destruct (large_built x turned 360) as (o & E & Em & N); auto.
  - left. split; reflexivity.
  - cbn. lia.
  - cbn [turned with_median plain a_data]. rewrite turned_r. apply Rle_lt_trans with (3/4); [|unfold conc_limit; lra]. rewrite <- (sqrt_square (3/4)) by lra. apply sqrt_le_1_alt. lra.
  - destruct (circular_inv _ _ _ _ E) as (p & a0 & I1 & I2 & I3 & _ & I5 & I6 & I7 & _).
    cbn in I1. injection I1 as I1. rewrite <- I1 in I2. cbn [turned with_median plain a_data a_rotate to_alpha] in I2.
    change (map (fun y => data2rad y 360) (repeat (-90) 13 ++ repeat 0 13)) with (map (angle_of 360) (repeat (-90) 13 ++ repeat 0 13)) in I2. rewrite turned_alpha in I2.
    assert (A0 : a0 = repeat (- (PI / 2)) 13 ++ repeat 0 13) by congruence. subst a0. cbn [turned with_median plain a_w a_bins prepare] in I3. 
    assert (P1 : p_alpha p = repeat (- (PI / 2)) 13 ++ repeat 0 13) by (remember (repeat (- (PI / 2)) 13 ++ repeat 0 13) as al; injection I3 as <-; reflexivity).
    assert (P2 : p_grouped p = false) by (remember (repeat (- (PI / 2)) 13 ++ repeat 0 13) as al; injection I3 as <-; reflexivity).
    exists o. rewrite <- P1, <- P2. auto.
Qed.

(** Configurations that draw single angles. *)
Definition show_spine : dict := [("spine", VBool true)]%string.
Definition twelve_bins : dict := [("median", VBool false); ("rose", VDict [("bins", VNum (INR 12))])]%string.
Lemma draws_bins nonpar mixture o : o_grouped o = false -> o_alpha o <> [] -> exists p, circ_plot nonpar mixture o (Some twelve_bins) = Draw p.
Proof.
  intros G N. unfold circ_plot. cbn -[PI INR bars arc scatter rose_data]. rewrite G. cbn -[PI INR bars arc scatter rose_data].
  destruct (o_alpha o) as [|a t] eqn:A; [congruence|]. cbn -[PI INR bars arc rose_data unique round3].
  set (rd := rose_data _ o). assert (R : exists b w, rd = Draw (b, w)).
  { subst rd. unfold rose_data. rewrite G. cbn -[PI INR Rfloor even_edges centers hist_counts]. unfold Rfloor. rewrite Int_part_INR. cbn -[even_edges centers hist_counts]. eexists; eexists; reflexivity. }
  destruct R as (b & w & ->). cbn -[PI INR bars arc]. eexists; reflexivity.
Qed.
Lemma draws_spine nonpar mixture o : o_grouped o = false -> o_alpha o <> [] -> o_median_ci o <> None -> exists p, circ_plot nonpar mixture o (Some show_spine) = Draw p.
Proof.
  intros G N M. unfold circ_plot. cbn -[PI INR bars arc scatter rose_data]. rewrite G. cbn -[PI INR bars arc scatter rose_data].
  destruct (o_alpha o) as [|a t] eqn:A; [congruence|]. cbn -[PI INR bars arc rose_data unique round3].
  set (rd := rose_data _ o). assert (R : exists b w, rd = Draw (b, w)).
  { subst rd. unfold rose_data. rewrite G. cbn [item dget number String.eqb Ascii.eqb Bool.eqb pbind].
    assert (F : Rfloor 12 = 12%Z). { unfold Rfloor. replace 12 with (INR 12) by (cbn; lra). rewrite Int_part_INR. reflexivity. }
    cbn -[Rfloor even_edges centers hist_counts]. rewrite F. cbn -[even_edges centers hist_counts]. eexists; eexists; reflexivity. }
  destruct R as (b & w & ->). cbn -[PI INR bars arc]. destruct (o_median_ci o); [|congruence]. cbn -[PI INR bars arc]. eexists; reflexivity.
Qed.
Lemma count_repeat (a : R) n (b : R -> bool) : count_if b (repeat a n) = if b a then n else 0%nat.
Proof. unfold count_if. induction n as [|n IH]; cbn [repeat filter]; [destruct (b a); reflexivity|]. destruct (b a); cbn [List.length]; rewrite IH; reflexivity. Qed.
(** Thirteen observations in the direction 270 degrees as -90: the bar there is empty. *)
Lemma turned_rose x nonpar mixture : 0 < x_z x <= 2 -> exists o p c, circular x turned = Ok (o, None) /\ circ_plot nonpar mixture o (Some twelve_bins) = Draw p /\
  count_if (fun a => Reqb (angmod0 a) (3 * PI / 2)) (o_alpha o) = 13%nat /\ List.length (o_alpha o) = 26%nat /\
  (forall b, In b (p_bars p) -> snd b = 0 \/ b = (c, 1)) /\ c + p_width p < PI.
Proof.
  intros Hz. destruct (turned_ok x Hz) as (o & E & G & A & _). pose proof PI_RGT_0. destruct (draws_bins nonpar mixture o G) as (p & Hp); [rewrite A; discriminate|].
  assert (W : distinct_keys (VDict twelve_bins)) by (cbn; repeat split; auto; repeat constructor; cbn; intuition discriminate).
  destruct (rose_user nonpar mixture o (Some twelve_bins) p 12 Hp W G) as (Eb & Ew); [lia|left; reflexivity|reflexivity|].
  assert (C : forall k i, (i < 12)%nat -> k = 12%nat -> count_if (in_bin k i) (o_alpha o) = if Nat.eqb i 0 then 13%nat else 0%nat).
  { intros k i Hi ->. rewrite A, count_if_app. pose proof count_repeat as F.
    rewrite !F. unfold in_bin at 1. destruct (Rleb_spec (INR i * (2 * PI / INR 12)) (- (PI / 2))) as [L|L].
    { exfalso. assert (0 <= INR i * (2 * PI / INR 12)) by (apply Rmult_le_pos; [apply pos_INR|]; replace (INR 12) with 12 by (cbn; lra); lra). lra. }
    cbn [andb plus]. unfold in_bin. replace (INR 12) with 12 by (cbn; lra). destruct i as [|i].
    - cbn [Nat.eqb]. destruct (Rleb_spec (INR 0 * (2 * PI / 12)) 0) as [Q|Q]; [|exfalso; apply Q; cbn; lra]. destruct (Rltb_spec 0 (INR 1 * (2 * PI / 12))) as [T|T]; [reflexivity|exfalso; apply T; cbn; lra].
    - cbn [Nat.eqb]. destruct (Rleb_spec (INR (S i) * (2 * PI / 12)) 0) as [Q|Q]; [|reflexivity]. exfalso. pose proof (pos_INR i). rewrite S_INR in Q. assert (0 < (INR i + 1) * (2 * PI / 12)) by (apply Rmult_lt_0_compat; lra). lra. }
  exists o, p, (1 / 2 * (2 * PI / 12)). split; [exact E|]. split; [exact Hp|]. split; [|split; [rewrite A; reflexivity|split]].
  - rewrite A. pose proof count_repeat as F.
    rewrite count_if_app, !F. rewrite (angmod0_id 0) by lra. rewrite (angmod0_unique (- (PI / 2)) (3 * PI / 2)); [|lra|exists 1%Z; cbn; lra].
    destruct (Reqb_spec (3 * PI / 2) (3 * PI / 2)); [|congruence]. destruct (Reqb_spec 0 (3 * PI / 2)); [lra|reflexivity].
  - intros b Hb. apply (In_nth _ _ (0, 0)) in Hb as (i & Hi & <-). rewrite Eb in *. rewrite bars_len in Hi. rewrite bars_even, C by auto.
    destruct (rose_max 12 (o_alpha o) 0) as (i0 & Hi0 & Em & H1 & _); [lia|rewrite A; apply in_or_app; right; now left|lra|]. rewrite C in Em, H1 by auto. destruct (Nat.eqb i0 0); [|cbn in H1; lra]. rewrite Em.
    assert (0 < sqrt (INR 13)) by (apply sqrt_lt_R0; cbn; lra).
    destruct i as [|i]; cbn [Nat.eqb].
    + right. replace (INR 12) with 12 by (cbn; lra). change (INR 0) with 0. f_equal; field; lra.
    + left. cbn [snd]. change (INR 0) with 0. rewrite sqrt_0. field. lra.
  - rewrite Ew. replace (INR 12) with 12 by (cbn; lra). lra.
Qed.

(** * Statements of VzProps *)
Lemma spine_hidden nonpar mixture o config p : distinct_keys (VDict config) -> circ_plot nonpar mixture o (Some config) = Draw p -> dget "spine" config = Some (VBool true) -> p_spine p = VBool false.
Proof.
  intros W Hp S. destruct (plot_inv _ _ _ _ _ Hp) as (c & dens & rose & mean & median & E & _ & _ & _ & _ & Es & _). pose proof (merge_true_spine _ _ W E S). congruence.
Qed.
Lemma spine_refuted : exists x g o config p, circular x g = Ok (o, None) /\ dget "spine" config = Some (VBool true) /\ circ_plot (fun _ _ _ => 0) None o (Some config) = Draw p /\ p_spine p = VBool false.
Proof.
  destruct (three_same_ok ex_ext) as (o & E & G & A & M & C). destruct (draws_spine (fun _ _ _ => 0) None o G) as (p & Hp); [rewrite A; discriminate|rewrite C; discriminate|].
  exists ex_ext, three_same, o, show_spine, p. split; [exact E|]. split; [reflexivity|]. split; [exact Hp|]. apply (spine_hidden (fun _ _ _ => 0) None o show_spine p); [|exact Hp|reflexivity]. cbn. repeat split; auto. repeat constructor. cbn. tauto.
Qed.
Definition ex_overrides : dict := [("rose", VDict [("bins", VNum 36); ("counts", VBool true)]); ("mean", VBool false)]%string.
Lemma ex_merge : exists merged, distinct_keys (VDict ex_overrides) /\ merge_dicts default_config (VDict ex_overrides) = Draw merged /\
  look (VDict merged) ["rose"; "bins"]%string = Some (VNum 36) /\ look (VDict merged) ["rose"; "counts"]%string = Some (VBool true) /\
  look (VDict merged) ["rose"; "color"]%string = Some (VStr "gray") /\ look (VDict merged) ["mean"]%string = Some (VBool false).
Proof. eexists. split; [cbn; repeat split; auto; repeat constructor; cbn; intuition discriminate|]. split; [reflexivity|]. repeat split. Qed.

Lemma single_drawn x g o k nonpar mixture : circular x g = Ok (o, k) -> o_grouped o = false -> o_median o <> MNaN -> exists p, circ_plot nonpar mixture o None = Draw p.
Proof.
  intros E G M. destruct (built_median_ci _ _ _ _ E) as (H & _). specialize (H G M). pose proof (single_default nonpar mixture o G (single_built _ _ _ _ E G)) as S. destruct (o_median_ci o); [exact S|congruence].
Qed.
Lemma single_raises x g o k nonpar mixture : circular x g = Ok (o, k) -> o_grouped o = false -> o_median o = MNaN -> circ_plot nonpar mixture o None = Raise PAttributeError.
Proof.
  intros E G M. destruct (built_median_ci _ _ _ _ E) as (_ & H & _). pose proof (single_default nonpar mixture o G (single_built _ _ _ _ E G)) as S. rewrite (H (or_intror M)) in S. exact S.
Qed.
Lemma grouped_raises o nonpar mixture : o_grouped o = true -> exists e, circ_plot nonpar mixture o None = Raise e.
Proof. intros G. destruct (grouped_default nonpar mixture o G) as (e & E & _). eauto. Qed.
Lemma binned_grouped x : exists o, circular x (binned [1; 1] 2 "radian") = Ok (o, None) /\ o_grouped o = true.
Proof.
  destruct (binned_two x) as (o & E & A & _). exists o. split; [exact E|]. destruct (circular_inv _ _ _ _ E) as (p & a0 & _ & _ & I3 & _ & _ & _ & -> & _).
  cbn [binned a_w a_bins prepare] in I3. destruct (hist_edges (BCount 2)); cbn [bind] in I3; [|discriminate]. cbv zeta in I3. destruct (list_min _); cbn [bind] in I3; [|discriminate]. injection I3 as <-. reflexivity.
Qed.
Lemma plot_refuted : exists x g o, circular x g = Ok (o, None) /\ forall nonpar mixture, exists e, circ_plot nonpar mixture o None = Raise e.
Proof. destruct (binned_grouped ex_ext) as (o & E & G). exists ex_ext, (binned [1; 1] 2 "radian"), o. split; [exact E|]. intros nonpar mixture. apply grouped_raises, G. Qed.
Lemma ex_built : (exists o, circular ex_ext three_same = Ok (o, None) /\ o_grouped o = false /\ o_median o <> MNaN) /\
  (exists o, circular ex_ext turned = Ok (o, None) /\ o_grouped o = false /\ o_median o = MNaN) /\
  (exists o, circular ex_ext (binned [1; 1] 2 "radian") = Ok (o, None) /\ o_grouped o = true).
Proof.
  split; [|split; [|apply binned_grouped]].
  - destruct (three_same_ok ex_ext) as (o & E & G & _ & M & _). exists o. rewrite M. repeat split; auto. discriminate.
  - destruct (turned_ok ex_ext) as (o & E & G & _ & M); [cbn; lra|]. eauto.
Qed.
Lemma twelve_distinct : distinct_keys (VDict twelve_bins).
Proof. cbn; repeat split; auto; repeat constructor; cbn; intuition discriminate. Qed.
Lemma rose_refuted : exists x g o p c, circular x g = Ok (o, None) /\ circ_plot (fun _ _ _ => 0) None o (Some twelve_bins) = Draw p /\
  count_if (fun a => Reqb (angmod0 a) (3 * PI / 2)) (o_alpha o) = 13%nat /\ List.length (o_alpha o) = 26%nat /\
  (forall b, In b (p_bars p) -> snd b = 0 \/ b = (c, 1)) /\ c + p_width p < PI.
Proof. destruct (turned_rose ex_ext (fun _ _ _ => 0) None) as (o & p & c & H); [cbn; lra|]. exists ex_ext, turned, o, p, c. exact H. Qed.
Lemma ex_rose : exists o p, circular ex_ext three_same = Ok (o, None) /\ circ_plot (fun _ _ _ => 0) None o (Some twelve_bins) = Draw p /\ distinct_keys (VDict twelve_bins) /\
  look (VDict twelve_bins) ["rose"; "bins"]%string = Some (VNum (INR 12)) /\ o_grouped o = false /\ exists a, In a (o_alpha o) /\ 0 <= a <= 2 * PI.
Proof.
  destruct (three_same_ok ex_ext) as (o & E & G & A & _). destruct (draws_bins (fun _ _ _ => 0) None o G) as (p & Hp); [rewrite A; discriminate|]. exists o, p. split; [exact E|]. split; [exact Hp|]. split; [exact twelve_distinct|].
  split; [reflexivity|]. split; [exact G|]. exists (PI / 2). rewrite A. pose proof PI_RGT_0. split; [now left|lra].
Qed.
Lemma mean_arc x g o k nonpar mixture config p lb ub : circular x g = Ok (o, k) -> circ_plot nonpar mixture o config = Draw p -> dget "mean" (given config) = None -> o_mean_ci o = Some (lb, ub) -> lb <> ub ->
  exists arc width, p_mean_arc p = Some arc /\ 0 < width < 2 * PI /\ same_dir (lb + width) ub /\ List.length arc = 50%nat /\ forall i, (i < 50)%nat -> nth i arc 0 = lb + width * (INR i / 49).
Proof.
  intros E Hp N C D. destruct (built_mean_ci _ _ _ _ _ _ E C) as (B1 & B2). destruct (arc_spec lb ub B1 B2 D) as (width & W & S & L & P). exists (arc (Some (lb, ub))), width.
  split; [eapply plot_arc_mean; eauto|]. auto.
Qed.
Lemma median_arc x g o k nonpar mixture config p lb ub : circular x g = Ok (o, k) -> circ_plot nonpar mixture o config = Draw p -> dget "median" (given config) = None -> o_median_ci o = Some (Some (lb, ub)) -> lb <> ub ->
  exists arc width, p_median_arc p = Some arc /\ 0 < width < 2 * PI /\ same_dir (lb + width) ub /\ List.length arc = 50%nat /\ forall i, (i < 50)%nat -> nth i arc 0 = lb + width * (INR i / 49).
Proof.
  intros E Hp N C D. destruct (built_median_ci _ _ _ _ E) as (_ & _ & B). destruct (B _ _ C) as (B1 & B2). destruct (arc_spec lb ub B1 B2 D) as (width & W & S & L & P). exists (arc (Some (lb, ub))), width.
  split; [eapply plot_arc_median; eauto|]. auto.
Qed.
Lemma arc_refuted : exists x g o p m, circular x g = Ok (o, None) /\ o_median o = MOne m /\ o_median_ci o = Some (Some (m, m)) /\ circ_plot (fun _ _ _ => 0) None o None = Draw p /\
  exists arc, p_median_arc p = Some arc /\ List.length arc = 50%nat /\ forall i, (i < 50)%nat -> nth i arc 0 = m + 2 * PI * (INR i / 49).
Proof.
  destruct (three_same_ok ex_ext) as (o & E & G & A & M & C). destruct (single_drawn _ _ _ _ (fun _ _ _ => 0) None E G) as (p & Hp); [rewrite M; discriminate|].
  exists ex_ext, three_same, o, p, (PI / 2). repeat (split; [assumption|]). exists (arc (Some (PI / 2, PI / 2))). split; [apply (plot_arc_median _ _ _ _ _ _ _ Hp eq_refl C)|].
  split; [cbn [arc]; destruct (Rltb _ _); unfold linspace; rewrite map_length, seq_length; reflexivity|]. intros i Hi. apply arc_point, Hi.
Qed.
(** Three close observations: an interval of the median with two bounds. *)
Definition spread : list R := [1; 1 + 1 / 1000; 1 + 2 / 1000].
Definition spread_args : args := plain spread "radian".
Lemma cos_lower h : 0 <= h <= 1 -> 1 - h * h / 2 <= cos h.
Proof. intros H. replace h with (2 * (h / 2)) at 3 by field. rewrite cos_2a_sin. pose proof PI2_3_2. assert (0 <= sin (h / 2)) by (apply sin_ge_0; lra). destruct (Req_dec h 0) as [->|N]; [replace (0 / 2) with 0 by lra; rewrite sin_0; lra|]. pose proof (sin_lt_x (h / 2) ltac:(lra)). nra. Qed.
Lemma spread_r : isclose12 (circ_r spread None) 1 = true.
Proof.
  assert (V : valid_sample spread (Some (ones spread))) by (apply ones_valid; discriminate). pose proof (circ_r_range spread (Some (ones spread)) V) as Rg. change (circ_r spread (Some (ones spread))) with (circ_r spread None) in Rg.
  apply isclose12_1_true; [lra|]. unfold circ_r. cbn [weights]. destruct (ones_sums spread) as (O1 & O2 & O3). rewrite circ_r_s_eq by (rewrite O3; cbn; lra). unfold Rlen. rewrite O1, O2, O3.
  unfold spread. cbn [map List.length]. rewrite !Rsum_cons, !Rsum_nil. replace (INR 3) with 3 by (cbn; lra). set (a := 1) in *.
  pose proof (cos_lower (1 / 1000) ltac:(lra)) as L1. pose proof (cos_lower (2 / 1000) ltac:(lra)) as L2.
  assert (Q1 : cos (1 + 1 / 1000) * cos 1 + sin (1 + 1 / 1000) * sin 1 = cos (1 / 1000)) by (rewrite <- cos_minus; f_equal; lra).
  assert (Q2 : cos (1 + 2 / 1000) * cos 1 + sin (1 + 2 / 1000) * sin 1 = cos (2 / 1000)) by (rewrite <- cos_minus; f_equal; lra).
  assert (Q3 : cos (1 + 2 / 1000) * cos (1 + 1 / 1000) + sin (1 + 2 / 1000) * sin (1 + 1 / 1000) = cos (1 / 1000)) by (rewrite <- cos_minus; f_equal; lra).
  pose proof (sin2_cos2 1) as P1. pose proof (sin2_cos2 (1 + 1 / 1000)) as P2. pose proof (sin2_cos2 (1 + 2 / 1000)) as P3. unfold Rsqr in *. subst a.
  apply Rmult_le_reg_r with 3; [lra|]. match goal with |- _ <= ?s / 3 * 3 => replace (s / 3 * 3) with s by field end. rewrite <- (sqrt_square ((1 - / 100000) * 3)) by lra. apply sqrt_le_1_alt. nra.
Qed.
Lemma spread_ok x : exists o, circular x spread_args = Ok (o, None) /\ o_grouped o = false /\ o_median o = MOne 1 /\ o_median_ci o = Some (Some (1, 1 + 2 / 1000)).
Proof.
  pose proof PI2_3_2. assert (V : valid_sample spread (Some (ones spread))) by (apply ones_valid; discriminate). pose proof (circ_r_range spread (Some (ones spread)) V) as Rg.
  assert (Et : to_alpha (a_data spread_args) (2 * PI) (a_rotate spread_args) = Ok spread).
  { cbn [spread_args plain a_data a_rotate to_alpha]. f_equal. transitivity (map (fun y => y) spread); [|apply map_id]. apply map_ext. intros y. unfold data2rad. field. lra. }
  assert (Ep : prepare spread (a_w spread_args) (a_bins spread_args) = Ok {| p_alpha := spread; p_w := ones spread; p_grouped := false; p_bin := 0; p_bounds := [] |}) by reflexivity.
  destruct (circular_run x spread_args (2 * PI) _ _ eq_refl Et Ep) as (kp & ray & s & s0 & Hp & ->); cbn [p_alpha p_w p_grouped p_bin p_bounds].
  - rewrite ones_total, trunc_INR. cbn. lia.
  - exact Rg.
  - rewrite ones_total, trunc_INR. cbv zeta. change (a_mean_ci spread_args) with (@None kdict). rewrite choose_small by (cbn; lia). cbn [bind].
    rewrite (median_early spread (Some (ones spread)) _ _ _ 1 spread_r eq_refl). cbn [bind].
    assert (C : circ_median_ci spread 1 (x_z x) = Ok (Some (1, 1 + 2 / 1000))).
    { assert (S : nsort spread = spread).
      { unfold spread. cbn [nsort insert]. repeat match goal with |- context [Rleb ?x ?y] => destruct (Rleb_spec x y); try lra; cbn [insert] end. reflexivity. }
      unfold circ_median_ci. rewrite S. change (List.length spread) with 3%nat. cbn [Nat.ltb Nat.leb median_ci_table]. cbv zeta. unfold spread. cbn [nth_err bind]. cbn. rewrite !angmod0_id by lra. reflexivity. }
    rewrite C. cbn [bind]. eexists. split; [reflexivity|]. auto.
Qed.
Lemma ex_median_arc : exists o lb ub p, circular ex_ext spread_args = Ok (o, None) /\ o_median_ci o = Some (Some (lb, ub)) /\ lb <> ub /\ circ_plot (fun _ _ _ => 0) None o None = Draw p.
Proof.
  destruct (spread_ok ex_ext) as (o & E & G & M & C). destruct (single_drawn _ _ _ _ (fun _ _ _ => 0) None E G) as (p & Hp); [rewrite M; discriminate|]. exists o, 1, (1 + 2 / 1000), p. repeat split; auto. lra.
Qed.
(** The 26 observations of two_ways: an interval of the mean with two bounds. *)
Lemma ex_mean_arc : exists o lb ub p, circular ex_ext two_ways_args = Ok (o, None) /\ o_mean_ci o = Some (lb, ub) /\ lb <> ub /\ circ_plot (fun _ _ _ => 0) None o (Some twelve_bins) = Draw p.
Proof.
  destruct (two_ways_ok ex_ext ltac:(cbn; lra)) as (o & m & E & N & P & M & W & L).
  destruct (circular_inv _ _ _ _ E) as (p & a0 & I1 & I2 & I3 & _ & I5 & I6 & I7 & _ & _ & _ & _ & _ & _ & _ & _ & _ & I17 & I18 & _).
  cbn in I1. injection I1 as I1. rewrite <- I1 in I2. cbn [two_ways_args with_median plain a_data a_rotate to_alpha] in I2.
  change (map (fun y => data2rad y 360) two_ways) with (map (angle_of 360) two_ways) in I2. rewrite two_ways_alpha in I2. set (al := (repeat 0 13 ++ repeat (PI / 2) 13)%list) in *.
  assert (A0 : a0 = al) by congruence. subst a0. cbn [two_ways_args with_median plain a_w a_bins prepare] in I3.
  assert (Pp : p = {| p_alpha := al; p_w := ones al; p_grouped := false; p_bin := 0; p_bounds := [] |}) by congruence. subst p. cbn [p_alpha p_w p_grouped] in *.
  destruct (draws_bins (fun _ _ _ => 0) None o I7) as (q & Hq); [rewrite I5; discriminate|].
  cbn [a_mean_ci two_ways_args with_median plain] in I17. rewrite choose_25 in I17 by auto. injection I17 as Mt _.
  destruct (large_sample ex_ext two_ways_args o None m eq_refl ltac:(cbn; lra) W L E N P M) as (lb & ub & C & _).
  exists o, lb, ub, q. split; [exact E|]. split; [exact C|]. split; [|exact Hq].
  rewrite Mt, M, C in I18. destruct (Rltb_spec (o_pval o) (5 / 100)); [|lra]. unfold mean_ci in I18. cbn [String.eqb Ascii.eqb Bool.eqb] in I18. rewrite I5, I6 in I18.
  assert (R1 : circ_r al None = sqrt (1 / 2)) by (unfold al; rewrite <- two_ways_alpha; apply two_ways_r). assert (0 < sqrt (1 / 2)) by (apply sqrt_lt_R0; lra).
  destruct (dispersion_api al (Some (ones al))) as (De & _); [apply (ones_valid al); discriminate|change (circ_r al (Some (ones al))) with (circ_r al None); lra|]. change (circ_r al (Some (ones al))) with (circ_r al None) in De. change (circ_r (map (fun a => 2 * a) al) (Some (ones al))) with (circ_r (map (fun a => 2 * a) al) None) in De. change (smp al (Some (ones al))) with (combine al (ones al)) in De.
  assert (D2 : circ_r (map (fun a => 2 * a) al) None <= 1 / 2).
  { apply r_small; [discriminate|lra|]. unfold al. cbn [repeat app map List.length]. replace (2 * 0) with 0 by ring. replace (2 * (PI / 2)) with PI by field. rewrite cos_0, sin_0, cos_PI, sin_PI. repeat rewrite ?Rsum_cons, ?Rsum_nil. cbn. lra. }
  assert (Dp : 0 < circ_dispersion (combine al (ones al))) by (rewrite De, R1; apply Rdiv_lt_0_compat; [lra|nra]).
  unfold ci_dispersion in I18. cbv zeta in I18. set (s := combine al (ones al)) in *. destruct (Rltb_spec (wtotal s) 25) as [|T]; [discriminate|].
  destruct (Reqb (circ_r_s s) 0); [destruct (Reqb _ 1); discriminate|]. destruct (Rltb_spec (circ_dispersion s / wtotal s) 0); [discriminate|].
  set (t := sqrt (circ_dispersion s / wtotal s) * x_z ex_ext) in *. assert (T0 : 0 < t). { unfold t. apply Rmult_lt_0_compat; [apply sqrt_lt_R0, Rdiv_lt_0_compat; lra|cbn; lra]. }
  destruct (Rleb_spec 1 t) as [|T1]; [discriminate|]. destruct (Rltb_spec t (-1)); [discriminate|].
  assert (H1 : 0 <= t <= 1) by lra. pose proof (asin_half t H1) as Ah. rewrite orient_centred in I18 by exact Ah. injection I18 as <- <-. intros Q. apply angmod0_eq_iff in Q as (k & Hk).
  assert (asin t <> 0) by (intros Z; pose proof (sin_asin t ltac:(lra)) as Y; rewrite Z, sin_0 in Y; lra). pose proof PI_RGT_0.
  assert (K1 : (-1 < k)%Z) by (apply lt_IZR; cbn; nra). assert (K2 : (k < 0)%Z) by (apply lt_IZR; cbn; nra). lia.
Qed.
(** A density curve of one's own. *)
Definition own_density : dict := [("median", VBool false); ("rose", VBool false); ("density", VDict [("f", VList [1; 2; 3])])]%string.
Lemma ex_density : exists o p, circular ex_ext three_same = Ok (o, None) /\ circ_plot (fun _ _ _ => 0) None o (Some own_density) = Draw p /\ distinct_keys (VDict own_density) /\ o_grouped o = false /\
  look (VDict own_density) ["density"; "f"]%string = Some (VList [1; 2; 3]) /\ look (VDict own_density) ["density"; "x"]%string = None.
Proof.
  destruct (three_same_ok ex_ext) as (o & E & G & A & _). assert (D : exists p, circ_plot (fun _ _ _ => 0) None o (Some own_density) = Draw p).
  { unfold circ_plot. cbn -[PI INR bars arc scatter linspace]. rewrite G. cbn -[PI INR bars arc scatter linspace]. destruct (o_alpha o) as [|a t] eqn:B; [rewrite A in B; discriminate|].
    cbn -[PI INR bars arc rose_data unique round3]. eexists; reflexivity. }
  destruct D as [p Hp]. exists o, p. split; [exact E|]. split; [exact Hp|]. split; [cbn; repeat split; auto; repeat constructor; cbn; intuition discriminate|]. split; [exact G|]. split; reflexivity.
Qed.
