(** Keyword handling of the base class. *)
From Coq Require Import String.
From Verif Require Import Prelude NpModel NpProofs DistModel DistProofs CcModel CcSpec.
Open Scope string_scope.

Lemma is_default_iff v d : is_default_value v d = true <-> default_like v d.
Proof.
  assert (E : forall x, isclose x d = true <-> Rabs (x - d) <= / 10 ^ 8 + / 10 ^ 5 * Rabs d).
  { intros x. unfold isclose, isclose_tol. rewrite Rleb_true. replace (/ 10 ^ 8) with (/ 100000000) by (f_equal; ring). replace (/ 10 ^ 5) with (/ 100000) by (f_equal; ring). reflexivity. }
  destruct v as [l|]; cbn; [|split; [discriminate|tauto]]. destruct l as [|a l]; [split; [intros _ x []|reflexivity]|].
  rewrite forallb_forall. split; intros H x Hx; apply E, H, Hx.
Qed.
Lemma is_default_false v d : ~ default_like v d -> is_default_value v d = false.
Proof. intros H. destruct (is_default_value v d) eqn:E; [|reflexivity]. apply is_default_iff in E. contradiction. Qed.
Lemma kw_get_binds kw k v : dict kw -> (kw_get k kw = Some v <-> binds kw k v).
Proof.
  unfold kw_get, binds, dict. induction kw as [|[a b] kw IH]; intros D; cbn; [split; [discriminate|tauto]|].
  inversion D as [|? ? N D']; subst. destruct (String.eqb a k) eqn:E.
  - apply String.eqb_eq in E. subst a. cbn. split; [intros [= ->]; auto|]. intros [[= ->]|H]; [reflexivity|]. exfalso. apply N. apply in_map_iff. exists (k, v). auto.
  - apply String.eqb_neq in E. specialize (IH D'). destruct (find _ kw) as [p|] eqn:F; cbn in *.
    + rewrite IH. split; [auto|]. intros [[= ? ?]|H]; [congruence|exact H].
    + split; [discriminate|]. intros [[= ? ?]|H]; [congruence|]. apply IH in H. discriminate.
Qed.
Lemma kw_has_in kw k : kw_has k kw = true <-> In k (map fst kw).
Proof.
  unfold kw_has. rewrite existsb_exists. split.
  - intros (p & Hp & E). apply String.eqb_eq in E. subst. apply in_map, Hp.
  - intros H. apply in_map_iff in H. destruct H as (p & <- & Hp). exists p. split; [exact Hp|apply String.eqb_refl].
Qed.
Lemma kw_get_none kw k : kw_get k kw = None <-> kw_has k kw = false.
Proof.
  unfold kw_get, kw_has. induction kw as [|p kw IH]; cbn; [tauto|]. destruct (String.eqb (fst p) k); cbn; [split; discriminate|exact IH].
Qed.
Lemma kw_get_pop kw k m : k <> m -> kw_get m (kw_pop k kw) = kw_get m kw.
Proof.
  intros N. unfold kw_get, kw_pop. induction kw as [|p kw IH]; cbn; [reflexivity|].
  destruct (String.eqb (fst p) k) eqn:E; cbn.
  - apply String.eqb_eq in E. destruct (String.eqb (fst p) m) eqn:E2; [apply String.eqb_eq in E2; congruence|exact IH].
  - destruct (String.eqb (fst p) m); [reflexivity|exact IH].
Qed.
Lemma kw_has_pop kw k m : k <> m -> kw_has m (kw_pop k kw) = kw_has m kw.
Proof.
  intros N. destruct (kw_has m kw) eqn:E.
  - destruct (kw_has m (kw_pop k kw)) eqn:E2; [reflexivity|]. apply kw_get_none in E2. rewrite kw_get_pop in E2 by exact N. apply kw_get_none in E2. congruence.
  - apply kw_get_none. rewrite kw_get_pop by exact N. apply kw_get_none, E.
Qed.
Lemma kw_pop_in kw k p : In p (kw_pop k kw) <-> In p kw /\ fst p <> k.
Proof. unfold kw_pop. rewrite filter_In, negb_true_iff, String.eqb_neq. reflexivity. Qed.
Lemma kw_pop_dict kw k : dict kw -> dict (kw_pop k kw).
Proof.
  unfold dict, kw_pop. induction kw as [|p kw IH]; cbn; [auto|]. intros D. inversion D as [|? ? N D']; subst.
  destruct (negb (String.eqb (fst p) k)); [|auto]. cbn. constructor; [|auto]. intros H. apply N.
  apply in_map_iff in H. destruct H as (q & E & Hq). apply filter_In in Hq. apply in_map_iff. exists q. tauto.
Qed.

(** ** loc, scale and their aliases *)
Definition aliases : list string := ["floc"; "fscale"; "fix_loc"; "fix_scale"].
Definition bad_kw (kw : kwargs) : Prop := exists k v, binds kw k v /\
  (k = "loc" /\ ~ default_like v 0 \/ k = "scale" /\ ~ default_like v 1 \/ In k aliases).
Lemma clean_bad kw : dict kw -> bad_kw kw -> clean_kwargs kw = Err TypeError.
Proof.
  intros D (k & v & B & H). unfold clean_kwargs.
  destruct H as [[-> H]|[[-> H]|H]].
  - rewrite (proj2 (kw_get_binds _ _ _ D) B), is_default_false by exact H. reflexivity.
  - rewrite (proj2 (kw_get_binds _ _ _ D) B), is_default_false by exact H.
    destruct (kw_get "loc" kw) as [w|]; [destruct (is_default_value w 0)|]; reflexivity.
  - assert (A : existsb (fun a => kw_has a kw) aliases = true).
    { apply existsb_exists. exists k. split; [exact H|]. apply kw_has_in. apply in_map_iff. exists (k, v). auto. }
    unfold aliases in A. rewrite A.
    destruct (kw_get "loc" kw) as [w|]; [destruct (is_default_value w 0)|]; try reflexivity;
      destruct (kw_get "scale" kw) as [w'|]; try (destruct (is_default_value w' 1)); reflexivity.
Qed.
Lemma call_bad shapes ok pdf x args kw : dict kw -> bad_kw kw -> call_pdf shapes ok pdf x args kw = Err TypeError.
Proof.
  intros D B. unfold call_pdf. destruct kw as [|p kw]; [destruct B as (k & v & [] & _)|]. rewrite clean_bad by assumption. reflexivity.
Qed.
Lemma only_defaults_clean kw : dict kw ->
  (forall k v, binds kw k v -> k = "loc" /\ default_like v 0 \/ k = "scale" /\ default_like v 1) -> clean_kwargs kw = Ok [].
Proof.
  intros D H.
  assert (A : existsb (fun a => kw_has a kw) ["floc"; "fscale"; "fix_loc"; "fix_scale"] = false).
  { destruct (existsb _ _) eqn:E; [|reflexivity]. apply existsb_exists in E. destruct E as (a & Ha & E). apply kw_has_in in E.
    apply in_map_iff in E. destruct E as ([k v] & Ek & Hk). cbn in Ek. subst k. destruct (H a v Hk) as [[-> _]|[-> _]]; cbn in Ha; decompose [or] Ha; try discriminate; contradiction. }
  unfold clean_kwargs. rewrite A.
  assert (K : forall kw' : kwargs, (forall p, In p kw' -> False) -> kw' = []) by (intros [|p kw'] Hp; [reflexivity|destruct (Hp p); cbn; auto]).
  destruct (kw_get "loc" kw) as [v|] eqn:G.
  - pose proof (proj1 (kw_get_binds _ _ _ D) G) as B. destruct (H _ _ B) as [[_ L]|[X _]]; [|discriminate]. rewrite (proj2 (is_default_iff v 0) L). cbn [bind].
    destruct (kw_get "scale" kw) as [w|] eqn:G2; cbn [bind].
    + pose proof (proj1 (kw_get_binds _ _ _ D) G2) as B2. destruct (H _ _ B2) as [[X _]|[_ L2]]; [discriminate|]. rewrite (proj2 (is_default_iff w 1) L2). cbn [bind].
      f_equal. apply K. intros [k u] Hp. apply kw_pop_in in Hp. destruct Hp as [Hp N]. apply kw_pop_in in Hp. destruct Hp as [Hp N']. cbn in N, N'. destruct (H _ _ Hp) as [[-> _]|[-> _]]; congruence.
    + f_equal. apply K. intros [k u] Hp. apply kw_pop_in in Hp. destruct Hp as [Hp N]. cbn in N. destruct (H _ _ Hp) as [[-> _]|[-> _]]; [congruence|].
      apply kw_get_none in G2. assert (kw_has "scale" kw = true); [|congruence]. apply kw_has_in, in_map_iff. exists ("scale", u). auto.
  - cbn [bind]. destruct (kw_get "scale" kw) as [w|] eqn:G2; cbn [bind].
    + pose proof (proj1 (kw_get_binds _ _ _ D) G2) as B2. destruct (H _ _ B2) as [[X _]|[_ L2]]; [discriminate|]. rewrite (proj2 (is_default_iff w 1) L2). cbn [bind].
      f_equal. apply K. intros [k u] Hp. apply kw_pop_in in Hp. destruct Hp as [Hp N]. cbn in N. destruct (H _ _ Hp) as [[-> _]|[-> _]]; [|congruence].
      apply kw_get_none in G. assert (kw_has "loc" kw = true); [|congruence]. apply kw_has_in, in_map_iff. exists ("loc", u). auto.
    + f_equal. apply K. intros [k u] Hp. apply kw_get_none in G. apply kw_get_none in G2.
      assert (kw_has k kw = true) by (apply kw_has_in, in_map_iff; exists (k, u); auto). destruct (H _ _ Hp) as [[-> _]|[-> _]]; congruence.
Qed.
Lemma bind_shapes shapes args : List.length args = List.length shapes ->
  bind_args (map (fun n => (n, None)) shapes ++ [("loc", Some 0); ("scale", Some 1)])%list args [] = Ok (args ++ [0; 1])%list.
Proof.
  revert args. induction shapes as [|n shapes IH]; intros [|a args] E; try discriminate; cbn.
  - reflexivity.
  - injection E as E. rewrite (IH _ E). reflexivity.
Qed.
Lemma call_default shapes ok pdf x args kw : dict kw ->
  (forall k v, binds kw k v -> k = "loc" /\ default_like v 0 \/ k = "scale" /\ default_like v 1) -> List.length args = List.length shapes ->
  call_pdf shapes ok pdf x args kw = Ok (public_pdf (ok args) (pdf args) x).
Proof.
  intros D H L. unfold call_pdf.
  assert (E : (match kw with [] => Ok [] | _ => clean_kwargs kw end) = Ok []) by (destruct kw; [reflexivity|apply only_defaults_clean; assumption]).
  rewrite E. cbn [bind]. unfold parse_args. cbn [existsb]. rewrite bind_shapes by exact L. cbn [bind].
  rewrite <- L, firstn_app, Nat.sub_diag, firstn_O, app_nil_r, firstn_all, !app_nth2, Nat.sub_diag by lia.
  replace (S (List.length args) - List.length args)%nat with 1%nat by lia. cbn [nth]. unfold public_pdf. rewrite (proj2 (Rltb_true 0 1)) by lra. rewrite andb_true_r.
  replace ((wrap_angles x - 0) / 1) with (wrap_angles x) by field. unfold Rdiv. rewrite Rinv_1, Rmult_1_r. reflexivity.
Qed.

(** ** fit *)
Definition bad_fit_kw (kw : kwargs) : Prop := exists k v, binds kw k v /\
  ((k = "loc" \/ k = "floc") /\ ~ default_like v 0 \/ (k = "scale" \/ k = "fscale") /\ ~ default_like v 1 \/ k = "fix_loc" \/ k = "fix_scale").
Lemma dte_cases k d kw : dict kw ->
  (exists v, binds kw k v /\ ~ default_like v d) /\ default_or_type_error k d kw = Err TypeError \/
  (forall v, binds kw k v -> default_like v d) /\ exists kw', default_or_type_error k d kw = Ok kw' /\ dict kw' /\ (forall p, In p kw' <-> In p kw /\ fst p <> k).
Proof.
  intros D. unfold default_or_type_error. destruct (kw_get k kw) as [v|] eqn:G.
  - pose proof (proj1 (kw_get_binds _ _ _ D) G) as B. destruct (is_default_value v d) eqn:E.
    + right. apply is_default_iff in E. split.
      * intros w Bw. apply (kw_get_binds _ _ _ D) in Bw. congruence.
      * exists (kw_pop k kw). split; [reflexivity|]. split; [apply kw_pop_dict, D|apply kw_pop_in].
    + left. split; [|reflexivity]. exists v. split; [exact B|]. intros X. apply is_default_iff in X. congruence.
  - right. split.
    + intros w Bw. apply (kw_get_binds _ _ _ D) in Bw. congruence.
    + exists kw. split; [reflexivity|]. split; [exact D|]. intros p. split; [|tauto]. intros Hp. split; [exact Hp|]. intros <-.
      apply kw_get_none in G. assert (kw_has (fst p) kw = true); [|congruence]. apply kw_has_in, in_map, Hp.
Qed.
Lemma sanitize_cases kw : dict kw ->
  bad_fit_kw kw /\ sanitize_fit kw = Err TypeError \/
  ~ bad_fit_kw kw /\ exists rest, sanitize_fit kw = Ok (("floc", KNum [0]) :: ("fscale", KNum [1]) :: rest) /\
    (forall k v, binds rest k v <-> binds kw k v /\ k <> "loc" /\ k <> "scale" /\ k <> "floc" /\ k <> "fscale").
Proof.
  intros D. unfold sanitize_fit, bad_fit_kw.
  destruct (dte_cases "loc" 0 kw D) as [[(v & B & N) ->]|[L1 (kw1 & -> & D1 & I1)]]; cbn [bind]; [left; split; [|reflexivity]; exists "loc", v; tauto|].
  destruct (dte_cases "scale" 1 kw1 D1) as [[(v & B & N) ->]|[L2 (kw2 & -> & D2 & I2)]]; cbn [bind].
  { left. split; [|reflexivity]. exists "scale", v. apply I1 in B. tauto. }
  destruct (kw_has "fix_loc" kw2 || kw_has "fix_scale" kw2) eqn:F.
  { left. split; [|reflexivity]. apply orb_true_iff in F. destruct F as [F|F]; apply kw_has_in, in_map_iff in F; destruct F as ([k v] & Ek & Hk); cbn in Ek; subst k.
    - exists "fix_loc", v. apply I2 in Hk. destruct Hk as [Hk _]. apply I1 in Hk. tauto.
    - exists "fix_scale", v. apply I2 in Hk. destruct Hk as [Hk _]. apply I1 in Hk. tauto. }
  destruct (dte_cases "floc" 0 kw2 D2) as [[(v & B & N) ->]|[L3 (kw3 & -> & D3 & I3)]]; cbn [bind].
  { left. split; [|reflexivity]. exists "floc", v. apply I2 in B. destruct B as [B _]. apply I1 in B. tauto. }
  destruct (dte_cases "fscale" 1 kw3 D3) as [[(v & B & N) ->]|[L4 (kw4 & -> & D4 & I4)]]; cbn [bind].
  { left. split; [|reflexivity]. exists "fscale", v. apply I3 in B. destruct B as [B _]. apply I2 in B. destruct B as [B _]. apply I1 in B. tauto. }
  right. apply orb_false_iff in F. destruct F as [F1 F2].
  assert (X : forall k v, binds kw k v -> k <> "loc" -> k <> "scale" -> binds kw2 k v).
  { intros k v B N1 N2. apply I2. split; [apply I1; auto|auto]. }
  split.
  - intros (k & v & B & [[[->| ->] N]|[[[->| ->] N]|[->| ->]]]).
    + apply N, L1, B.
    + apply N, L3, X; [exact B|discriminate|discriminate].
    + apply N, L2, I1. split; [exact B|discriminate].
    + apply N, L4, I3. split; [apply X; [exact B|discriminate|discriminate]|discriminate].
    + assert (kw_has "fix_loc" kw2 = true); [|congruence]. apply kw_has_in, in_map_iff. exists ("fix_loc", v). split; [reflexivity|]. apply X; [exact B|discriminate|discriminate].
    + assert (kw_has "fix_scale" kw2 = true); [|congruence]. apply kw_has_in, in_map_iff. exists ("fix_scale", v). split; [reflexivity|]. apply X; [exact B|discriminate|discriminate].
  - exists kw4. split; [reflexivity|]. intros k v. unfold binds. rewrite I4, I3, I2, I1. cbn. tauto.
Qed.

(** ** Shape parameters by keyword *)
Lemma sep_short names : forall idx args kw v rest, separate_loop idx names args kw = Ok (v, rest) -> (List.length v <= List.length args + List.length names)%nat.
Proof.
  induction names as [|n names IH]; intros idx args kw v rest; cbn [separate_loop List.length].
  - intros [= <- <-]. lia.
  - destruct (kw_get n kw) as [w|].
    + destruct (kw_scalar w) as [x|]; cbn [bind]; [|discriminate]. destruct (Nat.ltb idx (List.length args)).
      * destruct (isclose _ _); [|discriminate]. intros H. apply IH in H. lia.
      * intros H. apply IH in H. rewrite app_length in H. cbn in H. lia.
    + intros H. apply IH in H. lia.
Qed.
Lemma kw_scalar_ok w x : kw_scalar w = Ok x -> w = KNum [x].
Proof. destruct w as [[|a [|b l]]|]; cbn; try discriminate. intros [= ->]. reflexivity. Qed.
Lemma sep_binds names : NoDup names -> forall idx args kw v rest, separate_loop idx names args kw = Ok (v, rest) ->
  List.length v = (idx + List.length names)%nat -> (idx <= List.length args)%nat ->
  (exists added, v = args ++ added)%list /\
  forall j n, nth_error names j = Some n ->
    (idx + j < List.length args)%nat /\ (forall w, kw_get n kw = Some w -> exists x, w = KNum [x] /\ isclose (nth (idx + j) args 0) x = true) \/
    kw_get n kw = Some (KNum [nth (idx + j) v 0]).
Proof.
  induction names as [|n names IH]; intros ND idx args kw v rest H Lv Li.
  - cbn in H. injection H as <- <-. split; [exists []; rewrite app_nil_r; reflexivity|]. intros [|j] n; discriminate.
  - inversion ND as [|? ? Nn ND']; subst. cbn [separate_loop] in H. cbn [List.length] in Lv.
    assert (G : forall j m, nth_error names j = Some m -> n <> m) by (intros j m E ->; apply Nn; eapply nth_error_In; eauto).
    destruct (kw_get n kw) as [w|] eqn:Gn.
    + destruct (kw_scalar w) as [x|] eqn:Ew; cbn [bind] in H; [|discriminate]. apply kw_scalar_ok in Ew. subst w.
      destruct (Nat.ltb_spec idx (List.length args)) as [Lt|Ge].
      * destruct (isclose (nth idx args 0) x) eqn:Ec; [|discriminate].
        destruct (IH ND' (S idx) args (kw_pop n kw) v rest H ltac:(lia) ltac:(lia)) as [Ad K]. split; [exact Ad|].
        intros [|j] m E; cbn in E.
        -- injection E as <-. left. rewrite Nat.add_0_r. split; [exact Lt|]. intros w Ew. rewrite Gn in Ew. injection Ew as <-. exists x. auto.
        -- specialize (K j m E). rewrite kw_get_pop in K by (eapply G; eauto). replace (idx + S j)%nat with (S idx + j)%nat by lia. exact K.
      * assert (idx = List.length args) by lia. subst idx.
        destruct (IH ND' _ _ _ v rest H ltac:(lia) ltac:(rewrite app_length; cbn; lia)) as [[ad Ad] K].
        split; [exists ([x] ++ ad)%list; rewrite app_assoc; exact Ad|].
        intros [|j] m E; cbn in E.
        -- injection E as <-. right. rewrite Nat.add_0_r, Ad, <- app_assoc, app_nth2, Nat.sub_diag by lia. exact Gn.
        -- specialize (K j m E). rewrite kw_get_pop in K by (eapply G; eauto). right. replace (List.length args + S j)%nat with (S (List.length args) + j)%nat by lia.
           destruct K as [[Kl _]|K]; [rewrite app_length in Kl; cbn in Kl; lia|exact K].
    + destruct (Nat.eq_dec idx (List.length args)) as [->|N]; [apply sep_short in H; lia|].
      destruct (IH ND' (S idx) args kw v rest H ltac:(lia) ltac:(lia)) as [Ad K]. split; [exact Ad|].
      intros [|j] m E; cbn in E.
      * injection E as <-. left. split; [lia|]. intros w Ew. congruence.
      * specialize (K j m E). replace (idx + S j)%nat with (S idx + j)%nat by lia. exact K.
Qed.
Lemma moment_args_sound shapes args kw v : NoDup shapes -> moment_args shapes args kw = Ok v ->
  List.length v = List.length shapes /\
  forall i n, nth_error shapes i = Some n ->
    (i < List.length args)%nat /\ nth i v 0 = nth i args 0 /\ (forall w, kw_get n kw = Some w -> exists x, w = KNum [x] /\ isclose (nth i args 0) x = true) \/
    (List.length args <= i)%nat /\ kw_get n kw = Some (KNum [nth i v 0]).
Proof.
  intros ND H. unfold moment_args in H. destruct (separate_loop 0 shapes args kw) as [[u rest]|] eqn:E; cbn [bind fst snd] in H; [|discriminate].
  destruct (clean_kwargs rest) as [r|]; cbn [bind] in H; [|discriminate].
  destruct (Nat.eqb (List.length u) (List.length shapes)) eqn:L; cbn [andb] in H; [|discriminate]. apply Nat.eqb_eq in L.
  destruct r; [|discriminate]. injection H as <-. split; [exact L|].
  destruct (sep_binds shapes ND 0 args kw u rest E L ltac:(lia)) as [[ad Ad] K]. intros i n Hn. specialize (K i n Hn). cbn in K.
  destruct (Nat.lt_ge_cases i (List.length args)) as [Lt|Ge].
  - left. split; [exact Lt|]. split; [rewrite Ad, app_nth1 by exact Lt; reflexivity|]. destruct K as [[_ K]|K]; [exact K|].
    intros w Ew. rewrite K in Ew. injection Ew as <-. exists (nth i u 0). split; [reflexivity|].
    rewrite Ad, app_nth1 by exact Lt. unfold isclose, isclose_tol. apply Rleb_true. rewrite Rminus_diag_eq by reflexivity. rewrite Rabs_R0. pose proof (Rabs_pos (nth i args 0)). lra.
  - right. split; [exact Ge|]. destruct K as [[K _]|K]; [lia|exact K].
Qed.
Lemma sep_complete names : NoDup names -> forall vs args kw, List.length vs = List.length names ->
  dict kw -> (forall k v, binds kw k v -> In k names) ->
  (forall j n, nth_error names j = Some n -> kw_get n kw = Some (KNum [nth j vs 0])) ->
  separate_loop (List.length args) names args kw = Ok ((args ++ vs)%list, []).
Proof.
  induction names as [|n names IH]; intros ND vs args kw L D Hk Hv.
  - destruct vs; [|discriminate]. destruct kw as [|[k v] kw]; [cbn; rewrite app_nil_r; reflexivity|]. destruct (Hk k v); cbn; auto.
  - inversion ND as [|? ? Nn ND']; subst. destruct vs as [|x vs]; [discriminate|]. injection L as L. cbn [separate_loop].
    rewrite (Hv O n eq_refl). cbn [kw_scalar bind nth]. rewrite Nat.ltb_irrefl.
    replace (args ++ x :: vs)%list with ((args ++ [x]) ++ vs)%list by (rewrite <- app_assoc; reflexivity).
    replace (S (List.length args)) with (List.length (args ++ [x])) by (rewrite app_length; cbn; lia).
    apply IH; [exact ND'|exact L|apply kw_pop_dict, D| |].
    + intros k v B. apply kw_pop_in in B. destruct B as [B N]. cbn in N. destruct (Hk k v B) as [<-|]; [congruence|assumption].
    + intros j m E. rewrite kw_get_pop; [apply (Hv (S j) m E)|]. intros ->. apply Nn. eapply nth_error_In; eauto.
Qed.
Lemma sep_skip pre : forall idx args kw names, (idx + List.length pre <= List.length args)%nat -> (forall n, In n pre -> kw_get n kw = None) ->
  separate_loop idx (pre ++ names) args kw = separate_loop (idx + List.length pre) names args kw.
Proof.
  induction pre as [|p pre IH]; intros idx args kw names L H; cbn; [rewrite Nat.add_0_r; reflexivity|].
  rewrite H by (cbn; auto). cbn in L. rewrite IH; [f_equal; lia|lia|]. intros n Hn. apply H. cbn. auto.
Qed.
Lemma moment_args_complete pre names args vs kw : NoDup (pre ++ names) -> List.length args = List.length pre -> List.length vs = List.length names ->
  dict kw -> (forall k v, binds kw k v -> In k names) ->
  (forall j n, nth_error names j = Some n -> kw_get n kw = Some (KNum [nth j vs 0])) ->
  moment_args (pre ++ names) args kw = Ok (args ++ vs)%list.
Proof.
  intros ND La Lv D Hk Hv. unfold moment_args.
  assert (NDn : NoDup names) by (clear - ND; induction pre; [exact ND|inversion ND; auto]).
  rewrite sep_skip; [|cbn; lia|].
  - cbn [plus]. rewrite <- La. rewrite (sep_complete names NDn vs args kw Lv D Hk Hv). cbn [bind fst snd clean_kwargs kw_get find existsb kw_has].
    rewrite !app_length, La, Lv, Nat.eqb_refl. reflexivity.
  - intros n Hn. apply kw_get_none. destruct (kw_has n kw) eqn:E; [|reflexivity]. exfalso. apply kw_has_in, in_map_iff in E. destruct E as ([k v] & E & Hin). cbn in E. subst k.
    specialize (Hk n v Hin). clear - ND Hn Hk. induction pre as [|p pre IH]; [contradiction|]. inversion ND as [|? ? N ND']; subst. destruct Hn as [->|Hn]; [apply N, in_or_app; auto|auto].
Qed.
