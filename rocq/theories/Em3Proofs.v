From Verif Require Import Prelude NpModel NpProofs CircleSpec UtilsModel UtilsProofs DescModel Desc2Model DescProofs
  DescSpec DescApi DescApi2 HypProofs HypMultiModel HypMulti2Model HypMultiSpec HypMultiProofs HypMulti7Proofs
  CorrSpec CorrProofs Corr4Proofs Corr6Proofs ClusModel ClusSpec ClusProofs Clus2Proofs Clus3Proofs Clus4Proofs EmModel EmSpec EmProofs Em2Proofs.

(** * MovM *)
Definition sound (c : vm) : Prop := exists mu k, pars c = (Fin mu, Fin k) /\ 0 <= mu < 2 * PI /\ / 1000 <= k.
Definition lost (c : vm) : Prop := vm_mu c = NaN.
Definition conv (s : list fl * list vm) : list fl * list (fl * fl) := (fst s, map pars (snd s)).
Definition inv (K : nat) (s : list fl * list vm) : Prop :=
  length (fst s) = K /\ length (snd s) = K /\
  ((shares (fst s) /\ Forall (fun c => sound c \/ lost c) (snd s)) \/ (undefined (fst s) /\ Forall lost (snd s))).
Lemma sound_log I0 c mu k : (forall x, 0 < I0 x) -> pars c = (Fin mu, Fin k) -> 0 <= mu < 2 * PI -> / 1000 <= k ->
  log_of (vm_ld I0) (fun _ x => vm_density I0 mu k x) c.
Proof.
  intros HI E M Hk x. unfold pars in E. injection E as E1 E2. unfold vm_ld. rewrite E1, E2.
  assert (B : Rleb 0 mu && Rleb mu (2 * PI) && Rltb 0 k = true).
  { apply andb_true_intro. split; [apply andb_true_intro; split; apply Rleb_true; lra|apply Rltb_true; lra]. }
  rewrite B. pose proof (HI k). pose proof PI_RGT_0. assert (0 < 2 * PI * I0 k) by nra. unfold vm_density. split.
  - apply Rdiv_lt_0_compat; auto. apply exp_pos.
  - f_equal. unfold Rdiv. rewrite (ln_mult (exp _)), ln_exp, ln_Rinv; auto; [apply exp_pos|now apply Rinv_0_lt_compat].
Qed.
Lemma lost_ld I0 c x : lost c -> vm_ld I0 c x = NaN.
Proof. unfold lost, vm_ld. intros ->. reflexivity. Qed.
Definition num (f : fl * fl) : R * R := (fval (fst f), fval (snd f)).
Lemma sounds_num cs : Forall sound cs -> map pars cs = map (fun c => (Fin (fst c), Fin (snd c))) (map num (map pars cs)).
Proof. induction 1 as [|c cs (mu & k & E & _) F IH]; cbn [map]; auto. rewrite <- IH, E. reflexivity. Qed.
(** The density of a component as a function of its parameters. *)
Definition dens_of (I0 : R -> R) (c : vm) (x : R) : R := vm_density I0 (fst (num (pars c))) (snd (num (pars c))) x.
Lemma sounds_log I0 cs : (forall x, 0 < I0 x) -> Forall sound cs -> Forall (log_of (vm_ld I0) (dens_of I0)) cs.
Proof.
  intros HI F. eapply Forall_impl; [|exact F]. intros c (mu & k & E & M & Hk) x. unfold dens_of. rewrite E. cbn [num fst snd fval].
  apply (sound_log I0 c mu k HI E M Hk x).
Qed.
Lemma terms_num I0 ws cs x : terms (dens_of I0) ws cs x = terms (fun c x => vm_density I0 (fst c) (snd c) x) ws (map num (map pars cs)) x.
Proof.
  unfold terms. revert ws. induction cs as [|c cs IH]; intros [|w ws]; cbn [combine map]; auto. now rewrite IH.
Qed.
Lemma posterior_num I0 ws cs alpha G : posterior (dens_of I0) ws cs alpha G <->
  posterior (fun c x => vm_density I0 (fst c) (snd c) x) ws (map num (map pars cs)) alpha G.
Proof.
  unfold posterior. split; intros H; induction H as [|x g alpha G E H IH]; constructor; auto; [rewrite <- terms_num|rewrite terms_num]; exact E.
Qed.
Lemma loglik_num I0 ws cs alpha : neg_loglik (dens_of I0) ws cs alpha = neg_loglik (fun c x => vm_density I0 (fst c) (snd c) x) ws (map num (map pars cs)) alpha.
Proof. unfold neg_loglik. f_equal. apply Rsum_map_ext. intros x _. now rewrite terms_num. Qed.
Lemma wt32_pos ps : Forall (fun q => 0 < q) ps -> forall q, In q ps -> 0 < wt32 q.
Proof. intros F q Hq. rewrite Forall_forall in F. unfold wt32. pose proof (F q Hq). assert (0 < / 10 ^ 32) by (apply Rinv_0_lt_compat, pow_lt; lra). lra. Qed.
Lemma kappa_floor x : / 1000 <= Rmax x (/ 1000).
Proof. apply Rmax_r. Qed.
Lemma vm_update_sound alpha c w : sound c \/ lost c -> sound (vm_update alpha c (map Fin w)) \/ lost (vm_update alpha c (map Fin w)).
Proof.
  intros H. unfold vm_update. rewrite fsum_fin. destruct (isclose (Rsum w) 0).
  - destruct H as [(mu & k & E & M & Hk)|H]; [|right; exact H]. left. exists mu, (Rmax (kappa0 0) (/ 1000)). unfold pars in *. injection E as -> _.
    split; [reflexivity|]. split; auto. apply kappa_floor.
  - unfold circ_mean_and_r. destruct (circ_mean_and_r_s_cases (combine alpha (weights alpha (Some (map fval (map Fin w)))))) as [[_ ->]|[_ ->]].
    + right. reflexivity.
    + left. eexists. eexists. split; [reflexivity|]. split; [apply mean_dir_range|apply kappa_floor].
Qed.
Lemma nth_comb {A B} (f : nat * A -> B) (l : list A) k : forall c y, nth_error (map f (combine (seq k (length l)) l)) c = Some y ->
  exists x, nth_error l c = Some x /\ y = f ((k + c)%nat, x).
Proof.
  revert k. induction l as [|x l IH]; intros k c y H; cbn in H; [destruct c; discriminate|].
  destruct c as [|c]; cbn in H.
  - injection H as <-. exists x. split; auto. now rewrite Nat.add_0_r.
  - destruct (IH _ _ _ H) as (x' & E & ->). exists x'. split; auto. now rewrite <- plus_n_Sm.
Qed.
Lemma sound_or_lost cs : Forall (fun c => sound c \/ lost c) cs -> Forall sound cs \/ exists c, In c cs /\ lost c.
Proof.
  induction 1 as [|c cs H F IH]; [left; constructor|]. destruct H as [H|H]; [|right; exists c; split; [now left|auto]].
  destruct IH as [IH|(c' & I & L)]; [left; constructor; auto|right; exists c'; split; [now right|auto]].
Qed.
Lemma undef_in (l : list fl) : undefined l -> l <> [] -> In NaN l.
Proof. intros F N. destruct F; [congruence|]. left. auto. Qed.
Lemma lse_undef {P} wt (ld : P -> R -> fl) p cs alpha : alpha <> [] -> length p = length cs -> In NaN p \/ (exists c, In c cs /\ forall x, ld c x = NaN) ->
  nll wt ld p cs alpha = NaN.
Proof.
  intros N L H. unfold nll. rewrite fsum_nan; [reflexivity|]. destruct alpha as [|x alpha]; [congruence|]. left. apply lse_nan.
  apply log_col_nan; auto. destruct H as [H|(c & H & E)]; [left; auto|right; eauto].
Qed.
Lemma comb_len {A B} (f : nat * A -> B) k (l : list A) : length (map f (combine (seq k (length l)) l)) = length l.
Proof. rewrite map_length, combine_length, seq_length. lia. Qed.
Lemma movm_step_spec I0 K alpha s s' v : (forall x, 0 < I0 x) -> alpha <> [] -> (1 <= K)%nat -> inv K s ->
  movm_step I0 K alpha s = Ok (s', v) -> vm_pass I0 kappa0 alpha (conv s) (conv s') v /\ inv K s'.
Proof.
  intros HI Na HK (L1 & L2 & H) E. destruct s as [p cs]. cbn [fst snd] in *. unfold movm_step in E. injection E as <- <-.
  assert (Nc : cs <> []) by (intros ->; cbn in L2; lia).
  assert (Bad : In NaN p \/ (exists c, In c cs /\ lost c) ->
    vm_pass I0 kappa0 alpha (conv (p, cs)) (conv (normalised (row_sums K (gammas wt32 (vm_ld I0) p cs alpha)),
      map (fun c : nat * vm => vm_update alpha (snd c) (row (gammas wt32 (vm_ld I0) p cs alpha) (fst c))) (combine (seq 0 (length cs)) cs)))
      (nll wt32 (vm_ld I0) p cs alpha) /\
    inv K (normalised (row_sums K (gammas wt32 (vm_ld I0) p cs alpha)),
      map (fun c : nat * vm => vm_update alpha (snd c) (row (gammas wt32 (vm_ld I0) p cs alpha) (fst c))) (combine (seq 0 (length cs)) cs))).
  { intros B. assert (B' : In NaN p \/ (exists c, In c cs /\ forall x, vm_ld I0 c x = NaN)).
    { destruct B as [B|(c & B & C)]; [left; auto|right; exists c; split; auto; intros; now apply lost_ld]. }
    pose proof (gamma_undefined wt32 (vm_ld I0) p cs alpha ltac:(congruence) B') as GU.
    pose proof (gammas_lengths wt32 (vm_ld I0) p cs alpha ltac:(congruence)) as GL.
    assert (GN : gammas wt32 (vm_ld I0) p cs alpha <> []) by (unfold gammas; intros Z; apply map_eq_nil in Z; auto).
    rewrite L2 in GL. set (g := gammas wt32 (vm_ld I0) p cs alpha) in *.
    pose proof (row_sums_undefined g K GN GU GL) as RU.
    assert (NU : undefined (normalised (row_sums K g))).
    { apply normalised_nan; [apply undef_in; auto|].
      - intros Z. pose proof (row_sums_length K g) as Z'. rewrite Z in Z'. cbn in Z'. lia.
      - eapply Forall_impl; [|exact RU]. cbn. auto. }
    assert (CU : Forall (fun c => c = {| vm_mu := NaN; vm_r := NaN; vm_kappa := NaN |})
       (map (fun c : nat * vm => vm_update alpha (snd c) (row g (fst c))) (combine (seq 0 (length cs)) cs))).
    { apply Forall_forall. intros c Hc. apply in_map_iff in Hc. destruct Hc as ([i c0] & <- & Hc). cbn [fst snd]. apply in_combine_l, in_seq in Hc.
      unfold vm_update. rewrite fsum_nan; [reflexivity|]. apply (row_undefined g K); auto. lia. }
    split.
    - right. cbn [conv fst snd]. split; [|split; [rewrite normalised_length, row_sums_length, map_length; auto|split; [rewrite !map_length, combine_length, seq_length; lia|split; [auto|split]]]].
      + destruct B as [B|(c & B & C)]; [left; auto|right]. exists (pars c). split; [now apply in_map|exact C].
      + apply Forall_forall. intros c Hc. apply in_map_iff in Hc. destruct Hc as (c0 & <- & Hc). rewrite Forall_forall in CU. rewrite (CU c0 Hc). reflexivity.
      + apply lse_undef; auto; congruence.
    - split; [|split]; cbn [fst snd].
      + rewrite normalised_length. apply row_sums_length.
      + rewrite comb_len. auto.
      + right. split; auto. eapply Forall_impl; [|exact CU]. cbn. intros c ->. reflexivity. }
  destruct H as [[Sp F]|[U F]].
  - destruct (sound_or_lost cs F) as [Fs|Fl]; [|apply Bad; right; exact Fl]. clear Bad.
    destruct Sp as (ps & -> & Pp & _). rewrite map_length in L1.
    pose proof (sounds_log I0 cs HI Fs) as LG. pose proof (wt32_pos ps Pp) as W.
    destruct (gammas_bayes wt32 (vm_ld I0) (dens_of I0) ps cs alpha Nc ltac:(congruence) W LG) as (EG & PG & FG).
    rewrite (nll_terms wt32 (vm_ld I0) (dens_of I0) ps cs alpha Nc ltac:(congruence) W LG).
    rewrite EG. set (G := bayes_cols (dens_of I0) (map wt32 ps) cs alpha) in *.
    assert (GN : G <> []) by (unfold G, bayes_cols; intros Z; apply map_eq_nil in Z; auto).
    rewrite L2 in FG. destruct (new_weights_avg G K GN FG) as (EW & NW & PW & SW).
    assert (GLn : length G = length alpha) by (unfold G, bayes_cols; apply map_length).
    assert (FGL : Forall (fun g => length g = K) G) by (eapply Forall_impl; [|exact FG]; cbn; tauto).
    rewrite EW. split.
    + left. exists ps, (map num (map pars cs)), (avg G K), G. cbn [conv fst snd].
      split; [rewrite <- sounds_num by auto; reflexivity|].
      split; [apply posterior_num; exact PG|]. split; [reflexivity|]. split; [auto|]. split; [auto|]. split; [auto|].
      split; [rewrite !map_length, combine_length, seq_length; lia|].
      split; [|now rewrite loglik_num].
      intros c old new Ho Hn. rewrite map_map in Hn. destruct (nth_comb _ cs 0 c new Hn) as (c0 & E0 & ->). cbn [fst snd].
      rewrite nth_error_map, E0 in Ho. cbn in Ho. injection Ho as <-. cbn [plus].
      assert (Hc : (c < K)%nat) by (rewrite <- L2; apply nth_error_Some; congruence).
      rewrite (row_fin G K) by auto. apply vm_update_refit; auto.
      * unfold of_comp. now rewrite map_length.
      * now apply (of_comp_pos G K).
    + split; [|split]; cbn [fst snd].
      * unfold avg. now rewrite !map_length, seq_length.
      * now rewrite comb_len.
      * left. split; [exists (avg G K); auto|]. apply Forall_forall. intros c Hc. apply in_map_iff in Hc. destruct Hc as ([i c0] & <- & Hc).
        cbn [fst snd]. assert (Hi := in_combine_l _ _ _ _ Hc). apply in_seq in Hi. rewrite (row_fin G K) by (auto; lia).
        apply vm_update_sound. rewrite Forall_forall in F. apply F. eapply in_combine_r; eauto.
  - apply Bad. left. apply undef_in; auto. intros ->. cbn in L1. lia.
Qed.
Lemma passes_map {St St'} (stp : St -> St -> fl -> Prop) (stp' : St' -> St' -> fl -> Prop) (f : St -> St') (Inv : St -> Prop) s vs s' :
  (forall s s' v, Inv s -> stp s s' v -> stp' (f s) (f s') v /\ Inv s') -> passes stp s vs s' -> Inv s -> passes stp' (f s) vs (f s') /\ Inv s'.
Proof.
  intros H P. induction P as [|s v s1 vs s' E P IH]; intros I; [split; [constructor|auto]|].
  destruct (H _ _ _ I E) as [A B]. destruct (IH B) as [C D]. split; auto. econstructor; eauto.
Qed.

(** ** The start *)
Lemma pick_spec K cands labels : pick K cands = Ok labels -> In labels cands /\ forall c, (c < K)%nat -> In c labels.
Proof.
  unfold pick. destruct (find (covers K) cands) as [l|] eqn:E; [|discriminate]. intros H. injection H as ->.
  apply find_some in E. destruct E as [A B]. split; auto. intros c Hc. unfold covers in B. rewrite forallb_forall in B.
  specialize (B c). rewrite in_seq in B. specialize (B ltac:(lia)). apply existsb_exists in B. destruct B as (x & Hx & E). apply Nat.eqb_eq in E. now subst.
Qed.
Lemma subset_spec alpha labels c : subset alpha labels c = map fst (filter (fun p => Nat.eqb (snd p) c) (combine alpha labels)).
Proof. reflexivity. Qed.
Lemma subset_nonempty alpha labels c : length labels = length alpha -> In c labels -> subset alpha labels c <> [].
Proof.
  intros L H Z. unfold subset in Z. apply map_eq_nil in Z. apply (In_nth_error labels c) in H. destruct H as [i Hi].
  assert (Hl : (i < length alpha)%nat) by (rewrite <- L; apply nth_error_Some; congruence).
  destruct (nth_error alpha i) as [a|] eqn:Ea; [|apply nth_error_None in Ea; lia].
  assert (In (a, c) (combine alpha labels)).
  { clear -Ea Hi. revert labels i Ea Hi. induction alpha as [|x alpha IH]; intros [|y labels] [|i] Ea Hi; try discriminate; cbn in *.
    - injection Ea as ->. injection Hi as ->. now left.
    - right. eapply IH; eauto. }
  assert (F : In (a, c) (filter (fun p => Nat.eqb (snd p) c) (combine alpha labels))) by (apply filter_In; split; auto; apply Nat.eqb_refl).
  rewrite Z in F. destruct F.
Qed.
Lemma ones_sum (g : list R) : Rsum (repeat 1 (length g)) = INR (length g).
Proof. induction g as [|x g IH]; cbn [repeat length]; [apply Rsum_nil|]. rewrite Rsum_cons, IH, S_INR. ring. Qed.
Lemma mr_ones g : circ_mean_and_r g None = circ_mean_and_r g (Some (repeat 1 (length g))).
Proof.
  unfold circ_mean_and_r. cbn [weights]. f_equal. f_equal. unfold ones. induction g as [|x g IH]; cbn [map length repeat]; congruence.
Qed.
Lemma vm_start_refit g old : g <> [] -> vm_refit kappa0 g (repeat 1 (length g)) old (pars (vm_start g)) /\ (sound (vm_start g) \/ lost (vm_start g)).
Proof.
  intros N. unfold vm_start. rewrite mr_ones. split.
  - pose proof (refit_mr g (repeat 1 (length g)) (repeat_length _ _)) as H. rewrite ones_sum in H.
    assert (1 <= INR (length g)) by (destruct g; [congruence|]; cbn [length]; rewrite S_INR; pose proof (pos_INR (length g)); lra).
    specialize (H ltac:(lra)). specialize (H ltac:(apply Forall_forall; intros x Hx; apply repeat_spec in Hx; lra) N old).
    destruct (circ_mean_and_r g (Some (repeat 1 (length g)))) as [m r]. exact H.
  - unfold circ_mean_and_r. destruct (circ_mean_and_r_s_cases (combine g (weights g (Some (repeat 1 (length g)))))) as [[_ ->]|[_ ->]].
    + right. reflexivity.
    + left. eexists. eexists. split; [reflexivity|]. split; [apply mean_dir_range|apply kappa_floor].
Qed.
Lemma even_shares K : (1 <= K)%nat -> shares (even_weights K).
Proof.
  intros H. exists (repeat (1 / INR K) K). assert (0 < INR K) by (apply lt_0_INR; lia). split; [|split].
  - unfold even_weights. clear. induction K at 2 4; cbn [repeat map]; [reflexivity|]. now rewrite <- IHn.
  - apply Forall_forall. intros x Hx. apply repeat_spec in Hx. subst. apply Rdiv_lt_0_compat; lra.
  - assert (E : forall n x, Rsum (repeat x n) = INR n * x).
    { clear. induction n as [|n IH]; intros x; cbn [repeat]; [rewrite Rsum_nil; cbn; ring|]. rewrite Rsum_cons, IH, S_INR. ring. }
    rewrite E. field. lra.
Qed.
