From Verif Require Import Prelude NpModel NpProofs CircleSpec UtilsModel UtilsProofs DescModel Desc2Model DescProofs
  DescSpec DescApi DescApi2 HypProofs HypMultiModel HypMulti2Model HypMultiSpec HypMultiProofs HypMulti7Proofs
  CorrSpec CorrProofs Corr4Proofs Corr6Proofs ClusModel ClusSpec ClusProofs Clus2Proofs Clus3Proofs Clus4Proofs EmModel EmSpec EmProofs.

(** * E-step: Bayes' rule *)
Lemma terms_logs {P} wt (ld : P -> R -> R) (dens : P -> R -> R) ps cs x :
  (forall q, In q ps -> 0 < wt q) -> (forall c, In c cs -> 0 < dens c x /\ ld c x = ln (dens c x)) ->
  map exp (logs wt ld ps cs x) = terms dens (map wt ps) cs x /\ Forall (fun t => 0 < t) (terms dens (map wt ps) cs x).
Proof.
  unfold logs, terms, map2. revert ps. induction cs as [|c cs IH]; intros [|q ps] W D; cbn [map combine fst snd]; try (split; [reflexivity|constructor]).
  destruct (IH ps) as [E F]; [intros; apply W; right; auto|intros; apply D; right; auto|].
  destruct (D c) as [Dp De]; [left; auto|]. assert (Wq := W q (or_introl eq_refl)). split.
  - f_equal; [|exact E]. rewrite exp_plus, De, !exp_ln; auto.
  - constructor; auto. nra.
Qed.
Definition bayes_cols {P} (dens : P -> R -> R) (ws : list R) (cs : list P) (alpha : list R) : list (list R) :=
  map (fun x => map (fun w => w / Rsum (terms dens ws cs x)) (terms dens ws cs x)) alpha.
Definition log_of {P} (ld : P -> R -> fl) (dens : P -> R -> R) (c : P) : Prop := forall x, 0 < dens c x /\ ld c x = Fin (ln (dens c x)).
Lemma terms_length {P} (dens : P -> R -> R) ws cs x : length ws = length cs -> length (terms dens ws cs x) = length cs.
Proof. intros H. unfold terms. rewrite map_length, combine_length. lia. Qed.
Lemma log_col_terms {P} wt (ld : P -> R -> fl) (dens : P -> R -> R) ps cs x : length ps = length cs ->
  (forall q, In q ps -> 0 < wt q) -> Forall (log_of ld dens) cs ->
  log_col wt ld (map Fin ps) cs x = map Fin (map ln (terms dens (map wt ps) cs x)) /\ Forall (fun t => 0 < t) (terms dens (map wt ps) cs x).
Proof.
  intros L W F. rewrite Forall_forall in F. destruct (terms_logs wt (fun c x => fval (ld c x)) dens ps cs x) as [E T]; auto.
  { intros c Hc. destruct (F c Hc x) as [D1 D2]. rewrite D2. auto. }
  split; auto. rewrite log_col_fin.
  - f_equal. rewrite <- E, map_map. rewrite <- (map_id (logs _ _ _ _ _)) at 1. apply map_ext. intros a. now rewrite ln_exp.
  - apply Forall_forall. intros c Hc y. destruct (F c Hc y) as [_ ->]. eauto.
Qed.
Lemma exp_ln_map l : Forall (fun t => 0 < t) l -> map exp (map ln l) = l.
Proof. induction 1 as [|x l H F IH]; cbn [map]; [reflexivity|]. now rewrite exp_ln, IH. Qed.
Lemma gammas_bayes {P} wt (ld : P -> R -> fl) (dens : P -> R -> R) ps cs alpha : cs <> [] -> length ps = length cs ->
  (forall q, In q ps -> 0 < wt q) -> Forall (log_of ld dens) cs ->
  gammas wt ld (map Fin ps) cs alpha = map (map Fin) (bayes_cols dens (map wt ps) cs alpha) /\
  posterior dens (map wt ps) cs alpha (bayes_cols dens (map wt ps) cs alpha) /\
  Forall (fun g => length g = length cs /\ Forall (fun q => 0 < q) g /\ Rsum g = 1) (bayes_cols dens (map wt ps) cs alpha).
Proof.
  intros N L W F. unfold gammas, bayes_cols.
  assert (Pz : forall x, terms dens (map wt ps) cs x <> []).
  { intros x Z. apply N. apply length_zero_iff_nil. rewrite <- (terms_length dens (map wt ps) cs x), Z by (now rewrite map_length). reflexivity. }
  assert (T : forall x, 0 < Rsum (terms dens (map wt ps) cs x)).
  { intros x. apply pos_sum; auto. now apply (log_col_terms wt ld dens). }
  split; [|split].
  - rewrite map_map. apply map_ext. intros x. destruct (log_col_terms wt ld dens ps cs x L W F) as [-> Tx].
    rewrite resp_fin by (intros Z; apply map_eq_nil in Z; now apply (Pz x)). rewrite exp_ln_map by auto.
    f_equal. rewrite map_map. apply map_ext_in. intros w Hw. rewrite Forall_forall in Tx. now rewrite exp_ln by auto.
  - unfold posterior. induction alpha as [|x alpha IH]; cbn [map]; constructor; auto. specialize (T x).
    revert T. generalize (Rsum (terms dens (map wt ps) cs x)). intros s Hs. generalize (terms dens (map wt ps) cs x). intros l. induction l as [|w l IHl]; cbn [map]; constructor; auto. field. lra.
  - apply Forall_forall. intros g Hg. apply in_map_iff in Hg. destruct Hg as (x & <- & _). split; [|split].
    + rewrite map_length. apply terms_length. now rewrite map_length.
    + destruct (log_col_terms wt ld dens ps cs x L W F) as [_ Tx]. apply Forall_forall. intros q Hq. apply in_map_iff in Hq.
      destruct Hq as (w & <- & Hw). apply Rdiv_lt_0_compat; auto. rewrite Forall_forall in Tx. auto.
    + rewrite (Rsum_scale_inv (fun w => w)), map_id. specialize (T x). field. lra.
Qed.
Lemma nll_terms {P} wt (ld : P -> R -> fl) (dens : P -> R -> R) ps cs alpha : cs <> [] -> length ps = length cs ->
  (forall q, In q ps -> 0 < wt q) -> Forall (log_of ld dens) cs ->
  nll wt ld (map Fin ps) cs alpha = Fin (neg_loglik dens (map wt ps) cs alpha).
Proof.
  intros N L W F. unfold nll, neg_loglik.
  assert (E : map (fun x => lse (log_col wt ld (map Fin ps) cs x)) alpha = map Fin (map (fun x => ln (Rsum (terms dens (map wt ps) cs x))) alpha)).
  { rewrite map_map. apply map_ext. intros x. destruct (log_col_terms wt ld dens ps cs x L W F) as [-> Tx].
    now rewrite lse_fin, exp_ln_map. }
  rewrite E, fsum_fin. reflexivity.
Qed.

(** * M-step: weights *)
Lemma row_fin (G : list (list R)) K c : Forall (fun g => length g = K) G -> (c < K)%nat -> row (map (map Fin) G) c = map Fin (of_comp G c).
Proof.
  intros F H. unfold row, of_comp. rewrite !map_map. apply map_ext_in. intros g Hg. rewrite Forall_forall in F. specialize (F g Hg).
  rewrite (nth_indep _ NaN (Fin 0)) by (rewrite map_length; lia). apply (map_nth Fin).
Qed.
Lemma sum_comps (G : list (list R)) K : Forall (fun g => length g = K) G -> Rsum (map (fun c => Rsum (of_comp G c)) (seq 0 K)) = Rsum (map Rsum G).
Proof.
  induction 1 as [|g G L F IH].
  - unfold of_comp. cbn [map]. rewrite Rsum_nil, Rsum_map_const. ring.
  - cbn [map]. rewrite Rsum_cons, <- IH. unfold of_comp. cbn [map].
    rewrite (Rsum_map_ext (fun c => Rsum (nth c g 0 :: map (fun g0 => nth c g0 0) G)) (fun c => nth c g 0 + Rsum (map (fun g0 => nth c g0 0) G)))
      by (intros; apply Rsum_cons).
    rewrite (Rsum_map_plus (fun c => nth c g 0)). f_equal. rewrite <- L. rewrite map_seq_nth. reflexivity.
Qed.
Lemma row_sums_fin (G : list (list R)) K : Forall (fun g => length g = K) G ->
  row_sums K (map (map Fin) G) = map Fin (map (fun c => Rsum (of_comp G c)) (seq 0 K)).
Proof.
  intros F. unfold row_sums. rewrite map_map. apply map_ext_in. intros c Hc. apply in_seq in Hc. rewrite (row_fin G K) by (auto; lia). apply fsum_fin.
Qed.
Lemma of_comp_pos (G : list (list R)) K c : Forall (fun g => length g = K /\ Forall (fun q => 0 < q) g /\ Rsum g = 1) G -> (c < K)%nat -> Forall (fun q => 0 < q) (of_comp G c).
Proof.
  intros F H. apply Forall_forall. intros q Hq. apply in_map_iff in Hq. destruct Hq as (g & <- & Hg). rewrite Forall_forall in F.
  destruct (F g Hg) as (L & Q & _). rewrite Forall_forall in Q. apply Q, nth_In. lia.
Qed.
Definition avg (G : list (list R)) (K : nat) : list R := map (fun c => Rsum (of_comp G c) / INR (length G)) (seq 0 K).
Lemma new_weights_avg (G : list (list R)) K : G <> [] -> Forall (fun g => length g = K /\ Forall (fun q => 0 < q) g /\ Rsum g = 1) G ->
  normalised (row_sums K (map (map Fin) G)) = map Fin (avg G K) /\ new_weights G (avg G K) /\ Forall (fun q => 0 < q) (avg G K) /\ Rsum (avg G K) = 1.
Proof.
  intros N F. assert (FL : Forall (fun g => length g = K) G) by (eapply Forall_impl; [|exact F]; cbn; tauto).
  assert (Ln : 0 < INR (length G)) by (apply lt_0_INR; destruct G; [congruence|cbn; lia]).
  assert (T : Rsum (map (fun c => Rsum (of_comp G c)) (seq 0 K)) = INR (length G)).
  { rewrite sum_comps by auto. rewrite (Rsum_map_ext _ (fun _ => 1)). { rewrite Rsum_map_const. ring. }
    intros g Hg. rewrite Forall_forall in F. now apply F. }
  assert (A1 : Rsum (avg G K) = 1). { unfold avg. rewrite Rsum_map_div, T. field. lra. }
  split; [|split; [|split]]; auto.
  - rewrite row_sums_fin by auto. unfold normalised. rewrite fsum_fin, T. unfold avg. rewrite !map_map. apply map_ext. intros c.
    cbn [fdiv]. unfold np_div. destruct (Reqb_spec (INR (length G)) 0); [lra|reflexivity].
  - intros c q H. unfold avg in H. rewrite nth_error_map in H. destruct (nth_error (seq 0 K) c) as [c'|] eqn:E; [|discriminate].
    cbn in H. injection H as <-. assert (c' = c); [|subst; field; lra].
    assert (c < K)%nat by (rewrite <- (seq_length K 0); apply nth_error_Some; congruence). apply nth_error_nth with (d := 0%nat) in E.
    rewrite seq_nth in E by auto. lia.
  - apply Forall_forall. intros q Hq. apply in_map_iff in Hq. destruct Hq as (c & <- & Hc). apply in_seq in Hc. apply Rdiv_lt_0_compat; auto.
    apply pos_sum; [|apply (of_comp_pos G K); auto; lia]. unfold of_comp. intros Z. apply map_eq_nil in Z. auto.
Qed.

(** * M-step: a von Mises component *)
Lemma fval_map_fin l : map fval (map Fin l) = l.
Proof. rewrite map_map. cbn [fval]. apply map_id. Qed.
Definition pars (c : vm) : fl * fl := (vm_mu c, vm_kappa c).
Lemma refit_mr alpha w : length w = length alpha -> / 100000000 < Rsum w -> Forall (fun q => 0 <= q) w -> alpha <> [] -> forall old,
  let (m, r) := circ_mean_and_r alpha (Some w) in vm_refit kappa0 alpha w old (m, Fin (Rmax (kappa0 r) (/ 1000))).
Proof.
  intros L Hw F N old. unfold circ_mean_and_r. cbn [weights].
  set (s := combine alpha w). assert (Wt : wtotal s = Rsum w).
  { unfold wtotal, s. rewrite (proj2 (combine_fst_snd alpha w L)). reflexivity. }
  assert (Wp : 0 < wtotal s) by (rewrite Wt; lra).
  assert (C : wsum cos alpha w = Csum s) by apply wsum_eq. assert (Sn : wsum sin alpha w = Ssum s) by apply wsum_eq.
  assert (Rl : circ_r_s s * Rsum w = Rlen s). { rewrite circ_r_s_eq, Wt by auto. field. lra. }
  assert (R2 : circ_r_s s ^ 2 * Rsum w ^ 2 = wsum cos alpha w ^ 2 + wsum sin alpha w ^ 2).
  { rewrite C, Sn. replace (circ_r_s s ^ 2 * Rsum w ^ 2) with ((circ_r_s s * Rsum w) ^ 2) by ring. rewrite Rl. unfold Rlen.
    rewrite pow2_sqrt by nra. ring. }
  destruct (circ_mean_and_r_s_cases s) as [[Z E]|[Z E]]; rewrite E; right; (split; [lra|]); exists (circ_r_s s);
    (split; [apply circ_r_s_nonneg|]); (split; [exact R2|]); (split; [reflexivity|]); [left; split; [lra|reflexivity]|right].
  split; [lra|]. exists (mean_dir s). split; auto. split; [apply mean_dir_range|].
  destruct (mean_dir_polar s Wp ltac:(lra)) as (E1 & E2 & _). rewrite Rl, C, Sn. lra.
Qed.
Lemma vm_update_refit alpha c w : length w = length alpha -> Forall (fun q => 0 < q) w -> alpha <> [] ->
  vm_refit kappa0 alpha w (pars c) (pars (vm_update alpha c (map Fin w))).
Proof.
  intros L F N. unfold vm_update. rewrite fsum_fin.
  assert (W : 0 < Rsum w) by (apply pos_sum; auto; intros ->; destruct alpha; [congruence|discriminate]).
  destruct (isclose (Rsum w) 0) eqn:E.
  - apply isclose0_true in E; [|lra]. left. split; [lra|reflexivity].
  - apply isclose0_false in E; [|lra]. rewrite fval_map_fin.
    assert (F' : Forall (fun q => 0 <= q) w) by (eapply Forall_impl; [|exact F]; cbn; intros; lra).
    pose proof (refit_mr alpha w L E F' N (pars c)) as H. destruct (circ_mean_and_r alpha (Some w)) as [m r]. exact H.
Qed.
