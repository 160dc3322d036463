From Verif Require Import Prelude NpModel NpProofs CircleSpec UtilsModel UtilsProofs DescModel Desc2Model DescProofs
  DescSpec DescApi DescApi2 HypProofs HypMultiModel HypMulti2Model HypMultiSpec HypMultiProofs HypMulti7Proofs
  CorrSpec Corr4Proofs Corr6Proofs ClusModel ClusSpec ClusProofs Clus2Proofs Clus3Proofs Clus4Proofs EmModel EmSpec.

(** * One column *)
Lemma sum_exp_pos l : l <> [] -> 0 < Rsum (map exp l).
Proof.
  destruct l as [|x l]; [congruence|]. intros _. cbn [map]. rewrite Rsum_cons. pose proof (exp_pos x).
  assert (0 <= Rsum (map exp l)); [|lra]. apply Rsum_map_nonneg. intros; apply Rlt_le, exp_pos.
Qed.
Lemma first_nan_fin l : first_nan 0 (map Fin l) = None.
Proof. generalize 0%nat. induction l as [|x l IH]; intros k; cbn; auto. Qed.
Lemma fval_fin l : map fval (map Fin l) = l.
Proof. rewrite map_map. cbn [fval]. apply map_id. Qed.
Lemma lse_fin l : lse (map Fin l) = Fin (ln (Rsum (map exp l))).
Proof. unfold lse. now rewrite first_nan_fin, fval_fin. Qed.
Lemma first_nan_in l : In NaN l -> forall k, exists i, first_nan k l = Some i.
Proof.
  induction l as [|x l IH]; intros H k; [destruct H|]. cbn [first_nan]. destruct x; cbn [is_nan]; try (eexists; reflexivity);
    (destruct H as [H|H]; [discriminate|]; apply IH; exact H).
Qed.
Lemma lse_nan l : In NaN l -> lse l = NaN.
Proof. intros H. unfold lse. destruct (first_nan_in l H 0) as [i ->]. reflexivity. Qed.
Lemma resp_fin l : l <> [] -> resp (map Fin l) = map Fin (map (fun x => exp x / Rsum (map exp l)) l).
Proof.
  intros N. unfold resp. rewrite lse_fin. rewrite !map_map. apply map_ext. intros x. unfold fsub. cbn [fneg fadd flmap].
  f_equal. rewrite exp_plus, exp_Ropp, exp_ln by (now apply sum_exp_pos). reflexivity.
Qed.
Lemma Rsum_scale_inv (f : R -> R) s l : Rsum (map (fun x => f x / s) l) = Rsum (map f l) / s.
Proof. induction l as [|x l IH]; cbn [map]; [unfold Rsum; cbn; unfold Rdiv; ring|]. rewrite !Rsum_cons, IH. unfold Rdiv. ring. Qed.
Lemma resp_shares l : l <> [] -> shares (resp (map Fin l)).
Proof.
  intros N. rewrite resp_fin by auto. pose proof (sum_exp_pos l N) as H. eexists. split; [reflexivity|]. split.
  - apply Forall_forall. intros q Hq. apply in_map_iff in Hq. destruct Hq as (x & <- & _). apply Rdiv_lt_0_compat; auto. apply exp_pos.
  - rewrite Rsum_scale_inv. field. lra.
Qed.
Lemma resp_nan l : In NaN l -> undefined (resp l).
Proof.
  intros H. unfold resp. rewrite (lse_nan l H). apply Forall_forall. intros x Hx. apply in_map_iff in Hx. destruct Hx as (y & <- & _).
  unfold fsub. cbn [fneg]. destruct y; reflexivity.
Qed.
Lemma resp_length l : length (resp l) = length l.
Proof. apply map_length. Qed.

(** * The columns of a mixture *)
Definition logs {P} (wt : R -> R) (ld : P -> R -> R) (p : list R) (cs : list P) (x : R) : list R :=
  map2 (fun q c => ln (wt q) + ld c x) p cs.
Definition finite_at {P} (ld : P -> R -> fl) (c : P) : Prop := forall x, exists v, ld c x = Fin v.
Lemma log_col_fin {P} wt (ld : P -> R -> fl) ps cs x : Forall (finite_at ld) cs ->
  log_col wt ld (map Fin ps) cs x = map Fin (logs wt (fun c x => fval (ld c x)) ps cs x).
Proof.
  intros F. unfold log_col, logs, map2. revert ps. induction F as [|c cs H F IH]; intros [|q ps]; cbn [map combine]; auto.
  rewrite IH. f_equal. cbn [fst snd]. destruct (H x) as [v E]. rewrite E. reflexivity.
Qed.
Lemma log_col_length {P} wt (ld : P -> R -> fl) p cs x : length p = length cs -> length (log_col wt ld p cs x) = length cs.
Proof. intros H. unfold log_col. rewrite map2_length; auto. Qed.
Lemma logs_length {P} wt (ld : P -> R -> R) p cs x : length p = length cs -> length (logs wt ld p cs x) = length cs.
Proof. intros H. unfold logs. rewrite map2_length; auto. Qed.
Lemma log_col_nan {P} wt (ld : P -> R -> fl) p cs x : length p = length cs -> (In NaN p \/ exists c, In c cs /\ ld c x = NaN) ->
  In NaN (log_col wt ld p cs x).
Proof.
  revert p. induction cs as [|c cs IH]; intros [|q p] L H; try discriminate.
  - destruct H as [[]|(? & [] & _)].
  - change (log_col wt ld (q :: p) (c :: cs) x) with (fadd (flmap (fun q => ln (wt q)) q) (ld c x) :: log_col wt ld p cs x).
    cbn [length] in L. injection L as L. destruct H as [[->|H]|(c' & [->|H] & E)].
    + left. reflexivity.
    + right. apply IH; auto.
    + left. rewrite E. destruct q; reflexivity.
    + right. apply IH; eauto.
Qed.
Lemma shares_fin l : shares l -> exists qs, l = map Fin qs.
Proof. intros (qs & H & _). eauto. Qed.
Lemma gamma_shares {P} wt (ld : P -> R -> fl) p cs alpha : cs <> [] -> length p = length cs -> shares p -> Forall (finite_at ld) cs ->
  Forall shares (gammas wt ld p cs alpha).
Proof.
  intros N L (ps & -> & _) F. apply Forall_forall. intros col H. apply in_map_iff in H. destruct H as (x & <- & _).
  rewrite log_col_fin by auto. apply resp_shares. rewrite map_length in L. intros Z.
  apply N. apply length_zero_iff_nil. rewrite <- (logs_length wt (fun c x => fval (ld c x)) ps cs x L), Z. reflexivity.
Qed.
Lemma gamma_undefined {P} wt (ld : P -> R -> fl) p cs alpha : length p = length cs ->
  In NaN p \/ (exists c, In c cs /\ forall x, ld c x = NaN) -> Forall undefined (gammas wt ld p cs alpha).
Proof.
  intros L H. apply Forall_forall. intros col Hc. apply in_map_iff in Hc. destruct Hc as (x & <- & _).
  apply resp_nan. apply log_col_nan; auto. destruct H as [H|(c & H & E)]; [left; auto|right; eauto].
Qed.
Lemma gammas_lengths {P} wt (ld : P -> R -> fl) p cs alpha : length p = length cs ->
  Forall (fun col => length col = length cs) (gammas wt ld p cs alpha).
Proof.
  intros L. apply Forall_forall. intros col H. apply in_map_iff in H. destruct H as (x & <- & _). rewrite resp_length. now apply log_col_length.
Qed.
Lemma gammas_length {P} wt (ld : P -> R -> fl) p cs alpha : length (gammas wt ld p cs alpha) = length alpha.
Proof. apply map_length. Qed.

(** * Weights *)
Lemma normalised_shares qs : qs <> [] -> Forall (fun q => 0 < q) qs -> shares (normalised (map Fin qs)).
Proof.
  intros N F. unfold normalised. rewrite fsum_fin, map_map. cbn [fdiv]. 
  assert (S0 : 0 < Rsum qs).
  { destruct F as [|q qs H F]; [congruence|]. rewrite Rsum_cons. assert (0 <= Rsum qs); [|lra].
    clear -F. induction F; [unfold Rsum; cbn; lra|]. rewrite Rsum_cons. lra. }
  assert (E : forall x, np_div x (Rsum qs) = Fin (x / Rsum qs)).
  { intros x. unfold np_div. destruct (Reqb_spec (Rsum qs) 0); [lra|reflexivity]. }
  exists (map (fun q => q / Rsum qs) qs). split; [rewrite map_map; apply map_ext; intros; apply E|]. split.
  - apply Forall_forall. intros y Hy. apply in_map_iff in Hy. destruct Hy as (q & <- & Hq). apply Rdiv_lt_0_compat; auto.
    rewrite Forall_forall in F. auto.
  - rewrite (Rsum_scale_inv (fun q => q)), map_id. field. lra.
Qed.
Lemma fsum_nan l : In NaN l -> fsum l = NaN.
Proof.
  induction l as [|x l IH]; intros H; [destruct H|]. rewrite fsum_cons. destruct H as [H|H]; [subst; reflexivity|]. rewrite IH by auto. destruct x; reflexivity.
Qed.
Lemma normalised_nan p : In NaN p -> Forall (fun x => x = NaN \/ exists a, x = Fin a) p -> undefined (normalised p).
Proof.
  intros H F. unfold normalised. rewrite fsum_nan by auto. apply Forall_forall. intros x Hx. apply in_map_iff in Hx.
  destruct Hx as (y & <- & Hy). destruct y; reflexivity.
Qed.
Lemma normalised_length p : length (normalised p) = length p.
Proof. apply map_length. Qed.
Lemma row_sums_length K g : length (row_sums K g) = K.
Proof. unfold row_sums. now rewrite map_length, seq_length. Qed.
Lemma row_length g c : length (row g c) = length g.
Proof. apply map_length. Qed.
Lemma row_shares g K c : Forall shares g -> Forall (fun col => length col = K) g -> (c < K)%nat ->
  exists qs, row g c = map Fin qs /\ Forall (fun q => 0 < q) qs.
Proof.
  intros F L Hc. induction F as [|col g (qs & E & Q & _) F IH]; [exists []; split; [reflexivity|constructor]|].
  inversion L as [|? ? Lc L']; subst. destruct (IH L') as (rs & Er & Fr).
  exists (nth c qs 0 :: rs). unfold row in *. cbn [map]. rewrite Er. split.
  - f_equal. rewrite map_length in Hc. rewrite (nth_indep _ NaN (Fin 0)) by (rewrite map_length; auto). apply (map_nth Fin).
  - constructor; auto. rewrite Forall_forall in Q. apply Q. apply nth_In. now rewrite map_length in Hc.
Qed.
Lemma pos_sum qs : qs <> [] -> Forall (fun q => 0 < q) qs -> 0 < Rsum qs.
Proof.
  intros N F. destruct F as [|q qs H F]; [congruence|]. rewrite Rsum_cons. assert (0 <= Rsum qs); [|lra].
  clear -F. induction F; [unfold Rsum; cbn; lra|]. rewrite Rsum_cons. lra.
Qed.
Lemma row_sums_shares g K : g <> [] -> Forall shares g -> Forall (fun col => length col = K) g ->
  exists qs, row_sums K g = map Fin qs /\ Forall (fun q => 0 < q) qs.
Proof.
  intros N F L. unfold row_sums.
  assert (G : forall c, In c (seq 0 K) -> exists q, fsum (row g c) = Fin q /\ 0 < q).
  { intros c Hc. apply in_seq in Hc. destruct (row_shares g K c F L ltac:(lia)) as (qs & E & Q). rewrite E, fsum_fin.
    exists (Rsum qs). split; auto. apply pos_sum; auto. intros ->. apply N. apply length_zero_iff_nil.
    rewrite <- (row_length g c), E. reflexivity. }
  induction (seq 0 K) as [|c l IH]; [exists []; split; [reflexivity|constructor]|]. cbn [map].
  destruct IH as (qs & E & Q); [intros; apply G; right; auto|]. destruct (G c) as (q & Eq & Pq); [left; auto|].
  exists (q :: qs). rewrite E, Eq. split; auto.
Qed.
Lemma row_undefined g K c : Forall undefined g -> Forall (fun col => length col = K) g -> (c < K)%nat -> g <> [] -> In NaN (row g c).
Proof.
  intros F L Hc N. destruct F as [|col g H F]; [congruence|]. left. unfold undefined in H. rewrite Forall_forall in H. apply H. apply nth_In.
  inversion L; subst. lia.
Qed.
Lemma row_sums_undefined g K : g <> [] -> Forall undefined g -> Forall (fun col => length col = K) g -> undefined (row_sums K g).
Proof.
  intros N F L. apply Forall_forall. intros x H. apply in_map_iff in H. destruct H as (c & <- & Hc). apply in_seq in Hc.
  apply fsum_nan. apply (row_undefined g K); auto; lia.
Qed.

(** * The loop *)
Lemma nth_error_last {A} (l : list A) (v d : A) : nth_error (l ++ [v]) (length l) = Some v.
Proof. rewrite nth_error_app2 by lia. now rewrite Nat.sub_diag. Qed.
Lemma last_nth_error {A} (l : list A) d : l <> [] -> nth_error l (length l - 1) = Some (last l d).
Proof.
  intros N. destruct (exists_last N) as (l' & x & ->). rewrite last_last, app_length. cbn [length].
  replace (length l' + 1 - 1)%nat with (length l') by lia. now apply nth_error_last.
Qed.
Lemma fllt_close v u thr : fllt (flabs (fsub v u)) (Fin thr) = true <-> close thr u v.
Proof.
  unfold close. split.
  - destruct v as [b| | |], u as [a| | |]; cbn; try discriminate. rewrite Rltb_true. intros H. exists a, b. split; [auto|]. split; [auto|]. exact H.
  - intros (a & b & -> & -> & H). cbn. apply Rltb_true. exact H.
Qed.
Lemma may_stop_app burnin thr hist v j : (j < length hist)%nat -> may_stop burnin thr (hist ++ [v]) j <-> may_stop burnin thr hist j.
Proof.
  intros H. unfold may_stop. rewrite !nth_error_app1 by lia. reflexivity.
Qed.
Lemma may_stop_last burnin thr hist v : hist <> [] ->
  (may_stop burnin thr (hist ++ [v]) (length hist) <-> (burnin < length hist)%nat /\ close thr (last hist NaN) v).
Proof.
  intros N. unfold may_stop. rewrite (nth_error_last hist v v). rewrite nth_error_app1 by (destruct hist; [congruence|cbn; lia]).
  rewrite (last_nth_error hist NaN N). split.
  - intros (H & u & w & E & E' & C). injection E as <-. injection E' as <-. auto.
  - intros [H C]. split; auto. eauto.
Qed.
Lemma em_loop_ok {St} (step : St -> res (St * fl)) burnin thr : forall left it st hist out hist' conv,
  length hist = it -> (forall j, ~ may_stop burnin thr hist j) ->
  em_loop step burnin thr left it st hist = Ok (out, hist', conv) ->
  exists more, hist' = hist ++ more /\ passes (fun s s' v => step s = Ok (s', v)) st more out /\
    stop_rule burnin thr (it + left) hist' conv.
Proof.
  induction left as [|k IH]; intros it st hist out hist' conv L NS H.
  - cbn in H. injection H as <- <- <-. exists []. rewrite app_nil_r. split; auto. split; [constructor|].
    split; [lia|]. split; [intros; apply NS|]. split; [lia|]. apply NS.
  - cbn [em_loop] in H. destruct (step st) as [[st' v]|e] eqn:E; [|discriminate]. cbn [bind] in H.
    destruct (Nat.ltb burnin it && fllt (flabs (fsub v (last hist NaN))) (Fin thr)) eqn:T.
    + injection H as <- <- <-. apply andb_prop in T. destruct T as [T1 T2]. apply Nat.ltb_lt in T1. apply fllt_close in T2.
      exists [v]. split; auto. split; [econstructor; eauto; constructor|].
      assert (N : hist <> []) by (intros ->; cbn in L; lia).
      split; [rewrite app_length; cbn [length]; lia|]. split.
      * intros j Hj. rewrite app_length in Hj. cbn [length] in Hj. rewrite may_stop_app by lia. apply NS.
      * split; [rewrite app_length; cbn [length]; lia|]. split; [lia|].
        replace (S it - 1)%nat with (length hist) by lia. apply may_stop_last; auto. split; auto; lia.
    + apply IH in H.
      * destruct H as (more & -> & P & SR). exists (v :: more). rewrite <- app_assoc. split; auto. split; [econstructor; eauto|].
        rewrite <- app_assoc in SR. cbn [app] in SR. replace (it + S k)%nat with (S it + k)%nat by lia. exact SR.
      * rewrite app_length. cbn [length]. lia.
      * intros j. destruct (Nat.lt_ge_cases j (length hist)) as [Hj|Hj]; [rewrite may_stop_app by auto; apply NS|].
        destruct (Nat.eq_dec j (length hist)) as [->|Hn].
        -- destruct hist as [|h0 hist0] eqn:EH; [intros [Q _]; cbn in Q; lia|]. rewrite may_stop_last by discriminate.
           intros [Q1 Q2]. apply fllt_close in Q2. rewrite Q2, andb_true_r in T. apply Nat.ltb_ge in T. cbn [length] in *. lia.
        -- intros (_ & u & w & _ & E2 & _). assert (nth_error (hist ++ [v]) j = None); [|congruence].
           apply nth_error_None. rewrite app_length. cbn [length]. lia.
Qed.
Lemma passes_inv {St} (step : St -> St -> fl -> Prop) (Inv : St -> Prop) s vs s' :
  (forall s s' v, Inv s -> step s s' v -> Inv s') -> passes step s vs s' -> Inv s -> Inv s'.
Proof. intros H P. induction P; eauto. Qed.
(** After at least one step, a property that every step establishes. *)
Lemma passes_after {St} (step : St -> St -> fl -> Prop) (Inv Q : St -> Prop) s vs s' :
  (forall s s' v, Inv s -> step s s' v -> Inv s' /\ Q s') -> passes step s vs s' -> vs <> [] -> Inv s -> Inv s' /\ Q s'.
Proof.
  intros H P. induction P as [|s v s1 vs s' E P IH]; intros N I; [congruence|]. destruct (H _ _ _ I E) as [I1 Q1].
  destruct P as [|]; [auto|]. apply IH; auto. discriminate.
Qed.
