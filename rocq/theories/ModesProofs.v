From Verif Require Import Prelude NpModel NpProofs CircleSpec UtilsModel UtilsProofs DescModel Desc2Model DescProofs
  DescSpec HypMultiModel HypMulti2Model HypMultiSpec HypMultiProofs HypMulti7Proofs
  CorrSpec CorrProofs Corr2Proofs Corr4Proofs Corr6Proofs ClusModel ClusSpec ClusProofs Clus2Proofs Clus3Proofs Clus4Proofs
  EmModel EmSpec EmProofs Em2Proofs Em3Proofs Em4Proofs Em6Proofs Em8Proofs Em10Proofs Em13Proofs BaseModel Base3Proofs ModesModel ModesSpec.
From Coq Require Import List.
Import ListNotations.
Open Scope R_scope.
Open Scope list_scope.

(** * The expanded sample *)
Lemma copies_length alpha w obs : copies alpha w obs -> length alpha = length w.
Proof. induction 1; cbn; lia. Qed.
Lemma copies_expand alpha w obs : copies alpha w obs -> expand_w true alpha w = Ok obs.
Proof.
  intros H. unfold expand_w, repeat_z. rewrite map_length, (copies_length _ _ _ H), Nat.eqb_refl. cbn [negb].
  assert (existsb (fun z => Z.ltb z 0) (map trunc w) = false /\ np_repeat alpha (map Z.to_nat (map trunc w)) = obs) as [-> ->]; [|reflexivity].
  induction H as [|a k alpha w obs H [IH1 IH2]]; [split; reflexivity|]. cbn [map existsb np_repeat]. rewrite trunc_INR, Nat2Z.id, IH1, IH2.
  split; [|reflexivity]. destruct (Z.ltb_spec (Z.of_nat k) 0); [lia|reflexivity].
Qed.
Lemma copies_ones obs : copies obs (ones obs) obs.
Proof. unfold ones. induction obs as [|x obs IH]; [constructor|]. exact (cp_more x 1 obs _ obs IH). Qed.

(** * The first smallest number *)
Definition num_or_nan (x : fl) : Prop := x = NaN \/ exists v, x = Fin v.
Lemma argmin_from_spec : forall t done best bi, Forall num_or_nan t -> Forall num_or_nan done ->
  (best = PInf /\ Forall (fun x => x = NaN) done \/ exists v, best = Fin v /\ nth_error done bi = Some (Fin v) /\
     forall j u, nth_error done j = Some (Fin u) -> v <= u /\ ((j < bi)%nat -> v < u)) ->
  (exists v, In (Fin v) (done ++ t)) -> least_at (done ++ t) (argmin_from best bi (length done) (map nan_to_inf t)).
Proof.
  induction t as [|x t IH]; intros done best bi Ft Fd H Ex; cbn [map argmin_from].
  - rewrite app_nil_r in *. destruct H as [[_ A]|(v & _ & A & B)].
    + exfalso. destruct Ex as (v & I). rewrite Forall_forall in A. specialize (A _ I). discriminate.
    + exists v. auto.
  - inversion Ft as [|? ? Fx Ft']; subst. replace (done ++ x :: t) with ((done ++ [x]) ++ t) in * by now rewrite <- app_assoc.
    replace (S (length done)) with (length (done ++ [x])) by (rewrite app_length; cbn; lia).
    assert (Fd' : Forall num_or_nan (done ++ [x])) by (apply Forall_app; auto).
    assert (LT : forall j u, nth_error (done ++ [x]) j = Some u -> (j < length done)%nat /\ nth_error done j = Some u \/ j = length done /\ u = x).
    { intros j u Hj. destruct (Nat.lt_ge_cases j (length done)).
      - left. rewrite nth_error_app1 in Hj by auto. auto.
      - right. rewrite nth_error_app2 in Hj by auto. assert (Q : (j - length done < length [x])%nat) by (apply nth_error_Some; congruence). cbn in Q.
        assert (j = length done) by lia. subst j. rewrite Nat.sub_diag in Hj. cbn in Hj. injection Hj as <-. auto. }
    assert (BD : forall v, nth_error done bi = Some (Fin v) -> (bi < length done)%nat) by (intros v Hv; apply nth_error_Some; congruence).
    destruct Fx as [->|(y & ->)]; cbn [nan_to_inf].
    + replace (fllt PInf best) with false by (destruct H as [[-> _]|(v & -> & _)]; reflexivity).
      apply IH; auto. destruct H as [[-> A]|(v & -> & A & B)]; [left; split; auto; apply Forall_app; auto|right].
      exists v. split; auto. split; [rewrite nth_error_app1; eauto|]. intros j u Hj. destruct (LT j _ Hj) as [[_ Q]|[_ Q]]; [eauto|discriminate].
    + destruct H as [[-> A]|(v & -> & A & B)]; cbn [fllt].
      * apply IH; auto. right. exists y. split; auto. split; [rewrite nth_error_app2, Nat.sub_diag by auto; reflexivity|].
        intros j u Hj. destruct (LT j _ Hj) as [[Q1 Q]|[-> Q]].
        -- exfalso. rewrite Forall_forall in A. apply nth_error_In in Q. specialize (A _ Q). discriminate.
        -- injection Q as ->. split; [lra|lia].
      * destruct (Rltb_spec y v).
        -- apply IH; auto. right. exists y. split; auto. split; [rewrite nth_error_app2, Nat.sub_diag by auto; reflexivity|].
           intros j u Hj. destruct (LT j _ Hj) as [[Q1 Q]|[-> Q]]; [destruct (B _ _ Q); split; intros; lra|].
           injection Q as ->. split; [lra|lia].
        -- apply IH; auto. right. exists v. split; auto. split; [rewrite nth_error_app1; eauto|].
           intros j u Hj. destruct (LT j _ Hj) as [[Q1 Q]|[-> Q]]; [eauto|]. injection Q as ->. specialize (BD _ A). split; [lra|lia].
Qed.
Lemma nanargmin_spec l : Forall num_or_nan l -> (exists v, In (Fin v) l) -> least_at l (nanargmin l).
Proof.
  intros F Ex. unfold nanargmin. destruct l as [|x t]; [destruct Ex as (v & [])|]. cbn [map]. inversion F as [|? ? Fx Ft]; subst.
  change 1%nat with (length [x]). change (x :: t) with ([x] ++ t). apply argmin_from_spec; auto.
  destruct Fx as [->|(y & ->)]; [left; auto|right]. exists y. split; [reflexivity|]. split; [reflexivity|].
  intros [|j] u Hj; cbn in Hj; [injection Hj as ->; split; [lra|lia]|destruct j; discriminate].
Qed.
Lemma all_nan l : forallb is_nan l = true <-> Forall (fun x => x = NaN) l.
Proof.
  rewrite forallb_forall, Forall_forall. split; intros H x Hx; specialize (H x Hx); [destruct x; try discriminate; reflexivity|now subst].
Qed.
Lemma some_num l : Forall num_or_nan l -> forallb is_nan l = false -> exists v, In (Fin v) l.
Proof.
  induction 1 as [|x l [->|(v & ->)] F IH]; cbn [forallb is_nan andb]; [discriminate| |].
  - intros E. destruct (IH E) as (v & I). exists v. now right.
  - intros _. exists v. now left.
Qed.

(** * The BIC of one candidate *)
Lemma log_col_nan I0 p cs x : length p = length cs -> (exists c, In c cs /\ vm_mu c = NaN) -> In NaN (log_col wt32 (vm_ld I0) p cs x).
Proof.
  unfold log_col. revert p. induction cs as [|d cs IH]; intros [|q p] L (c & I & M); try destruct I; try discriminate.
  - subst d. cbn. left. unfold vm_ld. rewrite M. destruct (flmap _ q); reflexivity.
  - unfold map2. cbn [combine map]. right. apply (IH p); [cbn in L; lia|eauto].
Qed.
Lemma movm_bic_nan I0 K m : length (mx_p m) = length (mx_cs m) -> mx_alpha m <> [] -> (exists c, In c (mx_cs m) /\ vm_mu c = NaN) ->
  movm_bic I0 K (Some m) = Ok NaN.
Proof.
  intros L N C. unfold movm_bic, nll. destruct (mx_alpha m) as [|x a]; [congruence|]. cbn [map].
  rewrite (lse_nan _ (log_col_nan I0 (mx_p m) (mx_cs m) x L C)), fsum_nan by now left. reflexivity.
Qed.
Lemma modes_cfg_ok cycle k : (1 <= k)%nat -> cfg_ok (modes_cfg cycle k).
Proof. intros H. unfold cfg_ok. cbn [modes_cfg c_K c_iters c_threshold]. split; [auto|]. split; [lia|]. apply Rinv_0_lt_compat, pow_lt. lra. Qed.
Lemma movm_candidate I0 cycle k cands obs m : (forall x, 0 < I0 x) -> (1 <= k)%nat -> Forall (fun l => length l = length obs) cands ->
  movm_fit I0 (modes_cfg cycle k) (false, None) cands obs = Ok m -> exists b, movm_bic I0 k (Some m) = Ok b /\ candidate I0 obs k m b.
Proof.
  intros HI Hk CL E. pose proof (modes_cfg_ok cycle k Hk) as HC.
  destruct (movm_fit_spec I0 _ _ _ _ _ HI HC CL E) as (labels & start & _ & _ & _ & L1 & L2 & D). cbn [modes_cfg c_K c_radian c_cycle in_radians] in L1, L2, D.
  destruct (movm_fit_eq I0 _ _ _ _ _ HI HC CL E) as (_ & _ & _ & _ & _ & _ & Ea & N & _). cbn [modes_cfg c_radian c_cycle in_radians] in Ea.
  destruct D as [[(ps & Ep & _) (cs & Ec & _)]|(_ & (c & I & Mc) & _)].
  - pose proof (movm_bic_spec I0 _ _ _ _ _ HI HC CL E ps cs Ep Ec) as B. cbn [modes_cfg c_K c_radian c_cycle in_radians] in B.
    eexists. split; [exact B|]. split; [auto|]. left. exists ps, cs. split; [auto|]. split; [auto|].
    replace (2 * k + (k - 1))%nat with (3 * k - 1)%nat by lia. reflexivity.
  - apply in_map_iff in I. destruct I as (d & <- & I). cbn [pars fst] in Mc. exists NaN. split.
    + apply movm_bic_nan; [congruence| |eauto]. rewrite Ea. exact N.
    + split; [auto|]. right. split; [eauto|reflexivity].
Qed.
