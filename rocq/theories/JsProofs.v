(** The search for the envelope of the Jones-Pewsey samplers, and what it guarantees. *)
From Verif Require Import Prelude NpModel NpProofs UtilsModel DescModel Desc2Model Desc2Proofs CircleSpec IntSpec IntProofs DistModel DistSpec DistProofs Dist2Proofs Dist4Proofs Dist5Proofs
  Dist6Proofs Dist7Proofs Dist8Proofs KjProofs Kj2Proofs VonModel VonSpec VonProofs Von2Proofs Von3Proofs Von4Proofs Von6Proofs GaussProofs Ws3Proofs JpModel JpSpec JpProofs JsModel.
From Coq Require Import Permutation.

(** ** np.max and np.unique *)
Lemma fold_max_ge l x : x <= fold_left Rmax l x.
Proof. revert x. induction l as [|y l IH]; intros x; simpl; [lra|]. pose proof (IH (Rmax x y)). pose proof (Rmax_l x y). lra. Qed.
Lemma npmax_ge l x : In x l -> x <= npmax l.
Proof.
  destruct l as [|y l]; [intros []|]. intros [-> |H]; [apply fold_max_ge|]. simpl. revert y x H. induction l as [|z l IH]; intros y x H; [destruct H|]. simpl.
  destruct H as [-> |H]; [|apply IH, H]. pose proof (fold_max_ge l (Rmax y x)). pose proof (Rmax_r y x). lra.
Qed.
Lemma npmax_le l b : l <> [] -> (forall x, In x l -> x <= b) -> npmax l <= b.
Proof.
  destruct l as [|y l]; [congruence|]. intros _ H. simpl. assert (Hy : y <= b) by (apply H; left; reflexivity). assert (Hl : forall x, In x l -> x <= b) by (intros x I; apply H; right; exact I).
  clear H. revert y Hy. induction l as [|z l IH]; intros y Hy; [exact Hy|]. simpl. apply IH; [intros x I; apply Hl; right; exact I|]. apply Rmax_lub; [exact Hy|apply Hl; left; reflexivity].
Qed.
Lemma dedup_in l x : In x l -> In x (dedup l).
Proof.
  induction l as [|y l IH]; [intros []|]. destruct l as [|z l]; [intros H; exact H|]. intros H. change (dedup (y :: z :: l)) with (if Reqb y z then dedup (z :: l) else y :: dedup (z :: l)).
  destruct (Reqb y z) eqn:E.
  - destruct H as [-> |H]; [|apply IH, H]. apply IH. left. apply Reqb_true in E. congruence.
  - destruct H as [-> |H]; [left; reflexivity|right; apply IH, H].
Qed.
Lemma unique_in l x : In x l -> In x (unique l).
Proof. intros H. apply dedup_in. apply (Permutation_in _ (sort_perm l)), H. Qed.

(** ** The search *)
Definition env_inv (ratio : R -> R) (st : R * option R) : Prop :=
  match snd st with Some m => m = ratio (fst st) /\ / 10 ^ 6 <= fst st <= 10 ^ 4 | None => True end.
Lemma env_clip_range k : / 10 ^ 6 <= env_clip k <= 10 ^ 4.
Proof. apply clip_range. lra. Qed.
Lemma env_step_inv ratio st k : env_inv ratio st -> env_inv ratio (env_step ratio st k).
Proof.
  intros H. unfold env_step. cbv zeta. destruct st as [b [m|]]; simpl.
  - destruct (Rltb _ m); [|exact H]. split; [reflexivity|apply env_clip_range].
  - split; [reflexivity|apply env_clip_range].
Qed.
Lemma env_fold_inv ratio l st : env_inv ratio st -> env_inv ratio (fold_left (env_step ratio) l st).
Proof. revert st. induction l as [|k l IH]; intros st H; [exact H|]. apply IH, env_step_inv, H. Qed.
Lemma env_step_mono ratio st k m : snd st = Some m -> exists m', snd (env_step ratio st k) = Some m' /\ m' <= m.
Proof.
  destruct st as [b o]. simpl. intros ->. unfold env_step. simpl. destruct (Rltb _ m) eqn:E.
  - eexists. split; [reflexivity|]. apply Rltb_true in E. lra.
  - exists m. split; [reflexivity|lra].
Qed.
Lemma env_fold_mono ratio l st m : snd st = Some m -> exists m', snd (fold_left (env_step ratio) l st) = Some m' /\ m' <= m.
Proof.
  revert st m. induction l as [|k l IH]; intros st m H; [exists m; split; [exact H|lra]|]. destruct (env_step_mono ratio st k m H) as (m1 & E & L).
  destruct (IH _ _ E) as (m2 & E2 & L2). exists m2. split; [exact E2|lra].
Qed.
Lemma env_step_le ratio st k : exists m, snd (env_step ratio st k) = Some m /\ m <= ratio (env_clip k).
Proof.
  unfold env_step. cbv zeta. destruct st as [b [m|]]; simpl; [|eexists; split; [reflexivity|lra]]. destruct (Rltb (ratio (env_clip k)) m) eqn:E.
  - eexists; split; [reflexivity|lra].
  - apply Rltb_false in E. exists m. split; [reflexivity|lra].
Qed.
Lemma env_fold_le ratio l st k : In k l -> exists m, snd (fold_left (env_step ratio) l st) = Some m /\ m <= ratio (env_clip k).
Proof.
  revert st. induction l as [|y l IH]; intros st H; [destruct H|]. destruct H as [-> |H]; [|apply IH, H]. simpl.
  destruct (env_step_le ratio st k) as (m & E & L). destruct (env_fold_mono ratio l _ _ E) as (m' & E' & L'). exists m'. split; [exact E'|lra].
Qed.
Lemma env_refine_inv ratio n st : env_inv ratio st -> env_inv ratio (env_refine ratio n st).
Proof. revert st. induction n as [|n IH]; intros st H; [exact H|]. apply IH, env_fold_inv, H. Qed.
Lemma env_refine_mono ratio n st m : snd st = Some m -> exists m', snd (env_refine ratio n st) = Some m' /\ m' <= m.
Proof.
  revert st m. induction n as [|n IH]; intros st m H; [exists m; split; [exact H|lra]|]. simpl. destruct (env_fold_mono ratio (env_span (fst st)) st m H) as (m1 & E & L).
  destruct (IH _ _ E) as (m2 & E2 & L2). exists m2. split; [exact E2|lra].
Qed.
(** K is within its bounds, M is 1.02 times the largest ratio on the grid, and that is no larger than for the envelope 1/2. *)
Lemma envelope_spec iv grid mu guess K M : envelope iv grid mu guess = (K, M) ->
  exists m, m = env_ratio iv grid mu K /\ / 10 ^ 6 <= K <= 10 ^ 4 /\ m <= env_ratio iv grid mu (1 / 2) /\ M = Rmax (exp (m + ln (1 + 2 / 100))) (101 / 100).
Proof.
  unfold envelope. cbv zeta. set (ratio := env_ratio iv grid mu). set (st0 := (Rmax guess (/ 10 ^ 6), @None R)). set (st1 := fold_left (env_step ratio) (env_pool guess) st0).
  assert (I1 : env_inv ratio st1) by (apply env_fold_inv; exact I). pose proof (env_refine_inv ratio 3 st1 I1) as I3.
  assert (P : In (1 / 2) (env_pool guess)).
  { apply unique_in. apply in_map_iff. exists (1 / 2). split; [apply clip_in; lra|]. simpl. tauto. }
  destruct (env_fold_le ratio (env_pool guess) st0 (1 / 2) P) as (m1 & E1 & L1). destruct (env_refine_mono ratio 3 st1 m1 E1) as (m & E & L).
  intros H. generalize dependent (env_refine ratio 3 st1). intros st I3 E H. unfold env_inv in I3. rewrite E in *. apply pair_equal_spec in H. destruct H as [<- <-]. exists m. split; [apply I3|]. split; [apply I3|]. split; [|reflexivity].
  assert (C : env_clip (1 / 2) = 1 / 2) by (apply clip_in; lra). rewrite C in L1. lra.
Qed.

(** ** The log-density of the envelope *)
Lemma lvm_val iv mu k t : is_iv iv -> / 10 ^ 6 <= k -> log_vonmises iv mu k t = k * cos (t - mu) - ln (2 * PI * iv 0%nat k).
Proof.
  intros H K. pose proof PI_RGT_0. pose proof (i0_pos iv k H). unfold log_vonmises. rewrite (proj2 (Rltb_false _ _)) by lra.
  rewrite (ln_mult (iv 0%nat k)), ln_exp, (ln_mult (2 * PI)) by (try apply exp_pos; lra). ring.
Qed.
Lemma node_cos mu i : cos (pymod (mu + env_node i) (2 * PI) - mu) = cos (env_node i).
Proof.
  pose proof PI_RGT_0. unfold pymod. replace (mu + env_node i - 2 * PI * IZR (Rfloor ((mu + env_node i) / (2 * PI))) - mu) with (env_node i + 2 * PI * IZR (- Rfloor ((mu + env_node i) / (2 * PI)))) by (rewrite opp_IZR; ring).
  apply cos_turns.
Qed.
Lemma grid_in pdf mu i : (i < Z.to_nat 2048)%nat -> In (pymod (mu + env_node i) (2 * PI), ln (Rmax (pdf (pymod (mu + env_node i) (2 * PI))) ftiny)) (env_grid pdf mu).
Proof. intros H. unfold env_grid. apply in_map_iff. exists i. split; [reflexivity|]. apply in_seq. lia. Qed.
Lemma ratio_ge iv pdf mu k i : is_iv iv -> / 10 ^ 6 <= k -> (i < Z.to_nat 2048)%nat ->
  ln (Rmax (pdf (pymod (mu + env_node i) (2 * PI))) ftiny) - (k * cos (env_node i) - ln (2 * PI * iv 0%nat k)) <= env_ratio iv (env_grid pdf mu) mu k.
Proof.
  intros H K Hi. apply npmax_ge. apply in_map_iff. exists (pymod (mu + env_node i) (2 * PI), ln (Rmax (pdf (pymod (mu + env_node i) (2 * PI))) ftiny)). split; [|apply grid_in, Hi].
  cbn [fst snd]. rewrite lvm_val, node_cos by assumption. reflexivity.
Qed.
Lemma ratio_le iv pdf mu k b : is_iv iv -> / 10 ^ 6 <= k ->
  (forall i, (i < Z.to_nat 2048)%nat -> ln (Rmax (pdf (pymod (mu + env_node i) (2 * PI))) ftiny) - (k * cos (env_node i) - ln (2 * PI * iv 0%nat k)) <= b) ->
  env_ratio iv (env_grid pdf mu) mu k <= b.
Proof.
  intros H K Hb. apply npmax_le.
  - assert (N : (0 < Z.to_nat 2048)%nat) by lia. unfold env_grid. destruct (Z.to_nat 2048) as [|n]; [lia|discriminate].
  - intros x Hx. apply in_map_iff in Hx. destruct Hx as (p & <- & Hp). unfold env_grid in Hp. apply in_map_iff in Hp. destruct Hp as (i & <- & Hi). apply in_seq in Hi. cbn [fst snd].
    rewrite lvm_val, node_cos by assumption. apply Hb. lia.
Qed.
(** If the log-ratio at t exceeds that at some node by at most ln 1.02, the envelope is above the target at t. *)
Lemma dominate iv pdf mu K M m t i : is_iv iv -> / 10 ^ 6 <= K -> (forall x, 0 < pdf x) -> m = env_ratio iv (env_grid pdf mu) mu K -> M = Rmax (exp (m + ln (1 + 2 / 100))) (101 / 100) ->
  (i < Z.to_nat 2048)%nat ->
  ln (pdf t) - K * cos (t - mu) <= ln (pdf (pymod (mu + env_node i) (2 * PI))) - K * cos (env_node i) + ln (1 + 2 / 100) ->
  pdf t <= M * von_pdf iv mu K t.
Proof.
  intros H K0 Hp Hm HM Hi L. pose proof PI_RGT_0 as P. pose proof (i0_pos iv K H) as I0. pose proof (ratio_ge iv pdf mu K i H K0 Hi) as G.
  pose proof (Hp (pymod (mu + env_node i) (2 * PI))) as Q. set (f := pdf (pymod (mu + env_node i) (2 * PI))) in *.
  assert (G2 : ln f <= ln (Rmax f ftiny)).
  { destruct (Rmax_l f ftiny) as [A|A]; [apply Rlt_le, ln_increasing; assumption|rewrite <- A; lra]. }
  rewrite <- Hm in G. assert (B : ln (pdf t) <= m + ln (1 + 2 / 100) + (K * cos (t - mu) - ln (2 * PI * iv 0%nat K))) by lra.
  assert (E : von_pdf iv mu K t = exp (K * cos (t - mu) - ln (2 * PI * iv 0%nat K))).
  { unfold von_pdf, Rminus. rewrite exp_plus, exp_Ropp, exp_ln by nra. reflexivity. }
  rewrite E. rewrite <- (exp_ln (pdf t)) by apply Hp. apply Rle_trans with (exp (m + ln (1 + 2 / 100)) * exp (K * cos (t - mu) - ln (2 * PI * iv 0%nat K))).
  - rewrite <- exp_plus. apply expm_le. exact B.
  - apply Rmult_le_compat_r; [apply Rlt_le, exp_pos|]. rewrite HM. apply Rmax_l.
Qed.

(** ** The loop *)
Lemma env_accept_spec iv pdf mu K M p : is_iv iv -> 0 < M -> env_accept iv pdf mu K M p = true <-> snd p * (M * von_pdf iv mu K (fst p)) <= pdf (fst p).
Proof.
  intros H HM. pose proof PI_RGT_0. pose proof (i0_pos iv K H). assert (G : 0 < von_pdf iv mu K (fst p)).
  { unfold von_pdf. apply Rmult_lt_0_compat; [apply exp_pos|apply Rinv_0_lt_compat; nra]. }
  unfold env_accept. cbv zeta. rewrite (proj2 (Rltb_true _ _) G), Rleb_true. assert (MG : 0 < M * von_pdf iv mu K (fst p)) by nra. split; intros A.
  - apply Rmult_le_compat_r with (r := M * von_pdf iv mu K (fst p)) in A; [|lra]. unfold Rdiv in A. rewrite Rmult_assoc, Rinv_l in A by lra. lra.
  - apply Rmult_le_reg_r with (M * von_pdf iv mu K (fst p)); [exact MG|]. unfold Rdiv. rewrite Rmult_assoc, Rinv_l by lra. lra.
Qed.
Lemma filter_length_le {A} (f : A -> bool) l : (length (filter f l) <= length l)%nat.
Proof. induction l as [|x l IH]; simpl; [lia|]. destruct (f x); simpl; lia. Qed.
Lemma env_loop_spec acc batches : forall n l, env_loop acc batches n = Some l ->
  length l = n /\ l = firstn n (map fst (filter acc (concat batches))).
Proof.
  induction batches as [|b bs IH]; intros [|n] l H; simpl in H; try discriminate H; try (injection H as <-; split; reflexivity).
  destruct (Nat.eqb (length b) (S n)) eqn:E; [|discriminate H]. apply Nat.eqb_eq in E. cbv zeta in H.
  destruct (env_loop acc bs (S n - length (map fst (filter acc b)))) as [l'|] eqn:E2; simpl in E2; rewrite E2 in H; [|discriminate H]. injection H as <-.
  destruct (IH _ _ E2) as [L1 L2]. pose proof (filter_length_le acc b) as F. rewrite map_length in *. rewrite E in F. split.
  - rewrite app_length, map_length, L1. destruct (length (filter acc b)); simpl in *; lia.
  - simpl concat. rewrite filter_app, map_app, firstn_app, firstn_all2, map_length by (rewrite map_length; lia). f_equal. rewrite L2 at 1. f_equal.
Qed.
