(** wrapnorm: the sums over turns and the cosine series describe the same distribution. *)
From Verif Require Import Prelude NpModel NpProofs UtilsModel UtilsProofs DescModel DescProofs CircleSpec IntSpec IntProofs DistModel DistSpec DistProofs Dist2Proofs Dist4Proofs Dist5Proofs
  Dist6Proofs Dist7Proofs Dist8Proofs KjProofs Kj2Proofs Kj6Proofs Kj7Proofs Von2Proofs Von3Proofs Von6Proofs WnModel WnSpec WnProofs FourierProofs GaussProofs.

(** ** The normal distribution function *)
Definition nphi (z : R) : R := / sqrt (2 * PI) * gz z.
Lemma c2pi : 1 < sqrt (2 * PI).
Proof. pose proof PI_gt3. rewrite <- sqrt_1 at 1. apply sqrt_lt_1; lra. Qed.
Lemma nphi_pos z : 0 < nphi z.
Proof. pose proof c2pi. apply Rmult_lt_0_compat; [apply Rinv_0_lt_compat; lra|apply gz_pos]. Qed.
Lemma nphi_cont z : continuity_pt nphi z.
Proof. apply cont_mult; [apply cont_const|apply gz_cont]. Qed.
Lemma nd_d Phi z : is_ndtr Phi -> derivable_pt_lim Phi z (nphi z).
Proof. intros [D _]. exact (D z). Qed.
Lemma nd_mono Phi : is_ndtr Phi -> mono Phi.
Proof.
  intros H x y Hxy. apply (mono_of_dlim Phi nphi x y); try lra; [intros; apply nd_d, H|intros; apply Rlt_le, nphi_pos].
Qed.
Lemma nd_range Phi z : is_ndtr Phi -> 0 <= Phi z <= 1.
Proof.
  intros H. pose proof (nd_mono Phi H) as M. destruct H as [_ L]. split; apply Rnot_lt_le; intros B.
  - destruct (L (- Phi z) ltac:(lra)) as [m Hm]. pose proof (Hm (Rmax m (- z)) (Rmax_l _ _)) as [_ Q]. apply Rabs_def2 in Q.
    pose proof (Rmax_r m (- z)) as R1. pose proof (M (- Rmax m (- z)) z ltac:(lra)). lra.
  - destruct (L (Phi z - 1) ltac:(lra)) as [m Hm]. pose proof (Hm (Rmax m z) (Rmax_l _ _)) as [Q _]. apply Rabs_def2 in Q.
    pose proof (M z (Rmax m z) (Rmax_r _ _)). lra.
Qed.

(** ** Sums over turns *)
Definition wU (Phi : R -> R) (m sg s : R) : R := Phi ((s - m) * (1 / sg)).
Definition wu (m sg s : R) : R := nphi ((s - m) * (1 / sg)) * (1 / sg).
Fixpoint wF (Phi : R -> R) (m sg : R) (N : nat) (x : R) : R :=
  match N with
  | O => wn_delta Phi m sg x 0
  | S n => wF Phi m sg n x + (wn_delta Phi m sg x (2 * PI * INR N) + wn_delta Phi m sg x (- (2 * PI * INR N)))
  end.
Fixpoint wf (m sg : R) (N : nat) (x : R) : R :=
  match N with
  | O => wu m sg x
  | S n => wf m sg n x + (wu m sg (x + 2 * PI * INR N) + wu m sg (x - 2 * PI * INR N))
  end.
Lemma wdelta_U Phi m sg x s : wn_delta Phi m sg x s = wU Phi m sg (x + s) - wU Phi m sg s.
Proof. unfold wn_delta, wU. f_equal; f_equal; f_equal; ring. Qed.

Lemma wU_d Phi m sg s : is_ndtr Phi -> derivable_pt_lim (wU Phi m sg) s (wu m sg s).
Proof.
  intros H. unfold wU, wu. eapply dlim_eq; [|apply (dlim_comp Phi (fun s => (s - m) * (1 / sg))); [|apply nd_d, H]]; [reflexivity|].
  eapply dlim_eq; [|apply (dlim_mult (fun s => s - m)); [apply dlim_affine_c|apply dlim_const]]. cbv beta. ring.
Qed.
Lemma wu_cont m sg s : continuity_pt (wu m sg) s.
Proof.
  unfold wu. apply cont_mult; [|apply cont_const]. apply (continuity_pt_comp (fun s => (s - m) * (1 / sg)) nphi); [|apply nphi_cont].
  eapply dlim_cont. apply dlim_mult; [apply dlim_affine_c|apply dlim_const].
Qed.
Lemma wU_mono Phi m sg : is_ndtr Phi -> 0 < sg -> mono (wU Phi m sg).
Proof. intros H Hs x y Hxy. unfold wU. apply (nd_mono Phi); [exact H|]. apply Rmult_le_compat_r; [apply Rlt_le, Rdiv_lt_0_compat; lra|lra]. Qed.
Lemma wU_range Phi m sg s : is_ndtr Phi -> 0 <= wU Phi m sg s <= 1.
Proof. intros H. unfold wU. apply (nd_range Phi), H. Qed.
Lemma wU_lim Phi m sg e : is_ndtr Phi -> 0 < sg -> 0 < e -> exists M, 0 < M /\ forall s, M <= s -> 1 - e < wU Phi m sg s /\ wU Phi m sg (- s) < e.
Proof.
  intros [_ L] Hs He. destruct (L e He) as [M HM]. exists (sg * (Rabs M + 1) + Rabs m + 1).
  pose proof (Rabs_pos M). pose proof (Rabs_pos m). pose proof (Rle_abs M). pose proof (Rle_abs m). pose proof (Rle_abs (- m)) as Q. rewrite Rabs_Ropp in Q.
  split; [nra|]. intros s Hs'. assert (I : 0 < 1 / sg) by (apply Rdiv_lt_0_compat; lra). assert (E : sg * (1 / sg) = 1) by (field; lra).
  unfold wU. split.
  - destruct (HM ((s - m) * (1 / sg))) as [A _]; [|apply Rabs_def2 in A; lra]. apply Rle_trans with (sg * (Rabs M + 1) * (1 / sg)); [|apply Rmult_le_compat_r; lra].
    replace (sg * (Rabs M + 1) * (1 / sg)) with (Rabs M + 1) by (field; lra). lra.
  - replace ((- s - m) * (1 / sg)) with (- ((s + m) * (1 / sg))) by ring.
    destruct (HM ((s + m) * (1 / sg))) as [_ A]; [|apply Rabs_def2 in A; lra]. apply Rle_trans with (sg * (Rabs M + 1) * (1 / sg)); [|apply Rmult_le_compat_r; lra].
    replace (sg * (Rabs M + 1) * (1 / sg)) with (Rabs M + 1) by (field; lra). lra.
Qed.
Lemma wF_d Phi m sg N x : is_ndtr Phi -> derivable_pt_lim (wF Phi m sg N) x (wf m sg N x).
Proof.
  intros H. assert (D : forall s, derivable_pt_lim (fun x => wn_delta Phi m sg x s) x (wu m sg (x + s))).
  { intros s. apply (dlim_ext (fun x => wU Phi m sg (x + s) - wU Phi m sg s)); [intros; symmetry; apply wdelta_U|].
    eapply dlim_eq; [|apply dlim_minus; [apply (dlim_comp (wU Phi m sg) (fun x => x + s)); [apply dlim_plus; [apply dlim_id|apply dlim_const]|apply wU_d, H]|apply dlim_const]]. ring. }
  induction N as [|N IH].
  - cbn [wF wf]. replace (wu m sg x) with (wu m sg (x + 0)) by (f_equal; ring). apply D.
  - cbn [wF wf]. apply dlim_plus; [exact IH|]. apply dlim_plus; apply D.
Qed.
Lemma wf_cont m sg N x : continuity_pt (wf m sg N) x.
Proof.
  assert (C : forall s, continuity_pt (fun x => wu m sg (x + s)) x).
  { intros s. apply (continuity_pt_comp (fun x => x + s) (wu m sg)); [|apply wu_cont]. eapply dlim_cont. apply dlim_plus; [apply dlim_id|apply dlim_const]. }
  induction N as [|N IH]; [apply wu_cont|]. cbn [wf]. apply cont_plus; [exact IH|]. apply cont_plus; [apply C|]. exact (C (- (2 * PI * INR (S N)))).
Qed.
Lemma wF_0 Phi m sg N : wF Phi m sg N 0 = 0.
Proof. induction N as [|N IH]; cbn [wF]; [apply wn_delta_0|]. rewrite IH, !wn_delta_0. ring. Qed.
(** One turn: telescoping. *)
Lemma wF_turn Phi m sg N x : wF Phi m sg N (x + 2 * PI) = wF Phi m sg N x + (wU Phi m sg (x + 2 * PI * INR (S N)) - wU Phi m sg (x - 2 * PI * INR N)).
Proof.
  induction N as [|N IH].
  - cbn [wF]. rewrite !wdelta_U. cbn [INR]. replace (x + 2 * PI + 0) with (x + 2 * PI * 1) by ring. replace (x - 2 * PI * 0) with (x + 0) by ring. ring.
  - change (wF Phi m sg (S N) (x + 2 * PI)) with (wF Phi m sg N (x + 2 * PI) + (wn_delta Phi m sg (x + 2 * PI) (2 * PI * INR (S N)) + wn_delta Phi m sg (x + 2 * PI) (- (2 * PI * INR (S N))))).
    change (wF Phi m sg (S N) x) with (wF Phi m sg N x + (wn_delta Phi m sg x (2 * PI * INR (S N)) + wn_delta Phi m sg x (- (2 * PI * INR (S N))))).
    rewrite IH, !wdelta_U. rewrite (S_INR (S N)), (S_INR N).
    replace (x + 2 * PI + 2 * PI * (INR N + 1)) with (x + 2 * PI * (INR N + 1 + 1)) by ring.
    replace (x + 2 * PI + - (2 * PI * (INR N + 1))) with (x - 2 * PI * INR N) by ring.
    replace (x + - (2 * PI * (INR N + 1))) with (x - 2 * PI * (INR N + 1)) by ring. ring.
Qed.
Lemma wF_incr Phi m sg N x y : is_ndtr Phi -> 0 < sg -> x <= y -> wF Phi m sg N x <= wF Phi m sg N y.
Proof.
  intros H Hs Hxy. pose proof (nd_mono Phi H) as M. induction N as [|N IH]; cbn [wF]; [apply wn_delta_mono; assumption|].
  pose proof (wn_delta_mono Phi m sg x y (2 * PI * INR (S N)) M Hs Hxy). pose proof (wn_delta_mono Phi m sg x y (- (2 * PI * INR (S N))) M Hs Hxy). lra.
Qed.
(** The increment from N to M terms is monotone in x and non-negative for x >= 0. *)
Lemma wF_diff_incr Phi m sg N k x y : is_ndtr Phi -> 0 < sg -> x <= y ->
  wF Phi m sg (k + N) x - wF Phi m sg N x <= wF Phi m sg (k + N) y - wF Phi m sg N y.
Proof.
  intros H Hs Hxy. pose proof (nd_mono Phi H) as M. induction k as [|k IH]; cbn [Nat.add]; [lra|]. cbn [wF].
  pose proof (wn_delta_mono Phi m sg x y (2 * PI * INR (S (k + N))) M Hs Hxy). pose proof (wn_delta_mono Phi m sg x y (- (2 * PI * INR (S (k + N)))) M Hs Hxy). lra.
Qed.
Lemma wF_more Phi m sg N M x : is_ndtr Phi -> 0 < sg -> (N <= M)%nat -> 0 <= x -> wF Phi m sg N x <= wF Phi m sg M x.
Proof.
  intros H Hs L Hx. pose proof (wF_diff_incr Phi m sg N (M - N) 0 x H Hs Hx) as B. replace (M - N + N)%nat with M in B by lia. rewrite !wF_0 in B. lra.
Qed.
(** How far F_N (2 pi J) is from J turns. *)
Lemma wF_turns_le Phi m sg N J : is_ndtr Phi -> wF Phi m sg N (2 * PI * INR J) <= INR J.
Proof.
  intros H. induction J as [|J IH]; [cbn [INR]; rewrite Rmult_0_r, wF_0; lra|]. rewrite S_INR. replace (2 * PI * (INR J + 1)) with (2 * PI * INR J + 2 * PI) by ring. rewrite wF_turn.
  pose proof (wU_range Phi m sg (2 * PI * INR J + 2 * PI * INR (S N)) H). pose proof (wU_range Phi m sg (2 * PI * INR J - 2 * PI * INR N) H). lra.
Qed.
Lemma wF_turns_lim Phi m sg J e : is_ndtr Phi -> 0 < sg -> 0 < e -> exists N0, forall N, (N0 <= N)%nat -> INR J - e < wF Phi m sg N (2 * PI * INR J).
Proof.
  intros H Hs. revert e. induction J as [|J IH]; intros e He.
  - exists O. intros N _. cbn [INR]. rewrite Rmult_0_r, wF_0. lra.
  - destruct (IH (e / 2) ltac:(lra)) as [N1 H1]. destruct (wU_lim Phi m sg (e / 4) H Hs ltac:(lra)) as (M & HM & L). pose proof PI_gt3.
    destruct (INR_unbounded (M + INR J)) as [N2 H2]. exists (N1 + N2)%nat. intros N HN. specialize (H1 N ltac:(lia)).
    assert (B : M + INR J < INR N) by (eapply Rlt_le_trans; [exact H2|apply le_INR; lia]). pose proof (pos_INR J). pose proof (pos_INR N).
    rewrite S_INR. replace (2 * PI * (INR J + 1)) with (2 * PI * INR J + 2 * PI) by ring. rewrite wF_turn, S_INR.
    destruct (L (2 * PI * INR J + 2 * PI * (INR N + 1)) ltac:(nra)) as [A1 _]. destruct (L (2 * PI * INR N - 2 * PI * INR J) ltac:(nra)) as [_ A2].
    replace (- (2 * PI * INR N - 2 * PI * INR J)) with (2 * PI * INR J - 2 * PI * INR N) in A2 by ring. lra.
Qed.
