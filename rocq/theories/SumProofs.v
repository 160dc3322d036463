From Coq Require Import String List.
From Verif Require Import Prelude NpModel NpProofs UtilsModel UtilsProofs CircleSpec IntSpec VonSpec VonProofs ClusModel RegModel RegSpec RegClSpec RegSeSpec RegProofs Reg3Proofs Reg4Proofs
  Reg9Proofs Reg10Proofs Reg11Proofs Reg12Proofs Reg13Proofs Reg14Proofs Reg15Proofs Reg16Proofs Reg17Proofs Reg18Proofs Reg19Proofs Reg20Proofs RegClEx RegSeEx RegClProps SumModel SumSpec.
Import ListNotations.
Open Scope R_scope.
Open Scope list_scope.

(** * The p-value of a row *)
Lemma two_sided Phi t : symmetric_cdf Phi -> let p := 2 * (1 - Phi (Rabs t)) in p = 2 * Phi (- Rabs t) /\ 0 < p <= 1 /\ (p = 1 <-> t = 0).
Proof.
  intros (B & M & S) p. pose proof (S (Rabs t)) as S1. assert (H0 : Phi 0 = 1 / 2). { pose proof (S 0) as S0. rewrite Ropp_0 in S0. lra. }
  unfold p. split; [lra|]. pose proof (B (Rabs t)). destruct (Req_dec t 0) as [->|N].
  - rewrite Rabs_R0, H0. split; [lra|]. split; [auto|intros; lra].
  - pose proof (Rabs_pos_lt t N) as P. pose proof (M _ _ P). rewrite H0 in *. split; [lra|]. split; intros; [lra|contradiction].
Qed.
Lemma two_sided_order Phi t u : symmetric_cdf Phi -> (2 * (1 - Phi (Rabs t)) < 2 * (1 - Phi (Rabs u)) <-> Rabs u < Rabs t).
Proof.
  intros (B & M & _). split; intros H.
  - destruct (Rlt_le_dec (Rabs u) (Rabs t)) as [|[Q|Q]]; auto; [pose proof (M _ _ Q); lra|rewrite Q in H; lra].
  - pose proof (M _ _ H). lra.
Qed.
Lemma abs_ratio b s : 0 < s -> Rabs (b / s) = Rabs b / s.
Proof. intros H. unfold Rdiv. rewrite Rabs_mult, (Rabs_right (/ s)); [reflexivity|]. apply Rle_ge, Rlt_le, Rinv_0_lt_compat, H. Qed.
Lemma ratio_pos b s : 0 < s -> ratio b (Fin s) = Fin (b / s).
Proof. intros H. unfold ratio. destruct (Reqb_spec s 0); [lra|reflexivity]. Qed.
Lemma quot0 b s : 0 < s -> (b / s = 0 <-> b = 0).
Proof. intros H. split; intros E; [|subst; field; lra]. replace b with (b / s * s) by (field; lra). rewrite E. ring. Qed.
Lemma beta_row_wald Phi b s : symmetric_cdf Phi -> 0 < s -> wald_row Phi false b s (beta_row Phi b (Fin s)).
Proof.
  intros HP Hs. unfold wald_row, beta_row. rewrite (ratio_pos b s Hs). cbn [flabs tail_p mark r_est r_se r_t r_p r_mark].
  split; [reflexivity|]. split; [reflexivity|]. split; [now rewrite abs_ratio|]. rewrite Rabs_Rabsolu.
  destruct (two_sided Phi (b / s) HP) as (A & B & C). eexists. split; [reflexivity|]. rewrite <- abs_ratio by auto. split; [exact A|]. split; [exact B|].
  split; [rewrite <- (quot0 b s Hs); exact C|reflexivity].
Qed.
Lemma conc_row_wald Phi b s : symmetric_cdf Phi -> 0 < s -> wald_row Phi true b s (conc_row Phi b (Fin s)).
Proof.
  intros HP Hs. unfold wald_row, conc_row. rewrite (ratio_pos b s Hs). cbn [tail_p mark r_est r_se r_t r_p r_mark].
  split; [reflexivity|]. split; [reflexivity|]. split; [reflexivity|].
  destruct (two_sided Phi (b / s) HP) as (A & B & C). eexists. split; [reflexivity|]. rewrite <- abs_ratio by auto. split; [exact A|]. split; [exact B|].
  split; [rewrite <- (quot0 b s Hs); exact C|reflexivity].
Qed.
Lemma table_map2 (P : R -> R -> coef_row -> Prop) (row : R -> fl -> coef_row) : (forall b s, 0 < s -> P b s (row b (Fin s))) ->
  forall ests ses, List.length ses = List.length ests -> Forall (fun x => exists v, 0 < v /\ x = Fin v) ses -> table P ests ses (map2 row ests ses).
Proof.
  intros H. induction ests as [|b ests IH]; intros [|s ses] L F; try discriminate.
  - split; [reflexivity|]. split; [reflexivity|]. intros i Hi. cbn in Hi. lia.
  - inversion F as [|? ? (v & Hv & ->) F']; subst. destruct (IH ses ltac:(cbn in L; lia) F') as (A & B & C). unfold map2 in *. cbn [combine map List.length fst snd] in *.
    split; [cbn [List.length]; lia|]. split; [cbn [List.length]; lia|]. cbn [List.length]. intros [|i] Hi.
    + exists v, (row b (Fin v)). cbn. auto.
    + destruct (C i ltac:(lia)) as (s & r & Q). exists s, r. exact Q.
Qed.
Lemma cl_tables Phi iv solve pinv inv theta p rows mt b0 a0 g0 tol it c f : symmetric_cdf Phi -> is_iv iv -> right_solve solve -> right_inv inv -> cc_data theta p rows ->
  cl_run iv solve pinv theta p rows mt b0 a0 g0 tol it = Ok c -> cl_fit c = Fitted f -> f_kappa f <> One 0 ->
  let s := standard_errors (iv 0%nat) (iv 1%nat) inv pinv (cl_mt c) p (cl_obs c) f in
  match beta_table Phi (cl_mt c) f s with
  | None => mt = "kappa"%string
  | Some rows => mt <> "kappa"%string /\ exists l, se_beta s = Some l /\ table (wald_row Phi false) (p_beta (f_par f)) l rows /\ List.length rows = p
  end /\
  match conc_table Phi (cl_mt c) f s with
  | None => mt = "mean"%string
  | Some rows => mt <> "mean"%string /\ exists a l, se_ag s = Some (a, l) /\ table (wald_row Phi true) (p_alpha (f_par f) :: p_gamma (f_par f)) (a :: l) rows /\ List.length rows = S p
  end.
Proof.
  intros HP Hi Hs Hv D E F K s. destruct (fit_sized _ _ _ _ _ _ _ _ _ _ _ _ _ _ Hi Hs D E F) as [L1 L2].
  destruct (cl_ses_full iv solve pinv inv theta p rows mt b0 a0 g0 tol it c f Hi Hs Hv D E F K) as (A & B & _ & _ & _ & C1 & C2). fold s in A, B, C1, C2.
  assert (M : type_of mt = Some (cl_mt c)) by exact (proj1 (cl_run_inv _ _ _ _ _ _ _ _ _ _ _ _ _ D E)).
  assert (T : cl_mt c = Mean /\ mt = "mean"%string \/ cl_mt c = Kappa /\ mt = "kappa"%string \/ cl_mt c = Mixed /\ mt = "mixed"%string).
  { unfold type_of in M. destruct (String.eqb_spec mt "mean"); [left; split; congruence|]. destruct (String.eqb_spec mt "kappa"); [right; left; split; congruence|].
    destruct (String.eqb_spec mt "mixed"); [right; right; split; congruence|discriminate]. }
  unfold beta_table, conc_table.
  assert (TB : forall l, se_beta s = Some l -> table (wald_row Phi false) (p_beta (f_par f)) l (map2 (beta_row Phi) (p_beta (f_par f)) l) /\ List.length (map2 (beta_row Phi) (p_beta (f_par f)) l) = p).
  { intros l El. rewrite El in A. destruct A as [A1 A2]. assert (Q : table (wald_row Phi false) (p_beta (f_par f)) l (map2 (beta_row Phi) (p_beta (f_par f)) l)).
    { apply table_map2; [intros; now apply beta_row_wald|congruence|exact A2]. }
    split; [exact Q|]. destruct Q as [Q _]. congruence. }
  assert (TC : forall a l, se_ag s = Some (a, l) -> table (wald_row Phi true) (p_alpha (f_par f) :: p_gamma (f_par f)) (a :: l) (conc_row Phi (p_alpha (f_par f)) a :: map2 (conc_row Phi) (p_gamma (f_par f)) l) /\
      List.length (conc_row Phi (p_alpha (f_par f)) a :: map2 (conc_row Phi) (p_gamma (f_par f)) l) = S p).
  { intros a l El. rewrite El in B. destruct B as (B0 & B1 & B2).
    assert (Q : table (wald_row Phi true) (p_alpha (f_par f) :: p_gamma (f_par f)) (a :: l) (map2 (conc_row Phi) (p_alpha (f_par f) :: p_gamma (f_par f)) (a :: l))).
    { apply table_map2; [intros; now apply conc_row_wald|cbn; congruence|constructor; auto]. }
    split; [exact Q|]. destruct Q as [Q _]. cbn [List.length] in Q. rewrite L2 in Q. exact Q. }
  destruct T as [[-> Em]|[[-> Em]|[-> Em]]]; split.
  - destruct (se_beta s) as [l|] eqn:El; [|exfalso; pose proof (proj1 C1 eq_refl); congruence]. split; [congruence|]. exists l. split; [reflexivity|]. apply TB; auto.
  - exact Em.
  - exact Em.
  - destruct (se_ag s) as [[a l]|] eqn:El; [|exfalso; pose proof (proj1 C2 eq_refl); congruence]. split; [congruence|]. exists a, l. split; [reflexivity|]. apply TC; auto.
  - destruct (se_beta s) as [l|] eqn:El; [|exfalso; pose proof (proj1 C1 eq_refl); congruence]. split; [congruence|]. exists l. split; [reflexivity|]. apply TB; auto.
  - destruct (se_ag s) as [[a l]|] eqn:El; [|exfalso; pose proof (proj1 C2 eq_refl); congruence]. split; [congruence|]. exists a, l. split; [reflexivity|]. apply TC; auto.
Qed.
