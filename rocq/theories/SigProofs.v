(** TestResult.significance. *)
From Verif Require Import Prelude UtilsModel UtilsSpec UtilsProofs SigModel.
From Coq Require Import String.
Open Scope R_scope.

Lemma significance_none r a : significance r a = None <-> r a = None \/ r a = Some ANone \/ r a = Some (AVal None).
Proof.
  unfold significance. destruct (r a) as [[|[p|]]|]; split; intros H; auto; try discriminate.
  destruct H as [H|[H|H]]; discriminate.
Qed.
Lemma significance_stars r a p : r a = Some (AVal (Some (Fin p))) ->
  (significance r a = Some "***"%string <-> p < 1/1000) /\ (significance r a = Some "**"%string <-> 1/1000 <= p < 1/100) /\
  (significance r a = Some "*"%string <-> 1/100 <= p < 5/100) /\ (significance r a = Some "."%string <-> 5/100 <= p < 1/10) /\
  (significance r a = Some ""%string <-> 1/10 <= p).
Proof.
  intros E. unfold significance. rewrite E. cbn [code_fl]. destruct (significance_thresholds p) as (A & B & C & D & F).
  assert (S : forall s t : string, Some s = Some t <-> s = t) by (intros; split; congruence).
  rewrite !S. auto.
Qed.
Lemma significance_order r s a b p q c d : r a = Some (AVal (Some (Fin p))) -> s b = Some (AVal (Some (Fin q))) -> p <= q ->
  significance r a = Some c -> significance s b = Some d -> (mark_rank d <= mark_rank c)%nat.
Proof.
  unfold significance. intros -> -> L. cbn [code_fl]. intros Hc Hd.
  assert (c = significance_code p) by congruence. assert (d = significance_code q) by congruence. subst. apply significance_antitone, L.
Qed.
Lemma significance_nan : exists r s, r "pval"%string = Some (AVal (Some NaN)) /\ s "pval"%string = Some (AVal (Some (Fin (1/2)))) /\
  significance r "pval" = Some ""%string /\ significance s "pval" = significance r "pval".
Proof.
  exists (fun _ => Some (AVal (Some NaN))), (fun _ => Some (AVal (Some (Fin (1/2))))). repeat split.
  unfold significance; cbn [code_fl]. f_equal. apply significance_thresholds. lra.
Qed.
