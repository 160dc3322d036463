(** C227: the stars of a test result. *)
From Verif Require Import Prelude UtilsModel UtilsSpec SigModel SigProofs.
From Coq Require Import String.
Open Scope R_scope.

(** No stars exactly when the attribute is absent, None or not a number. *)
Theorem C227_none : forall r a, significance r a = None <-> r a = None \/ r a = Some ANone \/ r a = Some (AVal None).
Proof. exact significance_none. Qed.
Print Assumptions C227_none.
Theorem C227_stars : forall r a p, r a = Some (AVal (Some (Fin p))) ->
  (significance r a = Some "***"%string <-> p < 1/1000) /\ (significance r a = Some "**"%string <-> 1/1000 <= p < 1/100) /\
  (significance r a = Some "*"%string <-> 1/100 <= p < 5/100) /\ (significance r a = Some "."%string <-> 5/100 <= p < 1/10) /\
  (significance r a = Some ""%string <-> 1/10 <= p).
Proof. exact significance_stars. Qed.
Print Assumptions C227_stars.
Theorem C227_order : forall r s a b p q c d, r a = Some (AVal (Some (Fin p))) -> s b = Some (AVal (Some (Fin q))) -> p <= q ->
  significance r a = Some c -> significance s b = Some d -> (mark_rank d <= mark_rank c)%nat.
Proof. exact significance_order. Qed.
Print Assumptions C227_order.
(** A p-value that could not be computed reads as not significant. *)
Theorem C227_nan_refuted : exists r s, r "pval"%string = Some (AVal (Some NaN)) /\ s "pval"%string = Some (AVal (Some (Fin (1/2)))) /\
  significance r "pval" = Some ""%string /\ significance s "pval" = significance r "pval".
Proof. exact significance_nan. Qed.
Print Assumptions C227_nan_refuted.
(** A RayleighTestResult with pval 0.02 and no bootstrap. *)
Example C227_example : exists r, r "pval"%string = Some (AVal (Some (Fin (2/100)))) /\ r "bootstrap_pval"%string = Some ANone /\
  significance r "pval" = Some "*"%string /\ significance r "bootstrap_pval" = None.
Proof.
  exists (fun s => if String.eqb s "pval" then Some (AVal (Some (Fin (2/100)))) else Some ANone). repeat split.
  apply (C227_stars _ "pval"%string (2/100)); [reflexivity|lra].
Qed.
