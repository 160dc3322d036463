(** Names of unnamed predictors, and predictions from a fit without coefficients. *)
From Verif Require Import Prelude NpModel NpProofs UtilsModel CircleSpec IntSpec VonSpec VonProofs RegModel RegSpec RegClSpec RegProofs Reg2Proofs Reg3Proofs Reg4Proofs Reg9Proofs Reg10Proofs Reg11Proofs.
From Coq Require Import String Ascii.

Lemma decimal_app : forall a b n, decimal n (a ++ b)%string = match decimal n a with Some m => decimal m b | None => None end.
Proof.
  induction a as [|c a IH]; intros b n; [reflexivity|]. cbn [append decimal]. cbv zeta. destruct (_ && _)%bool; [apply IH|reflexivity].
Qed.
Lemma decimal_digit n d : (d < 10)%nat -> decimal n (digit d) = Some (10 * n + d)%nat.
Proof. intros H. unfold digit. do 10 (destruct d as [|d]; [reflexivity|]). lia. Qed.
Lemma decimal_show : forall fuel n, (n < fuel)%nat -> decimal 0 (show_nat fuel n) = Some n.
Proof.
  induction fuel as [|k IH]; intros n H; [lia|]. cbn [show_nat]. destruct (Nat.ltb_spec n 10) as [L|L]; [rewrite decimal_digit by exact L; f_equal|].
  rewrite decimal_app, IH by (pose proof (Nat.div_lt n 10); lia). rewrite decimal_digit by (apply Nat.mod_upper_bound; lia). f_equal. symmetry. apply Nat.div_mod. lia.
Qed.
Lemma xname_number i : exists s, xname i = ("x" ++ s)%string /\ decimal 0 s = Some i.
Proof. exists (show_nat (S i) i). split; [reflexivity|]. apply decimal_show. lia. Qed.
Lemma cl_run_names iv solve pinv theta p rows mt b0 a0 g0 tol it c : cc_data theta p rows -> cl_run iv solve pinv theta p rows mt b0 a0 g0 tol it = Ok c ->
  List.length (cl_names c) = p /\ forall i, (i < p)%nat -> exists s, nth i (cl_names c) EmptyString = ("x" ++ s)%string /\ decimal 0 s = Some i.
Proof.
  intros D E. destruct (cl_run_inv _ _ _ _ _ _ _ _ _ _ _ _ _ D E) as (T & Hb & Hg & _). rewrite (cl_run_eval _ _ _ _ _ _ _ _ _ _ _ _ _ D T Hb Hg) in E.
  destruct (cl_loop _ _ _ _ _ _) as [f|]; [|discriminate]. cbn [bind] in E. assert (N : cl_names c = map xname (seq 0 p)) by (injection E as <-; reflexivity). rewrite N. split; [rewrite map_length; apply seq_length|].
  intros i Hi. rewrite (nth_indep _ EmptyString (xname 0)) by (rewrite map_length, seq_length; exact Hi). rewrite map_nth, seq_nth by exact Hi. apply xname_number.
Qed.
Lemma predict_nan c X : cl_fit c = NanFit -> cl_predict c X = Err ValueError.
Proof. intros E. unfold cl_predict. now rewrite E. Qed.
