(** Example data for the mixture densities and the constructors. *)
From Verif Require Import Prelude NpModel NpProofs CircleSpec UtilsModel DescModel CorrModel ClusModel IntSpec IntProofs DistModel DistSpec VonModel VonSpec VonProofs Von4Proofs
  DescProofs HypMulti2Model EmModel EmSpec EmProofs Em2Proofs Em3Proofs Em4Proofs Em8Proofs Em9Proofs Em11Proofs EmEx MxModel MxSpec MxProofs Mx2Proofs.
From Coq Require Import String.
Import ListNotations.
Open Scope R_scope.
Open Scope list_scope.

Lemma i0_exists : exists I0, is_i0 I0.
Proof.
  destruct iv_exists as [iv H]. exists (iv 0%nat). intros k. pose proof PI_RGT_0. specialize (H 0%nat k). revert H. apply integral_ext; [lra|].
  intros x _. cbn [INR]. rewrite Rmult_0_l, cos_0. ring.
Qed.
Definition ex_args : em_args := {| a_burnin := 0; a_K := 1; a_iters := 1; a_threshold := / 10 ^ 16; a_unit := "radian"; a_cycle := 360 |}.
Lemma ex_args_sensible : sensible (a_burnin ex_args) (a_K ex_args) (a_iters ex_args) (a_threshold ex_args) (a_unit ex_args).
Proof. unfold sensible. cbn [ex_args a_burnin a_K a_iters a_threshold a_unit]. repeat split; try lia; try lra. now right. Qed.
Definition ex_wrapnorm : dist_arg := {| d_circular := true; d_name := "wrapnorm"; d_shapes := ["mu"; "rho"]%string; d_weights := true |}.
Lemma ex_init : mocd_init ex_wrapnorm None (FStr "auto") None ex_args =
  Ok {| o_cfg := cfg_cd true; o_names := ["mu"; "rho"]%string; o_methods := [Some "moments"; Some "mle"]%string |}.
Proof.
  destruct (mocd_init_spec ex_wrapnorm None (FStr "auto") None ex_args) as [[H _]|[(_ & _ & _ & _ & _ & E)|(_ & H & _)]]; [discriminate|rewrite E; reflexivity|].
  exfalso. apply H. split; [exact ex_args_sensible|]. split; [cbn; auto|]. split; [reflexivity|discriminate].
Qed.
Lemma ex_balanced_nothing I0 : is_i0 I0 -> exists m, movm_fit I0 cfg1 (false, None) [[0; 0]%nat] [0; PI] = Ok m /\
  predicts_nothing (fun b k X => movm_predict_density I0 b k (Some m) (Some X)).
Proof.
  intros H. pose proof (is_i0_pos I0 H) as HI. destruct (ex_balanced I0 HI) as (m & E & _). exists m. split; [exact E|].
  assert (CL : Forall (fun l => List.length l = List.length [0; PI]) [[0; 0]%nat]) by repeat constructor.
  destruct (movm_mixture I0 cfg1 (false, None) [[0; 0]%nat] [0; PI] m H cfg1_ok CL E) as [[F _]|[_ P]]; [|exact P].
  exfalso. destruct (movm_fit_spec I0 cfg1 (false, None) [[0; 0]%nat] [0; PI] m HI cfg1_ok CL E) as (_ & _ & _ & _ & _ & _ & Lc & _).
  assert (Z1 : Rsum (map cos (labelled [0; PI] [0; 0]%nat 0)) = 0) by (cbn; rewrite cos_0, cos_PI; ring).
  assert (Z2 : Rsum (map sin (labelled [0; PI] [0; 0]%nat 0)) = 0) by (cbn; rewrite sin_0, sin_PI; ring).
  destruct (movm_balanced I0 cfg1 (false, None) [[0; 0]%nat] [0; PI] m [0; 0]%nat 0 HI cfg1_ok eq_refl eq_refl (le_n 1) Z1 Z2 E) as (_ & N & _).
  destruct (mx_cs m) as [|c cs]; [discriminate Lc|]. inversion F as [|? ? (mu & k & A & _) _]; subst. inversion N as [|? ? B _]; subst. unfold pars in B. congruence.
Qed.
Lemma ex_vm_dfit I0 : is_i0 I0 -> forall m a w c, vm_dfit m a w = Ok c -> log_of (vm_ld I0) (dens_of I0) c /\ pdf_is_density (vm_pdf I0 c).
Proof.
  intros HI m a w c H. split; [exact (vm_dfit_log I0 (is_i0_pos I0 HI) m a w c H)|].
  unfold vm_dfit in H. destruct w as [|w0 w]; [discriminate|]. injection H as <-.
  eapply (vm_pdf_density I0); [exact HI|reflexivity|reflexivity| |].
  - pose proof PI_RGT_0. unfold circ_mean_and_r.
    match goal with |- context [circ_mean_and_r_s ?s] => destruct (circ_mean_and_r_s_cases s) as [[_ ->]|[_ ->]] end; cbn [fst]; [lra|apply mean_dir_range].
  - eapply Rlt_le_trans; [|apply Rmax_r]. lra.
Qed.
