(** Concrete cases for the examples in UtilsProps. *)
From Verif Require Import Prelude NpModel NpProofs CircleSpec UtilsModel UtilsSpec UtilsProofs.

Lemma ex_angmod_neg : angmod (- PI / 2) [0; 2 * PI] = Ok (3 * PI / 2).
Proof.
  pose proof PI_pos. unfold angmod. destruct (Rleb_spec (2 * PI) 0); [lra|]. f_equal.
  change (angmod_val (- PI / 2) 0 (2 * PI)) with (angmod0 (- PI / 2)).
  apply angmod0_unique; [lra|]. exists 1%Z. simpl. lra.
Qed.
Lemma ex_angmod_bad : angmod 1 [2; 2] = Err ValueError /\ angmod 1 [0; 1; 2] = Err ValueError.
Proof. split; unfold angmod; [destruct (Rleb_spec 2 2); [reflexivity|lra]|reflexivity]. Qed.
Lemma ex_angmod_upper : angmod (3 * PI) [- PI; PI] = Ok (- PI).
Proof.
  pose proof PI_pos.
  destruct (angmod_rep_l (3 * PI) (- PI) PI) as (y & E & _ & U); [lra|].
  rewrite E. f_equal. symmetry. apply U. split; [lra|]. exists 2%Z. simpl. lra.
Qed.
Lemma ex_dist : angular_distance (PI / 6) (11 * PI / 6) = PI / 3.
Proof.
  pose proof PI_pos. apply (arc_dist_unique (PI / 6) (11 * PI / 6)); [apply angular_distance_arc|].
  split.
  - exists 1%Z. rewrite Rabs_right; simpl; lra.
  - intros k. replace (PI / 6 - 11 * PI / 6 + 2 * PI * IZR k) with (PI / 3 + 2 * PI * IZR (k - 1))
      by (rewrite minus_IZR; lra).
    eapply Rle_trans; [|apply turns_abs_lower; lra].
    unfold Rmin. destruct (Rle_dec (PI / 3) (2 * PI - PI / 3)); lra.
Qed.
Lemma ex_within_wrap :
  is_within_circular_range 0 (11 * PI / 6) (PI / 6) = true /\
  is_within_circular_range PI (11 * PI / 6) (PI / 6) = false.
Proof.
  pose proof PI_pos. unfold is_within_circular_range.
  rewrite !pymod_small by lra.
  destruct (Rleb_spec (11 * PI / 6) (PI / 6)); [lra|].
  destruct (Rleb_spec (11 * PI / 6) 0); [lra|].
  destruct (Rleb_spec 0 (PI / 6)); [|lra].
  destruct (Rleb_spec (11 * PI / 6) PI); [lra|].
  destruct (Rleb_spec PI (PI / 6)); [lra|]. split; reflexivity.
Qed.
Lemma ex_within_apart :
  ~ same_dir 0 (11 * PI / 6) /\ ~ same_dir 0 (PI / 6) /\ ~ same_dir (11 * PI / 6) (PI / 6).
Proof.
  pose proof PI_pos. rewrite !same_dir_pymod, !pymod_small by lra. repeat split; lra.
Qed.
Lemma ex_rotate : rotate_data [350; 10] 30 "degree" = Ok [20; 40].
Proof.
  assert (HK : cycle_of "degree" 360) by (left; auto).
  destruct (rotate_data_spec [350; 10] 30 "degree" 360 HK) as (o & E & F).
  rewrite E. f_equal. apply (Forall2_rep_unique 360 [350; 10] 30); [exact F|].
  constructor; [|constructor; [|constructor]].
  - split; [lra|exists 1%Z; simpl; lra].
  - split; [lra|exists 0%Z; simpl; lra].
Qed.
Lemma ex_rotate_bad : forall K, ~ cycle_of "week" K.
Proof. intros K [[H _]|[[H _]|[H _]]]; discriminate. Qed.
Lemma ex_sig : significance_code (2/100) = "*"%string.
Proof. apply (significance_thresholds (2/100)). lra. Qed.
