(** Examples for the tabulated distributions: functions with the properties assumed of scipy exist. *)
From Verif Require Import Prelude NpModel NpProofs CircleSpec IntSpec IntProofs DistModel DistSpec DistProofs Dist2Proofs Dist4Proofs Dist5Proofs
  Dist6Proofs Dist7Proofs KjProofs Kj2Proofs VonModel VonSpec VonProofs Von2Proofs Von3Proofs Von4Proofs Von5Proofs Von6Proofs JpProofs Jp3Proofs
  FtModel FtSpec FtProofs Ft2Proofs Ft3Proofs Ft4Proofs IbModel IbProofs Ib2Proofs Ib3Proofs Ib4Proofs.

(** ** A root finder *)
Definition low_part (f : R -> R) (a b x : R) : Prop := x = a \/ (a <= x <= b /\ f x <= 0).
Lemma low_bound f a b : bound (low_part f a b).
Proof. exists (Rmax a b). intros x [->|[[_ H] _]]; [apply Rmax_l|]. eapply Rle_trans; [exact H|apply Rmax_r]. Qed.
Definition ex_root (f : R -> R) (a b : R) : R := proj1_sig (completeness (low_part f a b) (low_bound f a b) (ex_intro _ a (or_introl eq_refl))).
Lemma ex_root_ok : is_root ex_root.
Proof.
  intros f a b ab Cf [Fa Fb]. unfold ex_root. destruct (completeness _ _ _) as [s [U L]]. cbn [proj1_sig].
  assert (S1 : a <= s) by (apply U; left; reflexivity). assert (S2 : s <= b) by (apply L; intros x [->|[[_ H] _]]; lra). split; [lra|].
  destruct (Rtotal_order (f s) 0) as [N|[E|P]]; [|exact E|]; exfalso.
  - destruct (Cf s (- f s) ltac:(lra)) as (d & d0 & D). assert (sb : s < b) by (destruct (Req_dec s b) as [->|]; [lra|lra]).
    set (x := Rmin (s + d / 2) b). assert (X1 : s < x) by (unfold x, Rmin; destruct (Rle_dec _ _); lra). assert (X2 : x <= b /\ x <= s + d / 2) by (unfold x; split; [apply Rmin_r|apply Rmin_l]).
    assert (Fx : Rabs (f x - f s) < - f s). { apply (D x). split; [split; [exact I|lra]|]. cbn [dist R_met]. unfold R_dist. rewrite Rabs_pos_eq by lra. lra. }
    apply Rabs_def2 in Fx. assert (x <= s); [|lra]. apply U. right. split; [lra|]. lra.
  - destruct (Cf s (f s) ltac:(lra)) as (d & d0 & D). assert (as_ : a < s) by (destruct (Req_dec a s) as [E|]; [rewrite E in Fa; lra|lra]).
    assert (UB : is_upper_bound (low_part f a b) (Rmax a (s - d / 2))).
    { intros x Hx. destruct (Rle_lt_dec x (Rmax a (s - d / 2))) as [|G]; [assumption|]. exfalso. pose proof (Rmax_l a (s - d / 2)). pose proof (Rmax_r a (s - d / 2)).
      destruct Hx as [->|[Hx Fx]]; [lra|]. assert (x <= s) by (apply U; right; split; assumption). destruct (Req_dec x s) as [->|N]; [lra|].
      assert (Q : Rabs (f x - f s) < f s). { apply (D x). split; [split; [exact I|lra]|]. cbn [dist R_met]. unfold R_dist. rewrite Rabs_left by lra. lra. }
      apply Rabs_def2 in Q. lra. }
    pose proof (L _ UB) as Q. revert Q. unfold Rmax. destruct (Rle_dec _ _); lra.
Qed.

(** ** An interpolator: straight lines *)
Definition ex_pchip (N : nat) (xs ys : nat -> R) (x : R) : R :=
  ys 0%nat + Rsum (map (fun i => (ys (S i) - ys i) / (xs (S i) - xs i) * (clip x (xs i) (xs (S i)) - xs i)) (seq 0 N)).
Lemma clip_cont lo hi x : continuity_pt (fun t => clip t lo hi) x.
Proof.
  intros eps He. exists eps. split; [lra|]. intros y [[_ _] Hy]. cbn [dist R_met] in *. unfold R_dist in *. apply Rabs_def2 in Hy. unfold clip, Rmin, Rmax. apply Rabs_def1; repeat destruct (Rle_dec _ _); lra.
Qed.
Lemma Rsum_cont (g : nat -> R -> R) n x : (forall i, continuity_pt (g i) x) -> continuity_pt (fun t => Rsum (map (fun i => g i t) (seq 0 n))) x.
Proof.
  intros C. induction n as [|n IH]; [apply (cont_const 0)|]. apply (cont_ext (fun t => Rsum (map (fun i => g i t) (seq 0 n)) + g n t)); [intros t; rewrite sum_S; reflexivity|].
  apply cont_plus; [exact IH|apply C].
Qed.
Lemma ex_pchip_in N xs ys i x : (forall j, (j < N)%nat -> xs j < xs (S j)) -> (i < N)%nat -> xs i <= x <= xs (S i) ->
  ex_pchip N xs ys x = ys i + (ys (S i) - ys i) / (xs (S i) - xs i) * (x - xs i).
Proof.
  intros Hx Hi Hb. assert (Mono : forall j k, (j <= k <= N)%nat -> xs j <= xs k).
  { intros j k. induction k as [|k IH]; intros Hjk; [replace j with 0%nat by lia; lra|]. destruct (Nat.eq_dec j (S k)) as [->|]; [lra|]. pose proof (Hx k ltac:(lia)). specialize (IH ltac:(lia)). lra. }
  assert (A : forall M, (M <= i)%nat -> ys 0%nat + Rsum (map (fun j => (ys (S j) - ys j) / (xs (S j) - xs j) * (clip x (xs j) (xs (S j)) - xs j)) (seq 0 M)) = ys M).
  { induction M as [|M IH]; intros HM; [cbn; ring|]. rewrite sum_S, <- Rplus_assoc, IH by lia. pose proof (Hx M ltac:(lia)) as L. pose proof (Mono (S M) i ltac:(lia)).
    unfold clip. rewrite Rmax_left, Rmin_right by lra. field. lra. }
  assert (B : forall M, (S i <= M <= N)%nat -> ys 0%nat + Rsum (map (fun j => (ys (S j) - ys j) / (xs (S j) - xs j) * (clip x (xs j) (xs (S j)) - xs j)) (seq 0 M)) = ys i + (ys (S i) - ys i) / (xs (S i) - xs i) * (x - xs i)).
  { induction M as [|M IH]; intros HM; [lia|]. rewrite sum_S, <- Rplus_assoc. destruct (Nat.eq_dec M i) as [->|N1].
    - rewrite A by lia. unfold clip. rewrite Rmax_left, Rmin_left by lra. reflexivity.
    - rewrite IH by lia. pose proof (Hx M ltac:(lia)) as L. pose proof (Mono (S i) M ltac:(lia)). unfold clip. rewrite Rmax_right, Rmin_left by lra. field. pose proof (Hx i ltac:(lia)). lra. }
  unfold ex_pchip. apply B. lia.
Qed.
Lemma ex_pchip_ok : is_pchip ex_pchip.
Proof.
  intros N xs ys HN Hx. split; [|split; [|split]].
  - intros i Hi. destruct (Nat.eq_dec i N) as [->|].
    + destruct N as [|n]; [lia|]. pose proof (Hx n ltac:(lia)). rewrite (ex_pchip_in (S n) xs ys n) by (try assumption; try lia; lra). field. lra.
    + pose proof (Hx i ltac:(lia)). rewrite (ex_pchip_in N xs ys i) by (try assumption; try lia; lra). ring.
  - intros x _. unfold ex_pchip. apply cont_plus; [apply cont_const|]. apply Rsum_cont. intros i. apply cont_mult; [apply cont_const|]. apply (cont_plus (fun t => clip t (xs i) (xs (S i))) (fun _ => - xs i)); [apply clip_cont|apply cont_const].
  - intros i a b Hi Hy Ha Hab Hb. rewrite !(ex_pchip_in N xs ys i) by (try assumption; lra). pose proof (Hx i Hi). assert (0 < (ys (S i) - ys i) / (xs (S i) - xs i)) by (apply Rdiv_lt_0_compat; lra).
    apply Rplus_lt_compat_l, Rmult_lt_compat_l; lra.
  - intros i a Hi Hy Ha. rewrite (ex_pchip_in N xs ys i) by (try assumption; lra). rewrite <- Hy. unfold Rdiv. ring.
Qed.
Lemma ex_oracles : exists iv root pchip, is_iv iv /\ is_root root /\ is_pchip pchip.
Proof. destruct iv_exists as [iv H]. exists iv, ex_root, ex_pchip. split; [exact H|]. split; [exact ex_root_ok|exact ex_pchip_ok]. Qed.

Lemma ex_ft_ok : ft_ok 1 2 (- (1 / 2)) = true. Proof. pose proof PI_gt3. apply ft_ok_spec. lra. Qed.
Lemma ex_ft_ok2 : ft_ok 1 300 (1 / 2) = true. Proof. pose proof PI_gt3. apply ft_ok_spec. lra. Qed.
Lemma ex_ib_ok : ib_ok 1 2 (1 / 3) (- (1 / 2)) = true /\ ib_ktol < 2 <= ib_kmax /\ lam_good 2 (- (1 / 2)).
Proof.
  pose proof PI_gt3. pose proof PI_4 as P4. split; [apply ib_ok_spec; lra|]. split; [unfold ib_ktol, ib_kmax; lra|]. right. split; [right; unfold lam_mid; lra|]. unfold ib_q. rewrite Rabs_Ropp, Rabs_pos_eq by lra.
  apply Rle_trans with (PI * (7 / 9216)); [right; field|lra].
Qed.
