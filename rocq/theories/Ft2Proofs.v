(** The flat-topped density: shape, mass, and the von Mises case. *)
From Verif Require Import Prelude NpModel NpProofs CircleSpec IntSpec IntProofs DistModel DistSpec DistProofs Dist2Proofs Dist4Proofs Dist5Proofs
  Dist6Proofs Dist7Proofs KjProofs Kj2Proofs VonModel VonSpec VonProofs Von2Proofs Von3Proofs Von4Proofs JpProofs Jp3Proofs Jp4Proofs Wn6Proofs FtModel FtSpec FtProofs.

Lemma ft_public_eq mu kappa nu x : ft_ok mu kappa nu = true -> ft_public_pdf mu kappa nu x = Fin (ft_pdf mu kappa nu x).
Proof.
  intros Hok. pose proof (proj1 (ft_ok_spec _ _ _) Hok) as (Hm & Hk & Hn). unfold ft_public_pdf, ft_kmax. rewrite (clip_id kappa) by lra. cbv zeta.
  rewrite Hok, public_pdf_fin. f_equal. rewrite !ft_pdf_eq by exact Hk. destruct (Rleb kappa ft_ktol); [reflexivity|].
  destruct (wrap_same x) as [z ->]. unfold ft_shape. replace (x + 2 * PI * IZR z - mu) with (x - mu + 2 * PI * IZR z) by ring. rewrite ft_log_turns. reflexivity.
Qed.
Lemma ft_pdf_pos mu kappa nu x : 0 <= kappa <= 1000 -> 0 < ft_pdf mu kappa nu x.
Proof.
  intros Hk. pose proof PI_gt3. rewrite ft_pdf_eq by exact Hk. destruct (Rleb kappa ft_ktol); [apply Rdiv_lt_0_compat; lra|].
  apply Rdiv_lt_0_compat; [apply exp_pos|apply ft_T_pos].
Qed.
Lemma ft_pdf_cont mu kappa nu x : 0 <= kappa <= 1000 -> continuity_pt (ft_pdf mu kappa nu) x.
Proof.
  intros Hk. destruct (Rleb kappa ft_ktol) eqn:E.
  - apply (cont_ext (fun _ => 1 / (2 * PI))); [|apply cont_const]. intros t. rewrite ft_pdf_eq, E by exact Hk. reflexivity.
  - apply (cont_ext (fun t => ft_shape kappa nu (t - mu) * / ft_T kappa nu)).
    + intros t. rewrite ft_pdf_eq, E by exact Hk. reflexivity.
    + apply cont_mult; [|apply cont_const]. apply continuity_shift, ft_shape_cont.
Qed.
Lemma ft_law mu kappa nu : ft_ok mu kappa nu = true ->
  exists f, (forall x, ft_public_pdf mu kappa nu x = Fin (f x)) /\ (forall x, 0 < f x) /\ (forall x y, same_dir x y -> f x = f y) /\
    (kappa <= / 10 ^ 9 -> forall x, f x = 1 / (2 * PI)) /\
    (/ 10 ^ 9 < kappa -> proportional f (fun x => flat_shape kappa nu (x - mu))).
Proof.
  intros Hok. pose proof (proj1 (ft_ok_spec _ _ _) Hok) as (Hm & Hk & Hn). exists (ft_pdf mu kappa nu).
  split; [intros; apply ft_public_eq, Hok|]. split; [intros; apply ft_pdf_pos, Hk|]. split; [|split].
  - intros x y [z ->]. rewrite !ft_pdf_eq by exact Hk. destruct (Rleb kappa ft_ktol); [reflexivity|].
    unfold ft_shape. replace (y + 2 * PI * IZR z - mu) with (y - mu + 2 * PI * IZR z) by ring. rewrite ft_log_turns. reflexivity.
  - intros Hs x. rewrite ft_pdf_eq by exact Hk. rewrite (proj2 (Rleb_true _ _)) by exact Hs. reflexivity.
  - intros Hs x y. rewrite !ft_pdf_eq by exact Hk. rewrite (proj2 (Rleb_false kappa ft_ktol)) by exact Hs.
    change (flat_shape kappa nu) with (ft_shape kappa nu). pose proof (ft_T_pos kappa nu). field. lra.
Qed.

(** ** Mass *)
Lemma ft_mass_I kappa nu v : 0 <= kappa -> integral (ft_shape kappa nu) (- PI) PI v ->
  (1 - PI * (kappa * (1 + Rabs nu)) / INR (ft_size kappa nu)) * v <= ft_T kappa nu <= (1 + PI * (kappa * (1 + Rabs nu)) / INR (ft_size kappa nu)) * v.
Proof.
  intros Hk I. pose proof (ft_size_range kappa nu) as [HN _]. assert (HN' : (0 < ft_size kappa nu)%nat) by lia.
  apply (trap_error (ft_shape kappa nu) (fun x => kappa * (- sin (x + nu * sin x) * (1 + nu * cos x)) * ft_shape kappa nu x) (kappa * (1 + Rabs nu)) (ft_size kappa nu) HN').
  - intros x. apply ft_shape_d.
  - intros x. apply cont_mult; [|apply ft_shape_cont]. apply derivable_continuous_pt. reg.
  - intros x. apply ft_shape_d_bound, Hk.
  - rewrite node_N by exact HN'. exact I.
Qed.
Lemma ft_shape_turns kappa nu x (z : Z) : ft_shape kappa nu (x + 2 * PI * IZR z) = ft_shape kappa nu x.
Proof. unfold ft_shape. rewrite ft_log_turns. reflexivity. Qed.
Lemma shift_turn g mu v : (forall x, continuity_pt g x) -> (forall x (z : Z), g (x + 2 * PI * IZR z) = g x) ->
  integral g (- PI) PI v -> integral (fun x => g (x - mu)) 0 (2 * PI) v.
Proof.
  intros C P I. pose proof PI_gt3. apply (int_shift_to g mu 0 (2 * PI)); [lra|exact C|].
  replace (2 * PI - mu) with (0 - mu + 2 * PI) by ring. apply int_turn; [exact C|exact P|].
  pose proof (int_turn g (- PI)) as T. destruct (continuous_integral g 0 (2 * PI)) as [w W]; [lra|intros; apply C|].
  pose proof (T w C P W) as T1. replace (- PI + 2 * PI) with PI in T1 by ring. rewrite (integral_unique _ _ _ _ _ I T1). exact W.
Qed.
Lemma ft_int mu kappa nu v : 0 <= kappa <= 1000 -> ft_ktol < kappa -> integral (ft_shape kappa nu) (- PI) PI v ->
  integral (ft_pdf mu kappa nu) 0 (2 * PI) (v / ft_T kappa nu).
Proof.
  intros Hk Hs I. pose proof PI_gt3. apply (integral_ext (fun x => / ft_T kappa nu * ft_shape kappa nu (x - mu))); [lra| |].
  - intros x _. rewrite ft_pdf_eq by exact Hk. rewrite (proj2 (Rleb_false kappa ft_ktol)) by exact Hs. unfold Rdiv. ring.
  - apply (integral_val _ _ _ (/ ft_T kappa nu * v)); [unfold Rdiv; ring|]. apply (integral_scal (fun x => ft_shape kappa nu (x - mu))); [lra|].
    apply shift_turn; [apply ft_shape_cont|intros; apply ft_shape_turns|exact I].
Qed.
Lemma ft_shape_I kappa nu : exists v, integral (ft_shape kappa nu) (- PI) PI v /\ 0 < v.
Proof.
  pose proof PI_gt3. destruct (continuous_integral (ft_shape kappa nu) (- PI) PI) as [v I]; [lra|intros; apply ft_shape_cont|]. exists v. split; [exact I|].
  pose proof (shift_turn (ft_shape kappa nu) 0 v (ft_shape_cont kappa nu) (ft_shape_turns kappa nu) I) as I'.
  apply (positive_mass (fun x => ft_shape kappa nu (x - 0))); [|intros; apply exp_pos|exact I']. intros x. apply continuity_shift, ft_shape_cont.
Qed.
Lemma ft_mass mu kappa nu f : ft_ok mu kappa nu = true -> (forall x, ft_public_pdf mu kappa nu x = Fin (f x)) ->
  exists M, integral f 0 (2 * PI) M /\ 0 < M /\ Rabs (1 / M - 1) <= PI * kappa * (1 + Rabs nu) / 512.
Proof.
  intros Hok Hf. pose proof PI_gt3. pose proof (proj1 (ft_ok_spec _ _ _) Hok) as (Hm & Hk & Hn).
  assert (E : forall x, f x = ft_pdf mu kappa nu x). { intros x. pose proof (Hf x) as F. rewrite ft_public_eq in F by exact Hok. congruence. }
  pose proof (Rabs_pos nu) as An.
  assert (B0 : 0 <= PI * kappa * (1 + Rabs nu)) by (apply Rmult_le_pos; [apply Rmult_le_pos; lra|lra]).
  destruct (Rle_lt_dec kappa ft_ktol) as [Hs|Hs].
  - exists 1. split; [|split; [lra|]].
    + apply (integral_ext (fun _ => 1 / (2 * PI))); [lra| |].
      * intros x _. rewrite E, ft_pdf_eq by exact Hk. rewrite (proj2 (Rleb_true _ _)) by exact Hs. reflexivity.
      * apply (integral_val _ _ _ (1 / (2 * PI) * (2 * PI - 0))); [field; lra|apply integral_const].
    + replace (1 / 1 - 1) with 0 by field. rewrite Rabs_R0. lra.
  - destruct (ft_shape_I kappa nu) as (v & I & V). pose proof (ft_T_pos kappa nu) as T0. exists (v / ft_T kappa nu). split; [|split].
    + apply (integral_ext (ft_pdf mu kappa nu)); [lra|intros; symmetry; apply E|]. apply ft_int; assumption.
    + apply Rdiv_lt_0_compat; assumption.
    + pose proof (ft_mass_I kappa nu v ltac:(lra) I) as B. pose proof (ft_size_INR kappa nu) as HN.
      set (e := PI * (kappa * (1 + Rabs nu)) / INR (ft_size kappa nu)) in *.
      assert (Ee : e <= PI * kappa * (1 + Rabs nu) / 512).
      { unfold e, Rdiv. rewrite <- Rmult_assoc. apply Rmult_le_compat_l; [exact B0|]. apply Rinv_le_contravar; lra. }
      replace (1 / (v / ft_T kappa nu) - 1) with ((ft_T kappa nu - v) / v) by (field; lra).
      apply Rabs_le. assert (- e * v <= ft_T kappa nu - v <= e * v) by lra.
      assert (- e <= (ft_T kappa nu - v) / v <= e); [|lra].
      split; apply Rmult_le_reg_r with v; try exact V; unfold Rdiv; rewrite ?(Rmult_assoc (ft_T kappa nu - v)), Rinv_l, ?Rmult_1_r by lra; lra.
Qed.

(** ** The von Mises case *)
Lemma node_sum (N : nat) (n : nat) : (0 < n < N)%nat -> Rsum (map (fun k => cos (INR n * node N k)) (seq 0 N)) = 0.
Proof.
  intros Hn. pose proof PI_gt3. assert (HN : 0 < INR N) by (apply lt_0_INR; lia).
  set (d := INR n * (2 * PI / INR N)). pose proof (equi_sum (- (INR n * PI)) d N) as E.
  assert (Hn1 : 0 < INR n) by (apply lt_0_INR; lia). assert (Hn2 : INR n < INR N) by (apply lt_INR; lia).
  replace (- (INR n * PI) + (INR N - 1 / 2) * d) with (- (INR n * PI) - d / 2 + 2 * PI * IZR (Z.of_nat n)) in E by (unfold d; rewrite <- INR_IZR_INZ; field; lra).
  rewrite NpProofs.sin_turns in E.
  assert (D : d = 2 * PI * (INR n / INR N)) by (unfold d; field; lra).
  assert (Q : 0 < INR n / INR N < 1) by (split; [apply Rdiv_lt_0_compat; lra|apply Rmult_lt_reg_r with (INR N); [lra|]; unfold Rdiv; rewrite Rmult_assoc, Rinv_l by lra; lra]).
  assert (S : 0 < sin (d / 2)) by (apply sin_gt_0; rewrite D; nra).
  rewrite (Rsum_ext_map _ (fun k => cos (- (INR n * PI) + INR k * d))) by (intros k _; unfold node, d; f_equal; field; lra). nra.
Qed.
(** Powers of the cosine times a harmonic: the sum over the nodes is N times the mean over the circle. *)
Definition harm (m n : nat) (t : R) : R := cos t ^ m * cos (INR n * t).
Lemma harm_step m n t : harm (S m) (S n) t = 1 / 2 * (harm m (S (S n)) t + harm m n t).
Proof.
  unfold harm. cbn [pow]. replace (INR (S (S n)) * t) with (INR (S n) * t + t) by (rewrite (S_INR (S n)); ring).
  replace (INR n * t) with (INR (S n) * t - t) by (rewrite (S_INR n); ring). rewrite cos_plus, cos_minus. field.
Qed.
Lemma harm_step0 m t : harm (S m) 0 t = harm m 1 t.
Proof. unfold harm. cbn [pow INR]. rewrite Rmult_0_l, cos_0, Rmult_1_l. ring. Qed.
Lemma harm_cont m n x : continuity_pt (harm m n) x.
Proof. unfold harm. apply cont_mult; [|apply cos_n_cont]. apply (cont_comp (fun c => c ^ m) cos); [apply cos_cont|]. apply derivable_continuous_pt. reg. Qed.
Lemma harm_sum N : forall m n v, (m + n < N)%nat -> integral (harm m n) 0 (2 * PI) v ->
  2 * PI / INR N * Rsum (map (fun k => harm m n (node N k)) (seq 0 N)) = v.
Proof.
  pose proof PI_gt3 as P3. induction m as [|m IH]; intros n v L I.
  - assert (HN : 0 < INR N) by (apply lt_0_INR; lia). assert (Hc : forall k, In k (seq 0 N) -> harm 0 n (node N k) = cos (INR n * node N k)) by (intros; unfold harm; cbn [pow]; ring).
    rewrite (Rsum_ext_map _ _ _ Hc).
    assert (I' : integral (fun t => cos (INR n * t)) 0 (2 * PI) v).
    { refine (integral_ext _ _ _ _ _ _ _ I); [lra|]. intros x _. unfold harm. cbn [pow]. ring. }
    destruct n as [|n].
    + rewrite (Rsum_ext_map _ (fun _ => 1)) by (intros; cbn [INR]; rewrite Rmult_0_l; apply cos_0).
      assert (G : forall M a, Rsum (map (fun _ : nat => 1) (seq a M)) = INR M).
      { induction M as [|M IHM]; intros a; [reflexivity|]. cbn [seq map]. rewrite Rsum_cons, IHM, S_INR. ring. }
      rewrite G. assert (v = 2 * PI); [|subst v; field; lra]. apply (integral_unique _ _ _ _ _ I').
      apply (integral_ext (fun _ => 1)); [lra|intros; cbn [INR]; rewrite Rmult_0_l, cos_0; reflexivity|].
      apply (integral_val _ _ _ (1 * (2 * PI - 0))); [ring|apply integral_const].
    + rewrite node_sum by lia. rewrite (integral_unique _ _ _ _ _ I' (int_cos_n (S n) ltac:(lia))). ring.
  - assert (Ex : forall n, exists w, integral (harm m n) 0 (2 * PI) w) by (intros k; apply continuous_integral; [lra|intros; apply harm_cont]).
    destruct n as [|n].
    + rewrite (Rsum_ext_map _ (fun k => harm m 1 (node N k))) by (intros; apply harm_step0). apply IH; [lia|].
      refine (integral_ext _ _ _ _ _ _ _ I); [lra|]. intros; apply harm_step0.
    + destruct (Ex (S (S n))) as [a A]. destruct (Ex n) as [b B].
      rewrite (Rsum_ext_map _ (fun k => 1 / 2 * (harm m (S (S n)) (node N k) + harm m n (node N k)))) by (intros; apply harm_step).
      rewrite Rsum_scal_map, Rsum_plus_map.
      pose proof (IH (S (S n)) a ltac:(lia) A) as EA. pose proof (IH n b ltac:(lia) B) as EB.
      assert (Ev : v = 1 / 2 * (a + b)).
      { apply (integral_unique _ _ _ _ _ I). apply (integral_ext (fun t => 1 / 2 * (harm m (S (S n)) t + harm m n t))); [lra|intros; symmetry; apply harm_step|].
        apply (integral_scal (fun t => harm m (S (S n)) t + harm m n t)); [lra|]. apply integral_plus; [lra|exact A|exact B]. }
      rewrite Ev, <- EA, <- EB. ring.
Qed.
