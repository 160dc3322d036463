(** The kernel density estimate: value and total. *)
From Verif Require Import Prelude NpModel NpProofs CircleSpec UtilsModel UtilsProofs DescModel Desc2Model IntSpec IntProofs DistModel DistSpec DistProofs Dist2Proofs Dist4Proofs Dist7Proofs KjProofs WnProofs Von3Proofs
  BaseModel VzModel VzSpec Vz3Proofs KdeModel KdeSpec.

Definition kq (h e : R) : R := 15 / 16 * (1 - e ^ 2 / h ^ 2) ^ 2 / h.
Definition kQ (h e : R) : R := 15 / 16 * (e - 2 * e ^ 3 / (3 * h ^ 2) + e ^ 5 / (5 * h ^ 4)) / h.
Lemma quartic_q h u : 0 < h -> quartic h u = kq h (Rmin u h).
Proof.
  intros H. unfold quartic, kq. destruct (Rltb_spec u h) as [L|L].
  - rewrite Rmin_left by lra. field. lra.
  - rewrite Rmin_right by lra. field. lra.
Qed.
Lemma quartic_nonneg h u : 0 < h -> 0 <= quartic h u.
Proof. intros H. rewrite quartic_q by exact H. unfold kq. apply Rmult_le_pos; [|left; apply Rinv_0_lt_compat, H]. pose proof (pow2_ge_0 (1 - Rmin u h ^ 2 / h ^ 2)). lra. Qed.
Lemma kQ_d h e : 0 < h -> derivable_pt_lim (kQ h) e (kq h e).
Proof.
  intros H. unfold kQ, kq. assert (forall n, derivable_pt_lim (fun y => y ^ n) e (INR n * e ^ pred n)) as P by (intros n; apply derivable_pt_lim_pow).
  assert (Q : derivable_pt_lim (fun y => (15 / 16 * (y - (2 / (3 * h ^ 2)) * y ^ 3 + (/ (5 * h ^ 4)) * y ^ 5)) / h) e ((15 / 16 * (1 - 2 / (3 * h ^ 2) * (INR 3 * e ^ 2) + / (5 * h ^ 4) * (INR 5 * e ^ 4))) / h)).
  { apply dlim_divc. apply dlim_scal. apply dlim_plus; [apply dlim_minus; [apply dlim_id|apply dlim_scal, (P 3%nat)]|apply dlim_scal, (P 5%nat)]. }
  eapply dlim_ext; [|eapply dlim_eq; [|exact Q]].
  - intros y. cbv beta. field. lra.
  - replace (INR 3) with 3 by (simpl; ring). replace (INR 5) with 5 by (simpl; ring). field. lra.
Qed.
Lemma kq_h h : 0 < h -> kq h h = 0. Proof. intros H. unfold kq. field. lra. Qed.
Lemma kq_even h e : kq h (- e) = kq h e. Proof. unfold kq. replace ((- e) ^ 2) with (e ^ 2) by ring. reflexivity. Qed.
Lemma glue_min Q h : derivable_pt_lim Q h 0 -> derivable_pt_lim (fun t => Q (Rmin t h)) h 0.
Proof.
  intros D eps He. destruct (D eps He) as [d Hd]. exists d. intros u Hu Hl. destruct (Rle_dec 0 u) as [L|L].
  - rewrite (Rmin_right (h + u)), (Rmin_right h) by lra. replace ((Q h - Q h) / u - 0) with 0 by (field; exact Hu). rewrite Rabs_R0. exact He.
  - rewrite (Rmin_left (h + u)), (Rmin_left h) by lra. apply Hd; assumption.
Qed.
Lemma glue_max Q h : derivable_pt_lim Q h 0 -> derivable_pt_lim (fun t => Q (Rmax t h)) h 0.
Proof.
  intros D eps He. destruct (D eps He) as [d Hd]. exists d. intros u Hu Hl. destruct (Rle_dec u 0) as [L|L].
  - rewrite (Rmax_right (h + u)), (Rmax_right h) by lra. replace ((Q h - Q h) / u - 0) with 0 by (field; exact Hu). rewrite Rabs_R0. exact He.
  - rewrite (Rmax_left (h + u)), (Rmax_left h) by lra. apply Hd; assumption.
Qed.
(** The primitive of the kernel about 0. *)
Definition kS (h t : R) : R := kQ h (Rmax (Rmin t h) (- h)).
Lemma kS_d h t : 0 < h -> derivable_pt_lim (kS h) t (kq h (Rmin (Rabs t) h)).
Proof.
  intros H. destruct (Rtotal_order t (- h)) as [L|[L|L]].
  - rewrite Rabs_left by lra. rewrite Rmin_right, kq_h by lra. apply (dlim_ext_loc (fun _ => kQ h (- h)) (kS h) t 0 (t - 1) (- h)); [lra| |apply dlim_const].
    intros y Hy. unfold kS. rewrite Rmin_left, Rmax_right by lra. reflexivity.
  - subst t. rewrite Rabs_left by lra. rewrite Ropp_involutive, Rmin_left, kq_h by lra. apply (dlim_ext_loc (fun t => kQ h (Rmax t (- h))) (kS h) (- h) 0 (- 2 * h) 0); [lra| |].
    + intros y Hy. unfold kS. rewrite (Rmin_left y h) by lra. reflexivity.
    + apply glue_max. rewrite <- (kq_h h H), <- kq_even. apply kQ_d, H.
  - destruct (Rtotal_order t h) as [M|[M|M]].
    + rewrite Rmin_left by (apply Rabs_le; lra). replace (kq h (Rabs t)) with (kq h t) by (unfold Rabs; destruct (Rcase_abs t); [symmetry; apply kq_even|reflexivity]).
      apply (dlim_ext_loc (kQ h) (kS h) t (kq h t) (- h) h); [lra| |apply kQ_d, H]. intros y Hy. unfold kS. rewrite Rmin_left, Rmax_left by lra. reflexivity.
    + subst t. rewrite Rabs_pos_eq by lra. rewrite Rmin_left, kq_h by lra. apply (dlim_ext_loc (fun t => kQ h (Rmin t h)) (kS h) h 0 0 (2 * h)); [lra| |].
      * intros y Hy. unfold kS. rewrite (Rmax_left (Rmin y h)); [reflexivity|]. unfold Rmin. destruct (Rle_dec y h); lra.
      * apply glue_min. pose proof (kQ_d h h H) as D. rewrite kq_h in D by exact H. exact D.
    + rewrite Rabs_pos_eq by lra. rewrite Rmin_right, kq_h by lra. apply (dlim_ext_loc (fun _ => kQ h h) (kS h) t 0 h (t + 1)); [lra| |apply dlim_const].
      intros y Hy. unfold kS. rewrite Rmin_right, Rmax_left by lra. reflexivity.
Qed.
Lemma kq_cont h m x : 0 < h -> continuity_pt (fun x => kq h (Rmin (Rabs (x - m)) h)) x.
Proof.
  intros H. assert (C : continuity_pt (fun x => Rabs (x + - m)) x) by (apply cont_abs, cont_plus; [apply derivable_continuous_pt, derivable_pt_id|apply cont_const]).
  apply (continuity_pt_comp (fun x => Rmin (Rabs (x - m)) h) (kq h) x).
  - apply (cont_ext (fun y => / 2 * (Rabs (y + - m) + h + -1 * Rabs (Rabs (y + - m) + - h)))).
    + intros y. change (y - m) with (y + - m). unfold Rmin. destruct (Rle_dec (Rabs (y + - m)) h); [rewrite (Rabs_left1 (_ + - h)) by lra|rewrite (Rabs_pos_eq (_ + - h)) by lra]; lra.
    + apply cont_mult; [apply cont_const|]. apply cont_plus; [apply cont_plus; [exact C|apply cont_const]|]. apply cont_mult; [apply cont_const|]. apply cont_abs, cont_plus; [exact C|apply cont_const].
  - unfold kq, Rdiv. apply cont_mult; [|apply cont_const]. apply cont_mult; [apply cont_const|]. 
    assert (C2 : continuity_pt (fun e => 1 - e ^ 2 * / h ^ 2) (Rmin (Rabs (x - m)) h)).
    { eapply dlim_cont. apply dlim_minus; [apply dlim_const|]. apply (dlim_ext (fun y => / h ^ 2 * y ^ 2)); [intros y; ring|]. apply dlim_scal. apply derivable_pt_lim_pow. }
    apply (cont_ext (fun e => (1 - e ^ 2 * / h ^ 2) * (1 - e ^ 2 * / h ^ 2))); [intros y; ring|]. apply cont_mult; exact C2.
Qed.
Lemma kq_int h m l r : 0 < h -> l <= r -> integral (fun x => kq h (Rmin (Rabs (x - m)) h)) l r (kS h (r - m) - kS h (l - m)).
Proof.
  intros H L. apply (ftc _ (fun x => kS h (x - m))); [exact L|intros; apply kq_cont, H|]. intros x _. replace (kq h (Rmin (Rabs (x - m)) h)) with (kq h (Rmin (Rabs (x - m)) h) * 1) by ring.
  apply (dlim_comp (kS h) (fun x => x - m)); [|apply kS_d, H]. eapply dlim_eq; [|apply dlim_minus; [apply dlim_id|apply dlim_const]]. ring.
Qed.
(** The angle between two directions of [0, 2 pi]. *)
Lemma gap_near x a k : Rabs (x - a - 2 * PI * IZR k) <= PI -> gap x a = Rabs (x - a - 2 * PI * IZR k).
Proof.
  intros H. unfold gap. replace (cos (x - a)) with (cos (Rabs (x - a - 2 * PI * IZR k))).
  - apply acos_cos. split; [apply Rabs_pos|exact H].
  - assert (E : cos (Rabs (x - a - 2 * PI * IZR k)) = cos (x - a - 2 * PI * IZR k)) by (unfold Rabs; destruct (Rcase_abs _); [apply cos_neg|reflexivity]).
    rewrite E. replace (x - a) with (x - a - 2 * PI * IZR k + 2 * PI * IZR k) at 2 by ring. symmetry. apply cos_turns.
Qed.
Lemma gap_min x a : 0 <= x <= 2 * PI -> 0 <= a <= 2 * PI -> Rmin (Rabs (x - a)) (2 * PI - Rabs (x - a)) = gap x a.
Proof.
  intros Hx Ha. destruct (Rle_dec (Rabs (x - a)) PI) as [L|L].
  - rewrite Rmin_left by lra. rewrite (gap_near x a 0); rewrite Rmult_0_r, Rminus_0_r; [reflexivity|exact L].
  - apply Rnot_le_lt in L. rewrite Rmin_right by lra. destruct (Rle_dec a x) as [M|M].
    + rewrite Rabs_pos_eq in * by lra. rewrite (gap_near x a 1); rewrite Rmult_1_r, Rabs_left1; lra.
    + rewrite Rabs_left in * by lra. rewrite (gap_near x a (-1)); replace (2 * PI * -1) with (- (2 * PI)) by ring; rewrite Rabs_pos_eq; lra.
Qed.
Lemma kS_pi h : 0 < h -> kS h PI - kS h (- PI) = 2 * kQ h (Rmin PI h).
Proof.
  intros H. pose proof PI_RGT_0. assert (O : forall e, kQ h (- e) = - kQ h e) by (intros e; unfold kQ; field; lra).
  unfold kS. destruct (Rle_dec PI h) as [L|L].
  - rewrite (Rmin_left PI h), (Rmin_left (- PI)), !Rmax_left by lra. rewrite O. ring.
  - rewrite (Rmin_right PI h), (Rmin_left (- PI)), (Rmax_left h), Rmax_right by lra. rewrite O. ring.
Qed.
Lemma quartic_int_in h a : 0 < h -> 0 <= a <= 2 * PI -> integral (fun x => quartic h (gap x a)) 0 (2 * PI) (2 * kQ h (Rmin PI h)).
Proof.
  intros H Ha. pose proof PI_RGT_0. rewrite <- kS_pi by exact H.
  assert (K : forall k l r, l <= r -> (forall x, l <= x <= r -> Rabs (x - a - 2 * PI * IZR k) <= PI) -> integral (fun x => quartic h (gap x a)) l r (kS h (r - a - 2 * PI * IZR k) - kS h (l - a - 2 * PI * IZR k))).
  { intros k l r L B. replace (r - a - 2 * PI * IZR k) with (r - (a + 2 * PI * IZR k)) by ring. replace (l - a - 2 * PI * IZR k) with (l - (a + 2 * PI * IZR k)) by ring.
    eapply integral_ext; [exact L| |apply kq_int; [exact H|exact L]]. intros x Hx. cbv beta. rewrite quartic_q by exact H. rewrite (gap_near x a k) by (apply B, Hx). do 3 f_equal. ring. }
  destruct (Rle_dec a PI) as [L|L].
  - eapply integral_val; [|apply (integral_split _ 0 (a + PI) (2 * PI)); [apply (K 0%Z); [lra|]|apply (K 1%Z); [lra|]]].
    + replace (a + PI - a - 2 * PI * 0) with PI by ring. replace (a + PI - a - 2 * PI * 1) with (- PI) by ring. replace (2 * PI - a - 2 * PI * 1) with (- a) by ring. replace (0 - a - 2 * PI * 0) with (- a) by ring. ring.
    + intros x Hx. rewrite Rmult_0_r. apply Rabs_le. lra.
    + intros x Hx. rewrite Rmult_1_r. apply Rabs_le. lra.
  - eapply integral_val; [|apply (integral_split _ 0 (a - PI) (2 * PI)); [apply (K (-1)%Z); [lra|]|apply (K 0%Z); [lra|]]].
    + replace (a - PI - a - 2 * PI * -1) with PI by ring. replace (a - PI - a - 2 * PI * 0) with (- PI) by ring. replace (2 * PI - a - 2 * PI * 0) with (0 - a - 2 * PI * -1) by ring. ring.
    + intros x Hx. apply Rabs_le. lra.
    + intros x Hx. rewrite Rmult_0_r. apply Rabs_le. lra.
Qed.
Lemma gap_same x a b : same_dir a b -> gap x a = gap x b.
Proof. intros [k ->]. unfold gap. f_equal. replace (x - (b + 2 * PI * IZR k)) with (x - b + 2 * PI * IZR (- k)) by (rewrite opp_IZR; ring). apply cos_turns. Qed.
Lemma quartic_int h a : 0 < h -> integral (fun x => quartic h (gap x a)) 0 (2 * PI) (2 * kQ h (Rmin PI h)).
Proof.
  intros H. pose proof PI_RGT_0. pose proof (pymod_range a (2 * PI) ltac:(lra)) as B. destruct (pymod_cong a (2 * PI)) as [k E].
  eapply integral_ext; [lra| |apply (quartic_int_in h (pymod a (2 * PI)) H); lra]. intros x _. cbv beta. f_equal. symmetry. apply gap_same. exists k. exact E.
Qed.
Lemma kQ_total h : 0 < h -> 2 * kQ h h = 1. Proof. intros H. unfold kQ. field. lra. Qed.
Lemma kQ_less h : PI < h -> 2 * kQ h PI < 1.
Proof.
  intros L. pose proof PI_RGT_0. set (u := PI / h). assert (U : 0 < u < 1) by (unfold u; split; [apply Rdiv_lt_0_compat; lra|apply (Rmult_lt_reg_r h); [lra|]; unfold Rdiv; rewrite Rmult_assoc, Rinv_l, Rmult_1_r, Rmult_1_l by lra; exact L]).
  assert (E : 2 * kQ h PI = 1 - (1 - u) ^ 3 * (8 + 9 * u + 3 * u ^ 2) / 8) by (unfold kQ, u; field; lra). rewrite E.
  assert (0 < (1 - u) ^ 3 * (8 + 9 * u + 3 * u ^ 2)) by (apply Rmult_lt_0_compat; [apply pow_lt; lra|nra]). lra.
Qed.
Lemma Rsum_const_map {A} (l : list A) v : Rsum (map (fun _ => v) l) = v * INR (length l).
Proof. induction l as [|a t IH]; [cbn; ring|]. cbn [map length]. rewrite Rsum_cons, IH, S_INR. ring. Qed.
Lemma estimate_int h alpha : 0 < h -> alpha <> [] -> integral (estimate h alpha) 0 (2 * PI) (2 * kQ h (Rmin PI h)).
Proof.
  intros H N. pose proof PI_RGT_0. assert (L : 0 < INR (length alpha)) by (destruct alpha; [contradiction|apply lt_0_INR; cbn; lia]). unfold estimate.
  eapply integral_ext; [lra| |eapply integral_val; [|apply (integral_scal (fun x => Rsum (map (fun a => quartic h (gap x a)) alpha)) 0 (2 * PI) (/ INR (length alpha))); [lra|]]].
  - intros x _. cbv beta. unfold Rdiv. ring.
  - instantiate (1 := 2 * kQ h (Rmin PI h) * INR (length alpha)). field. lra.
  - rewrite <- Rsum_const_map. apply (integral_Rsum (fun a x => quartic h (gap x a)) (fun _ => 2 * kQ h (Rmin PI h))); [lra|]. intros a _. apply quartic_int, H.
Qed.
Lemma estimate_nonneg h alpha x : 0 < h -> 0 <= estimate h alpha x.
Proof.
  intros H. unfold estimate. destruct alpha as [|a t]; [cbn; unfold Rdiv; rewrite Rmult_0_l; lra|]. apply Rmult_le_pos; [|left; apply Rinv_0_lt_compat, lt_0_INR; cbn; lia].
  generalize (a :: t). intros l. induction l as [|b u IH]; [cbn; lra|]. cbn [map]. rewrite Rsum_cons. pose proof (quartic_nonneg h (gap x b) H). lra.
Qed.
Lemma estimate_density h alpha : 0 < h <= PI -> alpha <> [] -> density (estimate h alpha).
Proof.
  intros H N. split; [intros x; apply estimate_nonneg; lra|]. eapply integral_val; [|apply estimate_int; [lra|exact N]]. rewrite Rmin_right by lra. apply kQ_total. lra.
Qed.
Lemma estimate_wide h alpha : PI < h -> alpha <> [] -> exists v, v < 1 /\ integral (estimate h alpha) 0 (2 * PI) v.
Proof.
  intros H N. pose proof PI_RGT_0. exists (2 * kQ h PI). split; [apply kQ_less, H|]. eapply integral_val; [|apply estimate_int; [lra|exact N]]. rewrite Rmin_left by lra. reflexivity.
Qed.
Lemma npde_value alpha h radius x : alpha <> [] -> (forall a, In a alpha -> 0 <= a <= 2 * PI) -> 0 < h -> 0 <= radius -> 0 <= x <= 2 * PI ->
  0 <= npde alpha h radius x /\ (radius + npde alpha h radius x) ^ 2 = radius ^ 2 * (1 + PI * estimate h alpha x).
Proof.
  intros N A H Hr Hx. pose proof PI_RGT_0. unfold npde. assert (L : 0 < INR (length alpha)) by (destruct alpha; [contradiction|apply lt_0_INR; cbn; lia]).
  assert (E : 9375 / 10000 * Rsum (map (fun a => (1 - Rmin (Rmin (Rabs (x - a)) (2 * PI - Rabs (x - a))) h ^ 2 / h ^ 2) ^ 2) alpha) / (INR (length alpha) * h) = estimate h alpha x).
  { unfold estimate. assert (S : Rsum (map (fun a => quartic h (gap x a)) alpha) = 9375 / 10000 / h * Rsum (map (fun a => (1 - Rmin (Rmin (Rabs (x - a)) (2 * PI - Rabs (x - a))) h ^ 2 / h ^ 2) ^ 2) alpha)).
    { clear N L. induction alpha as [|a t IH]; [cbn; ring|]. cbn [map]. rewrite !Rsum_cons, IH by (intros b Hb; apply A; now right). rewrite gap_min by (try exact Hx; apply A; now left).
      rewrite quartic_q by exact H. unfold kq. field. lra. }
    rewrite S. field. lra. }
  cbv zeta. rewrite E. pose proof (estimate_nonneg h alpha x H) as P. assert (Q : 0 <= PI * estimate h alpha x) by (apply Rmult_le_pos; lra). split.
  - assert (1 <= sqrt (1 + PI * estimate h alpha x)) by (rewrite <- sqrt_1 at 1; apply sqrt_le_1; lra). nra.
  - replace (radius + (radius * sqrt (1 + PI * estimate h alpha x) - radius)) with (radius * sqrt (1 + PI * estimate h alpha x)) by ring. rewrite Rpow_mult_distr. f_equal. rewrite <- (Rsqr_sqrt (1 + PI * estimate h alpha x)) at 2 by lra. unfold Rsqr. ring.
Qed.
Lemma npde_grid alpha h radius : length (nonparametric_density_estimation alpha h radius) = 100%nat /\
  forall i, (i < 100)%nat -> nth i (nonparametric_density_estimation alpha h radius) (0, 0) = (2 * PI * (INR i / 99), npde alpha h radius (2 * PI * (INR i / 99))).
Proof.
  unfold nonparametric_density_estimation. split; [rewrite map_length; unfold linspace; rewrite map_length, seq_length; reflexivity|]. intros i Hi.
  set (f := fun x => (x, npde alpha h radius x)). assert (Lh : (i < length (map f (linspace 0 (2 * PI) 100)))%nat) by (rewrite map_length; unfold linspace; rewrite map_length, seq_length; exact Hi).
  rewrite (nth_indep _ (0, 0) (f 0) Lh), map_nth, linspace_nth by exact Hi. replace (INR (100 - 1)) with 99 by (cbn; ring). replace (0 + INR i * ((2 * PI - 0) / 99)) with (2 * PI * (INR i / 99)) by field. reflexivity.
Qed.
Lemma npde_points alpha h radius : alpha <> [] -> (forall a, In a alpha -> 0 <= a <= 2 * PI) -> 0 < h -> 0 <= radius ->
  length (nonparametric_density_estimation alpha h radius) = 100%nat /\
  forall i, (i < 100)%nat -> exists f, nth i (nonparametric_density_estimation alpha h radius) (0, 0) = (2 * PI * (INR i / 99), f) /\
    0 <= f /\ (radius + f) ^ 2 = radius ^ 2 * (1 + PI * estimate h alpha (2 * PI * (INR i / 99))).
Proof.
  intros N A H Hr. destruct (npde_grid alpha h radius) as [G1 G2]. split; [exact G1|]. intros i Hi. eexists. split; [apply G2, Hi|]. apply npde_value; auto.
  pose proof PI_RGT_0. pose proof (pos_INR i). assert (INR i <= 99) by (replace 99 with (INR 99) by (cbn; ring); apply le_INR; lia). split; [apply Rmult_le_pos; [lra|apply Rmult_le_pos; lra]|]. nra.
Qed.
(** The area between the plotted circle and the curve is half the circle's. *)
Lemma npde_area alpha h radius : alpha <> [] -> (forall a, In a alpha -> 0 <= a <= 2 * PI) -> 0 < h <= PI -> 0 <= radius ->
  integral (fun x => ((radius + npde alpha h radius x) ^ 2 - radius ^ 2) / 2) 0 (2 * PI) (PI * radius ^ 2 / 2).
Proof.
  intros N A H Hr. pose proof PI_RGT_0. destruct (estimate_density h alpha H N) as [_ I].
  eapply integral_ext; [lra| |eapply integral_val; [|apply (integral_scal (estimate h alpha) 0 (2 * PI) (PI * radius ^ 2 / 2)); [lra|exact I]]].
  - intros x Hx. cbv beta. rewrite (proj2 (npde_value alpha h radius x N A ltac:(lra) Hr Hx)). field.
  - ring.
Qed.
