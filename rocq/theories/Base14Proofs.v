From Verif Require Import Prelude NpModel NpProofs CircleSpec UtilsModel UtilsProofs DescModel DescProofs
  DescSpec DescApi DescApi2 Desc2Model Desc2Proofs Desc2Spec ArcProofs Desc3Proofs Desc4Proofs Desc7Proofs Desc2Ex HypModel HypProofs
  BaseModel BaseSpec BaseProofs Base2Proofs Base3Proofs Base4Proofs Base5Proofs.
Open Scope string_scope.
Open Scope R_scope.

(** * C71 *)
Lemma ray_p alpha w n t : valid_sample alpha (Some w) -> Rsum w = IZR n ->
  rayleigh_test (Some alpha) (Some w) None None 1 [] = Ok t -> (0 < n)%Z /\ ray_pval t = rayleigh_p (IZR n) (circ_r alpha (Some w)).
Proof.
  intros Hv Ht E. assert (Hn : (0 < n)%Z) by (apply lt_IZR; rewrite <- Ht; apply Hv). split; [exact Hn|].
  rewrite (rayleigh_sample _ _ n None 1 [] Hv) in E.
  - destruct (rayleigh_given (circ_r alpha (Some w)) n 1 [] None None ltac:(lia) Hn (circ_r_range _ _ Hv)) as (t' & E' & _ & _ & Q3).
    rewrite E in E'. injection E' as <-. exact Q3.
  - rewrite sample_size_eq. unfold wtotal, smp. cbn [weights]. destruct Hv as (_ & Hl & _). rewrite combine_snd by (symmetry; exact Hl). exact Ht.
Qed.
Lemma weighted_fails x d w u v n t : cycle_of u None v -> equally_spaced (map (angle_of v) d) -> (2 <= length d)%nat ->
  length w = length d -> Forall (fun a => 0 <= a) w -> Rsum w = IZR n -> (8 <= n < 25)%Z ->
  rayleigh_test (Some (map (angle_of v) d)) (Some w) None None 1 [] = Ok t -> ray_pval t < 5/100 ->
  circular x (weighted d w u) = Err ValueError.
Proof.
  intros Hc He H2 Hl Hw Ht Hn E Hp. set (al := map (angle_of v) d) in *.
  assert (La : length al = length d) by (unfold al; apply map_length).
  assert (Hv : valid_sample al (Some w)).
  { split; [intros Z; rewrite Z in La; cbn in La; lia|]. split; [rewrite La; exact Hl|]. split; [exact Hw|]. rewrite Ht. apply IZR_lt. lia. }
  destruct (ray_p _ _ _ _ Hv Ht E) as (_ & Ep). rewrite Ep in Hp.
  assert (P : exists b, prepare al (Some w) None = Ok {| p_alpha := al; p_w := w; p_grouped := true; p_bin := b;
                         p_bounds := map (fun a => (a - b / 2, a + b / 2)) al |}).
  { unfold prepare. rewrite Hl, La, Nat.eqb_refl. cbn [negb]. destruct w as [|w0 ws]; [cbn in Hl; lia|].
    destruct al as [|a0 [|a1 al']]; [cbn in La; lia|cbn in La; lia|]. cbn [diff list_min bind]. eexists; reflexivity. }
  destruct P as (b & P).
  apply (circular_grouped_fails x (weighted d w u) al v _ (cycle_full _ _ _ Hc) eq_refl P); cbn [p_alpha p_w]; auto.
  - rewrite La. exact H2.
  - rewrite Ht, trunc_IZR by lia. exact Hn.
  - rewrite Ht, trunc_IZR by lia. exact Hp.
Qed.
Lemma nth_eq (l m : list R) : length l = length m -> (forall i, (i < length l)%nat -> nth i l 0 = nth i m 0) -> l = m.
Proof.
  revert m. induction l as [|a l IH]; intros [|b m] Hl H; try discriminate; [reflexivity|]. f_equal; [exact (H 0%nat ltac:(cbn; lia))|].
  apply IH; [cbn in Hl; lia|]. intros i Hi. exact (H (S i) ltac:(cbn; lia)).
Qed.
Lemma binned_fails x d k u v w t : cycle_of u None v -> (2 <= k)%Z ->
  Forall (fun y => 0 <= angle_of v y <= 2 * PI) d -> (8 <= length d < 25)%nat ->
  let h := 2 * PI / IZR k in
  length w = Z.to_nat k ->
  (forall i, (i < Z.to_nat k)%nat -> nth i w 0 =
     INR (count_if (fun a => Rleb (INR i * h) a &&
                             (if Nat.eqb (S i) (Z.to_nat k) then Rleb a (2 * PI) else Rltb a (INR (S i) * h))) (map (angle_of v) d))) ->
  rayleigh_test (Some (map (fun i => (INR i + 1 / 2) * h) (seq 0 (Z.to_nat k)))) (Some w) None None 1 [] = Ok t -> ray_pval t < 5/100 ->
  circular x (binned d k u) = Err ValueError.
Proof.
  intros Hc Hk Hd Hn h Hl Hw E Hp. set (al := map (angle_of v) d) in *. set (K := Z.to_nat k) in *.
  assert (K2 : (2 <= K)%nat) by (unfold K; lia). assert (EK : IZR k = INR K) by (unfold K; rewrite INR_IZR_INZ, Z2Nat.id by lia; reflexivity).
  assert (KP : 0 < INR K) by (apply lt_0_INR; lia).
  assert (Ec : map (fun i => (INR i + 1 / 2) * h) (seq 0 K) = centers (even_edges K)).
  { rewrite even_centers by lia. apply map_ext. intros i. unfold h. rewrite EK. field. lra. }
  assert (Ew : w = hist_counts al (even_edges K)).
  { apply nth_eq; [rewrite hist_len, even_centers_len; exact Hl|]. intros i Hi. rewrite Hl in Hi. rewrite Hw by exact Hi.
    unfold even_edges. rewrite hist_nth by auto. f_equal. apply count_if_ext. intros a _. cbn [plus]. unfold h. rewrite EK.
    destruct (Nat.eqb_spec (S i) K) as [Q|Q]; [|reflexivity]. do 2 f_equal. rewrite Q. field. lra. }
  rewrite Ec in E. subst w.
  assert (Ht : Rsum (hist_counts al (even_edges K)) = IZR (Z.of_nat (length d))).
  { rewrite even_total_all; [unfold al; rewrite map_length, INR_IZR_INZ; reflexivity|lia|].
    unfold al. apply Forall_map. exact Hd. }
  assert (Hv : valid_sample (centers (even_edges K)) (Some (hist_counts al (even_edges K)))).
  { split; [intros Z; pose proof (even_centers_len K) as L; rewrite Z in L; cbn in L; lia|]. split; [apply hist_len|]. split; [apply hist_nonneg|].
    rewrite Ht. apply IZR_lt. lia. }
  destruct (ray_p _ _ _ _ Hv Ht E) as (_ & Ep). rewrite Ep in Hp.
  assert (P : prepare al None (Some (BCount k)) = Ok {| p_alpha := centers (even_edges K); p_w := hist_counts al (even_edges K); p_grouped := true;
      p_bin := 2 * PI / INR K; p_bounds := combine (even_edges K) (tl (even_edges K)) |}).
  { unfold prepare. cbn [hist_edges]. destruct (Z.ltb_spec k 1); [lia|]. cbn [bind]. fold K. rewrite diff_even_centers by lia. reflexivity. }
  apply (circular_grouped_fails x (binned d k u) al v _ (cycle_full _ _ _ Hc) eq_refl P); cbn [p_alpha p_w]; auto.
  - apply even_centers_equi. lia.
  - rewrite even_centers_len. exact K2.
  - rewrite Ht, trunc_IZR by lia. lia.
  - rewrite Ht, trunc_IZR by lia. exact Hp.
Qed.
(** Ten observations in one of four bins. *)
Definition four : list R := map (fun i => (INR i + 1 / 2) * (2 * PI / IZR 4)) (seq 0 4).
Lemma four_ray : exists t, rayleigh_test (Some four) (Some [10; 0; 0; 0]) None None 1 [] = Ok t /\ ray_pval t < 5/100.
Proof.
  pose proof PI_RGT_0. assert (Hv : valid_sample four (Some [10; 0; 0; 0])).
  { split; [discriminate|]. split; [reflexivity|]. split; [repeat constructor; lra|]. rewrite !Rsum_cons, Rsum_nil. lra. }
  destruct (one_dir_mean _ _ (PI / 4) Hv) as (R1 & M1); [lra| | |].
  { exists 10. split; [left; unfold four; cbn [INR seq map]; f_equal; field|lra]. }
  { intros b (v & Hb & Pv). unfold four in Hb. cbn [seq map combine INR weights] in Hb. destruct Hb as [Hb|[Hb|[Hb|[Hb|[]]]]]; injection Hb as <- <-; [exists 0%Z; cbn; lra|lra|lra|lra]. }
  assert (Ht : Rsum [10; 0; 0; 0] = IZR 10) by (rewrite !Rsum_cons, Rsum_nil; lra).
  destruct (rayleigh_sample_z four (Some [10; 0; 0; 0]) 10 None 1 [] Hv) as (t & E & _); [|lia|].
  { rewrite sample_size_eq. unfold wtotal, smp. cbn [weights]. rewrite combine_snd by reflexivity. exact Ht. }
  exists t. split; [exact E|]. destruct (ray_p _ _ _ _ Hv Ht E) as (_ & ->). rewrite R1. unfold rayleigh_p.
  replace (1 + 4 * 10 + 4 * (10 ^ 2 - (10 * 1) ^ 2)) with 41 by ring.
  assert (S41 : sqrt 41 <= 7) by (rewrite <- (sqrt_square 7) by lra; apply sqrt_le_1_alt; lra).
  apply Rle_lt_trans with (exp (- (14))).
  { destruct (Req_dec (sqrt 41 - (1 + 2 * 10)) (-14)) as [->|N]; [right; f_equal; lra|left; apply exp_increasing; lra]. }
  rewrite exp_Ropp. replace 14 with (7 + 7) by lra. rewrite exp_plus. pose proof (exp_ineq1 7 ltac:(lra)).
  apply Rle_lt_trans with (/ 64); [apply Rinv_le_contravar; nra|lra].
Qed.
Lemma count_repeat {A} (p : A -> bool) a n : count_if p (repeat a n) = if p a then n else 0%nat.
Proof. unfold count_if. induction n as [|n IH]; [destruct (p a); reflexivity|]. cbn [repeat filter]. destruct (p a); cbn [length]; rewrite IH; reflexivity. Qed.
Lemma four_fails x : circular x (binned (repeat 1 10) 4 "radian") = Err ValueError.
Proof.
  pose proof PI2_3_2. pose proof PI_4. pose proof PI_RGT_0. destruct four_ray as (t & E & Hp).
  assert (A1 : angle_of (2 * PI) 1 = 1) by (unfold angle_of; field; lra).
  apply (binned_fails x (repeat 1 10) 4 "radian" (2 * PI) [10; 0; 0; 0] t); auto.
  - right. left. split; reflexivity.
  - lia.
  - apply Forall_forall. intros y Hy. apply repeat_spec in Hy. subst y. rewrite A1. lra.
  - rewrite repeat_length. lia.
  - rewrite repeat_map, A1. intros i Hi. rewrite count_repeat. change (Z.to_nat 4) with 4%nat in *.
    destruct i as [|[|[|[|i]]]]; [| | | |lia]; cbn [nth INR Nat.eqb];
    match goal with |- context [Rleb ?y ?z] => destruct (Rleb_spec y z); try (exfalso; lra) end; cbn [andb INR]; try lra.
    destruct (Rltb_spec 1 (1 * (2 * PI / 4))); [|exfalso; lra]. cbn [INR]. lra.
Qed.
