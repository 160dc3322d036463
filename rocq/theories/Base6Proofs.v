From Verif Require Import Prelude NpModel NpProofs CircleSpec UtilsModel UtilsProofs DescModel DescProofs
  DescSpec DescApi DescApi2 Desc2Model Desc2Proofs Desc2Spec ArcProofs Desc3Proofs Desc4Proofs Desc7Proofs Desc2Ex HypModel HypProofs
  BaseModel BaseSpec BaseProofs Base2Proofs Base3Proofs Base4Proofs Base5Proofs.
Open Scope string_scope.
Open Scope R_scope.

(** * C158: an explicit full_cycle *)
Definition days (d : R) : args := with_unit (plain [d] "degree") [d] "degree" (Some 365).
Lemma days_axial x d e : 0 <= e < 365 -> pymod (2 * d) 360 = e ->
  exists a, axial x (days d) = Ok (a, None) /\ o_mean a = Fin (angle_of 365 (e / 2)).
Proof.
  intros He Ed. pose proof PI_RGT_0. unfold axial, days. cbn -[circular]. rewrite Ed.
  set (g := {| a_data := _ |}).
  destruct (plain_one x g 365 (angle_of 365 e) 1) as (o & E & _ & _ & O3 & _ & O5 & _); try reflexivity; [|lia|].
  - unfold angle_of. split; [apply Rmult_le_pos; [nra|lra]|]. replace (2 * PI * e / 365) with (2 * PI * (e / 365)) by field. nra.
  - rewrite E. cbn. rewrite O3. eexists. split; [reflexivity|]. cbn. f_equal. unfold angle_of. field.
Qed.
Lemma full_cycle_axial_wrong x : exists a a', axial x (days 200) = Ok (a, None) /\
  axial x (days (200 - 365 / 2)) = Ok (a', None) /\
  o_mean a = Fin (angle_of 365 20) /\ o_mean a' = Fin (angle_of 365 (200 - 365 / 2)) /\ o_mean a <> o_mean a'.
Proof.
  destruct (days_axial x 200 40) as (a & Ea & Ma); [lra| |].
  { replace (2 * 200) with (40 + 360 * IZR 1) by lra. rewrite pymod_add by lra. apply pymod_small. lra. }
  destruct (days_axial x (200 - 365 / 2) 35) as (a' & Ea' & Ma'); [lra| |].
  { replace (2 * (200 - 365 / 2)) with 35 by lra. apply pymod_small. lra. }
  exists a, a'. split; [exact Ea|]. split; [exact Ea'|]. replace (40 / 2) with 20 in Ma by lra.
  replace (35 / 2) with (200 - 365 / 2) in Ma' by lra. split; [exact Ma|]. split; [exact Ma'|].
  rewrite Ma, Ma'. intros E. injection E as E. unfold angle_of in E. pose proof PI_RGT_0. lra.
Qed.

(** * C159, C160: bins *)
Lemma binned_object x g k o k' v : a_bins g = Some (BCount k) -> cycle_of (a_unit g) (a_cycle g) v -> a_rotate g = None ->
  circular x g = Ok (o, k') ->
  let alpha := map (angle_of v) (a_data g) in
  let h := 2 * PI / IZR k in
  (2 <= k)%Z /\ o_grouped o = true /\ o_bin_size o = h /\
  o_alpha o = map (fun i => (INR i + 1 / 2) * h) (seq 0 (Z.to_nat k)) /\
  o_bounds o = map (fun i => (INR i * h, INR (S i) * h)) (seq 0 (Z.to_nat k)) /\
  length (o_w o) = Z.to_nat k /\
  (forall i, (i < Z.to_nat k)%nat -> nth i (o_w o) 0 =
     INR (count_if (fun a => Rleb (INR i * h) a &&
                             (if Nat.eqb (S i) (Z.to_nat k) then Rleb a (2 * PI) else Rltb a (INR (S i) * h))) alpha)) /\
  o_n o = Z.of_nat (count_if (fun a => Rleb 0 a && Rleb a (2 * PI)) alpha).
Proof.
  intros Eb Hc Er E. cbv zeta. destruct (circular_inv _ _ _ _ E) as (p & a0 & I1 & I2 & I3 & _ & I5 & I6 & I7 & I8 & I9 & I10 & _).
  rewrite (cycle_full _ _ _ Hc) in I1. injection I1 as I1. rewrite <- I1, Er in I2. cbn in I2. injection I2 as <-.
  rewrite Eb in I3. destruct (prepare_count _ _ _ _ I3) as (P1 & P2 & P3 & P4 & P5 & P6).
  change (map (fun y => data2rad y v) (a_data g)) with (map (angle_of v) (a_data g)) in *.
  set (al := map (angle_of v) (a_data g)) in *. set (K := Z.to_nat k) in *.
  assert (EK : IZR k = INR K) by (unfold K; rewrite INR_IZR_INZ, Z2Nat.id by lia; reflexivity).
  assert (K2 : (2 <= K)%nat) by (unfold K; lia). assert (0 < INR K) by (apply lt_0_INR; lia).
  rewrite I5, I6, I7, I8, I9, I10, P2, P3, P4, P5, P6, EK.
  split; [exact P1|]. split; [reflexivity|]. split; [reflexivity|].
  split. { rewrite even_centers by lia. apply map_ext. intros i. field. lra. }
  split. { apply even_pairs. }
  split. { rewrite hist_len. apply even_centers_len. }
  split.
  - intros i Hi. unfold even_edges. rewrite hist_nth by auto. f_equal. apply count_if_ext. intros a _. cbn [plus].
    destruct (Nat.eqb_spec (S i) K) as [Q|Q]; [|reflexivity]. do 2 f_equal. rewrite Q. field. lra.
  - rewrite even_total by lia. apply trunc_INR.
Qed.
Lemma binned_all x g k o k' v : a_bins g = Some (BCount k) -> cycle_of (a_unit g) (a_cycle g) v -> a_rotate g = None ->
  circular x g = Ok (o, k') -> Forall (fun d => 0 <= angle_of v d <= 2 * PI) (a_data g) ->
  o_n o = Z.of_nat (length (a_data g)) /\
  Rabs (o_r o - circ_r (map (angle_of v) (a_data g)) None) <= PI / IZR k.
Proof.
  intros Eb Hc Er E F. destruct (binned_object _ _ _ _ _ _ Eb Hc Er E) as (K2 & _ & _ & _ & _ & _ & _ & N).
  assert (F' : Forall (fun a => 0 <= a <= 2 * PI) (map (angle_of v) (a_data g))).
  { apply Forall_forall. intros a Ha. apply in_map_iff in Ha. destruct Ha as (d & <- & Hd). rewrite Forall_forall in F. apply F, Hd. }
  split.
  - rewrite N. f_equal. rewrite count_all; [apply map_length|]. intros a Ha. rewrite Forall_forall in F'. specialize (F' a Ha).
    destruct (Rleb_spec 0 a); [|lra]. destruct (Rleb_spec a (2 * PI)); [|lra]. reflexivity.
  - destruct (circular_inv _ _ _ _ E) as (p & a0 & I1 & I2 & I3 & _ & I5 & I6 & _ & _ & _ & I10 & _ & I12 & I13 & _).
    rewrite (cycle_full _ _ _ Hc) in I1. injection I1 as I1. rewrite <- I1, Er in I2. cbn in I2. injection I2 as <-.
    rewrite Eb in I3. destruct (prepare_count _ _ _ _ I3) as (P1 & P2 & P3 & _).
    rewrite I12, P2, P3. change (map (fun y => data2rad y v) (a_data g)) with (map (angle_of v) (a_data g)) in *.
    replace (IZR k) with (INR (Z.to_nat k)) by (rewrite INR_IZR_INZ, Z2Nat.id by lia; reflexivity).
    apply binned_r; [lia| |exact F'].
    intros Z. rewrite N, Z in I13. cbn in I13. lia.
Qed.
(** An observation below angle 0 is dropped. *)
Lemma count_none {A} (p : A -> bool) l : (forall a, In a l -> p a = false) -> count_if p l = 0%nat.
Proof.
  unfold count_if. induction l as [|a t IH]; intros H; [reflexivity|]. cbn [filter]. rewrite (H a (or_introl eq_refl)).
  apply IH. intros b Hb. apply H. now right.
Qed.
Lemma binned_drops x : exists o, circular x (binned [-1; 1] 2 "radian") = Ok (o, None) /\ o_n o = 1%Z /\
  same_dir (-1) (2 * PI - 1) /\ o_w o = [1; 0].
Proof.
  pose proof PI2_3_2. pose proof PI_4. pose proof PI_RGT_0. set (g := binned [-1; 1] 2 "radian").
  assert (Ea : to_alpha (a_data g) (2 * PI) (a_rotate g) = Ok [-1; 1]).
  { cbn. unfold data2rad. do 2 f_equal; [field; lra|]. f_equal. field. lra. }
  assert (Ee : even_edges 2 = [0; PI; 2 * PI]).
  { unfold even_edges. cbn [seq map INR]. f_equal; [ring|]. f_equal; [field|]. f_equal. field. }
  assert (Ec : centers (even_edges 2) = [PI / 2; 3 * PI / 2]).
  { rewrite Ee. cbn [centers]. f_equal; [field|]. f_equal. field. }
  assert (Ew : hist_counts [-1; 1] (even_edges 2) = [1; 0]).
  { rewrite Ee. rewrite !hist_step. unfold count_if. cbn [filter].
    destruct (Rleb_spec 0 (-1)); [lra|]. destruct (Rleb_spec 0 1); [|lra]. destruct (Rltb_spec 1 PI); [|lra].
    destruct (Rleb_spec PI (-1)); [lra|]. destruct (Rleb_spec PI 1); [lra|]. reflexivity. }
  assert (Ep : prepare [-1; 1] (a_w g) (a_bins g) = Ok {| p_alpha := [PI / 2; 3 * PI / 2]; p_w := [1; 0]; p_grouped := true; p_bin := PI;
      p_bounds := combine [0; PI; 2 * PI] [PI; 2 * PI] |}).
  { unfold prepare. cbn [g binned a_bins a_w hist_edges]. cbn [Z.ltb Z.compare]. change (Z.to_nat 2) with 2%nat. change (2 <? 1)%Z with false. cbn [bind].
    rewrite Ec, Ew, Ee. cbn [diff list_min tl]. replace (3 * PI / 2 - PI / 2) with PI by field. reflexivity. }
  assert (Hv : valid_sample [PI / 2; 3 * PI / 2] (Some [1; 0])).
  { split; [discriminate|]. split; [reflexivity|]. split; [repeat constructor; lra|]. rewrite !Rsum_cons, Rsum_nil. lra. }
  destruct (one_dir_mean _ _ (PI / 2) Hv) as (R1 & M1); [lra| | |].
  { exists 1. split; [left; reflexivity|lra]. }
  { intros b (v & Hb & Pv). cbn in Hb. destruct Hb as [Hb|[Hb|[]]]; injection Hb as <- <-; [exists 0%Z; cbn; lra|lra]. }
  destruct (circular_run x g (2 * PI) _ _ eq_refl Ea Ep) as (kp & ray & s & s0 & _ & ->); cbn [p_alpha p_w p_grouped p_bin p_bounds].
  - rewrite !Rsum_cons, Rsum_nil. replace (1 + (0 + 0)) with (IZR 1) by lra. rewrite trunc_IZR; lia.
  - rewrite R1. lra.
  - assert (T : trunc (Rsum [1; 0]) = 1%Z) by (rewrite !Rsum_cons, Rsum_nil; replace (1 + (0 + 0)) with (IZR 1) by lra; apply trunc_IZR; lia).
    rewrite T. cbv zeta. cbn [g binned a_mean_ci]. rewrite choose_small by lia. cbn [bind].
    rewrite (one_dir_median _ _ (PI / 2) [3 * PI / 2] _ _ _ eq_refl R1). cbn [bind].
    eexists. split; [reflexivity|]. cbn [o_n o_w]. split; [reflexivity|]. split; [exists (-1)%Z; lra|reflexivity].
Qed.

(** * C163: weights with a fractional total *)
Lemma fractional_total x : exists o, circular x (weighted [0; 180] [3/2; 0] "degree") = Ok (o, None) /\
  o_n o = 1%Z /\ o_R o = 1 /\ wsum cos (o_alpha o) (o_w o) = 3/2 /\ wsum sin (o_alpha o) (o_w o) = 0.
Proof.
  pose proof PI_RGT_0. set (g := weighted [0; 180] [3/2; 0] "degree").
  assert (Ea : to_alpha (a_data g) 360 (a_rotate g) = Ok [0; PI]).
  { cbn. unfold data2rad. do 2 f_equal; [field|]. f_equal. field. }
  assert (Ep : prepare [0; PI] (a_w g) (a_bins g) = Ok {| p_alpha := [0; PI]; p_w := [3/2; 0]; p_grouped := true; p_bin := PI;
      p_bounds := map (fun a => (a - PI / 2, a + PI / 2)) [0; PI] |}).
  { unfold prepare. cbn [g weighted a_bins a_w List.length Nat.eqb negb diff list_min bind]. change (Rlmin (PI - 0) []) with (PI - 0). rewrite Rminus_0_r. reflexivity. }
  assert (Hv : valid_sample [0; PI] (Some [3/2; 0])).
  { split; [discriminate|]. split; [reflexivity|]. split; [repeat constructor; lra|]. rewrite !Rsum_cons, Rsum_nil. lra. }
  destruct (one_dir_mean _ _ 0 Hv) as (R1 & M1); [lra| | |].
  { exists (3/2). split; [left; reflexivity|lra]. }
  { intros b (v & Hb & Pv). cbn in Hb. destruct Hb as [Hb|[Hb|[]]]; injection Hb as <- <-; [exists 0%Z; cbn; lra|lra]. }
  assert (T : trunc (Rsum [3/2; 0]) = 1%Z).
  { rewrite !Rsum_cons, Rsum_nil. unfold trunc. destruct (Rltb_spec (3 / 2 + (0 + 0)) 0); [lra|]. apply Rfloor_unique. lra. }
  destruct (circular_run x g 360 _ _ eq_refl Ea Ep) as (kp & ray & s & s0 & _ & ->); cbn [p_alpha p_w p_grouped p_bin p_bounds].
  - rewrite T. lia.
  - rewrite R1. lra.
  - rewrite T. cbv zeta. cbn [g weighted a_mean_ci]. rewrite choose_small by lia. cbn [bind].
    rewrite (one_dir_median _ _ 0 [PI] _ _ _ eq_refl R1). cbn [bind].
    eexists. split; [reflexivity|]. cbn [o_n o_R o_alpha o_w wsum]. rewrite R1, cos_0, sin_0. repeat split; lra.
Qed.
(** With a whole total the sample size is the total, R the length of the resultant and
    the p-value that of rayleigh_test on the same sample. *)
Lemma whole_total x g o k n t : circular x g = Ok (o, k) -> Forall (fun v => 0 <= v) (o_w o) ->
  length (o_w o) = length (o_alpha o) -> Rsum (o_w o) = IZR n ->
  rayleigh_test (Some (o_alpha o)) (Some (o_w o)) None None 1 [] = Ok t ->
  o_n o = n /\ o_R o = sqrt (wsum cos (o_alpha o) (o_w o) ^ 2 + wsum sin (o_alpha o) (o_w o) ^ 2) /\
  o_pval o = ray_pval t /\ o_r o = ray_r t.
Proof.
  intros E Hw Hl Ht Et. destruct (circular_inv _ _ _ _ E) as (p & a0 & _ & _ & _ & _ & I5 & I6 & _ & _ & _ & I10 & _ & I12 & I13 & I14 & I15 & I16 & _).
  rewrite I5, I6 in *.
  assert (Nn : (0 < n)%Z).
  { rewrite I10, Ht in I13. destruct (Z.le_gt_cases n 0) as [L|L]; [|lia]. apply IZR_le in L.
    unfold trunc in I13. destruct (Rltb_spec (IZR n) 0); [|rewrite Rfloor_IZR in I13; lia].
    rewrite <- opp_IZR, Rfloor_IZR in I13. lia. }
  assert (On : o_n o = n) by (rewrite I10, Ht; apply trunc_IZR; lia).
  assert (Hv : valid_sample (p_alpha p) (Some (p_w p))).
  { assert (0 < Rsum (p_w p)) by (rewrite Ht; apply IZR_lt; lia). split; [|repeat split; auto].
    intros Z. rewrite Z in Hl. destruct (p_w p); [rewrite Rsum_nil in *; lra|discriminate]. }
  split; [exact On|].
  assert (P : 0 < IZR n) by (apply IZR_lt; lia).
  assert (Tot : wtotal (smp (p_alpha p) (Some (p_w p))) = IZR n).
  { unfold wtotal, smp. cbn [weights]. rewrite combine_snd by (symmetry; exact Hl). exact Ht. }
  split.
  - rewrite I16, On, I12. unfold circ_r. fold (smp (p_alpha p) (Some (p_w p))). rewrite circ_r_s_eq by lra. rewrite Tot.
    replace (IZR n * (Rlen (smp (p_alpha p) (Some (p_w p))) / IZR n)) with (Rlen (smp (p_alpha p) (Some (p_w p)))) by (field; lra).
    unfold Rlen, Csum, Ssum, smp. cbn [weights]. rewrite !wsum_eq. f_equal. ring.
  - rewrite (rayleigh_sample _ _ n None 1 [] Hv) in Et.
    + destruct (rayleigh_given (circ_r (p_alpha p) (Some (p_w p))) n 1 [] None None ltac:(lia) Nn (circ_r_range _ _ Hv)) as (t' & E' & Q1 & _ & Q3).
      rewrite Et in E'. injection E' as <-. rewrite Q1, Q3, I15, On, I12. auto.
    + rewrite sample_size_eq. exact Tot.
Qed.
