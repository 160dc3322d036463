From Verif Require Import Prelude NpModel NpProofs CircleSpec UtilsModel UtilsProofs DescModel DescProofs
  DescSpec DescApi DescApi2 Desc2Model Desc2Proofs Desc2Spec ArcProofs Desc3Proofs Desc4Proofs Desc7Proofs Desc2Ex HypModel HypProofs
  BaseModel BaseSpec BaseProofs Base2Proofs Base3Proofs Base4Proofs.
Open Scope string_scope.
Open Scope R_scope.

(** * Building an object *)
Lemma circular_run x g c a0 p : full_cycle_of (a_unit g) (a_cycle g) = Ok c ->
  to_alpha (a_data g) c (a_rotate g) = Ok a0 -> prepare a0 (a_w g) (a_bins g) = Ok p ->
  (0 < trunc (Rsum (p_w p)))%Z -> 0 <= circ_r (p_alpha p) (Some (p_w p)) <= 1 ->
  exists kappa ray s s0, ray_pval ray = rayleigh_p (IZR (trunc (Rsum (p_w p)))) (circ_r (p_alpha p) (Some (p_w p))) /\
  circular x g =
    (let n := trunc (Rsum (p_w p)) in
     let r := circ_r (p_alpha p) (Some (p_w p)) in
     let m := fst (circ_mean_and_r (p_alpha p) (Some (p_w p))) in
     let '(method, level, after) := choose_ci (a_mean_ci g) (ray_pval ray) n in
     do ci <- match method with
              | Some me => if Rltb (ray_pval ray) (5/100)
                           then mean_ci x (p_alpha p) (p_w p) m r (IZR n) me else Ok None
              | None => Ok None
              end;
     do med <- circ_median (p_alpha p) (Some (p_w p)) (km_method (a_median g)) (km_average (a_median g))
                           (km_average_method (a_median g));
     do mci <- (if p_grouped p then Ok None
                else match med with
                     | MNaN => Ok None
                     | MOne m => do c <- circ_median_ci (p_alpha p) m (x_z x); Ok (Some c)
                     | MMany _ => Err ValueError
                     end);
     Ok ({| o_cycle := c; o_data := a_data g; o_alpha := p_alpha p; o_w := p_w p;
         o_grouped := p_grouped p; o_bin_size := p_bin p; o_bounds := p_bounds p;
         o_n := n; o_mean := m; o_r := r; o_pval := ray_pval ray; o_R := IZR n * r;
         o_kappa := kappa; o_method := method; o_level := level; o_mean_ci := ci;
         o_s := s; o_s0 := s0; o_median := med; o_median_ci := mci |}, after)).
Proof.
  intros E1 E2 E3 Hn Hr. set (n := trunc _) in *. set (r := circ_r _ _) in *.
  destruct (rayleigh_given r n 1 [] None None ltac:(lia) Hn Hr) as (ray & Ey & _ & _ & Ep).
  assert (K : exists v, match circ_kappa r (Some (IZR n)) with Err ZeroDivisionError => Ok 0 | other => other end = Ok v).
  { unfold circ_kappa. destruct (_ && _); [|eexists; reflexivity]. destruct (Rltb _ _); [|eexists; reflexivity].
    destruct (Reqb _ _); eexists; reflexivity. }
  destruct K as (kp & Ek).
  assert (S1 : exists s, angular_std None None (Some r) (Some (p_bin p)) = Ok s) by (eexists; reflexivity).
  assert (S2 : exists s, circ_std None None (Some r) (Some (p_bin p)) = Ok s) by (eexists; reflexivity).
  destruct S1 as (s & S1). destruct S2 as (s0 & S2).
  exists kp, ray, s, s0. split; [exact Ep|]. unfold circular. rewrite E1. cbn [bind]. rewrite E2. cbn [bind]. rewrite E3. cbn [bind].
  cbv zeta. rewrite mr_snd. fold r n. rewrite Ey. cbn [bind]. rewrite Ek. cbn [bind].
  destruct (choose_ci _ _ _) as [[me le] af]. rewrite S1, S2. cbn [bind]. reflexivity.
Qed.
(** A sample whose observations all point the same way, of fewer than 8. *)
Lemma one_dir_mean alpha w a : valid_sample alpha (Some w) -> 0 <= a < 2 * PI -> observed alpha (Some w) a ->
  (forall b, observed alpha (Some w) b -> same_dir b a) ->
  circ_r alpha (Some w) = 1 /\ fst (circ_mean_and_r alpha (Some w)) = Fin a.
Proof.
  intros Hv Ha Ho Hs. assert (R1 : circ_r alpha (Some w) = 1).
  { apply circ_r_one; auto. intros b b' H H'. apply same_dir_trans with a; [apply Hs; auto|apply same_dir_sym, Hs; auto]. }
  split; [exact R1|]. set (s := smp alpha (Some w)). change (circ_r_s s = 1) in R1.
  change (fst (circ_mean_and_r_s s) = Fin a).
  destruct (circ_mean_and_r_s_cases s) as [(C & _)|(_ & ->)].
  { rewrite R1 in C. assert (/ 1000000000000 < 1) by (rewrite <- Rinv_1; apply Rinv_lt_contravar; lra). lra. }
  cbn [fst]. f_equal. pose proof (smp_pos _ _ Hv) as P. fold s in P.
  assert (D : forall z, In z s -> 0 < snd z -> same_dir (fst z) a).
  { intros [b v] Hz Hp. apply Hs. apply observed_smp. exists v. auto. }
  assert (CS : Csum s = wtotal s * cos a /\ Ssum s = wtotal s * sin a).
  { pose proof (smp_posw _ _ Hv) as Q. fold s in Q. unfold Csum, Ssum, wtotal. revert D Q. clear. induction s as [|[b v] t IH]; intros D Q.
    - cbn. split; ring.
    - cbn [map]. rewrite !Rsum_cons. destruct IH as (I1 & I2).
      { intros z Hz. apply D. now right. } { intros z Hz. apply Q. now right. }
      rewrite I1, I2. cbn [fst snd].
      destruct (Req_dec v 0) as [->|N]; [split; ring|].
      assert (0 < v) by (specialize (Q (b, v) (or_introl eq_refl)); cbn in Q; lra).
      pose proof (D (b, v) (or_introl eq_refl) H) as E. cbn in E. rewrite (same_dir_cos _ _ E), (same_dir_sin _ _ E). split; ring. }
  assert (L : Rlen s = wtotal s).
  { rewrite circ_r_s_eq in R1 by auto. apply (f_equal (fun z => z * wtotal s)) in R1. unfold Rdiv in R1. rewrite Rmult_assoc, Rinv_l in R1 by lra. lra. }
  assert (M : same_dir (mean_dir s) a).
  { apply mean_dir_unique; auto; [lra| |]; rewrite L; apply CS. }
  rewrite <- (angmod0_unique (mean_dir s) (mean_dir s)); [|apply mean_dir_range|exists 0%Z; cbn; lra].
  apply angmod0_unique; [exact Ha|apply same_dir_sym, M].
Qed.
Lemma isclose12_1 : isclose12 1 1 = true.
Proof. unfold isclose12, isclose_tol. replace (1 - 1) with 0 by ring. rewrite Rabs_R0, Rabs_R1. destruct (Rleb_spec 0 (/ 1000000000000 + / 100000 * 1)) as [|L]; [reflexivity|]. exfalso.
  assert (0 < / 1000000000000) by (apply Rinv_0_lt_compat; lra). assert (0 < / 100000) by (apply Rinv_0_lt_compat; lra). lra. Qed.
Lemma one_dir_median alpha w a0 t m b am : alpha = a0 :: t -> circ_r alpha (Some w) = 1 -> circ_median alpha (Some w) m b am = Ok (MOne a0).
Proof.
  intros -> R1. unfold circ_median. cbn [weights]. change (circ_r_s (combine (a0 :: t) w) = 1) in R1. rewrite R1, isclose12_1. reflexivity.
Qed.
Lemma choose_small p n : (n < 8)%Z -> choose_ci None p n = (None, NaN, None).
Proof.
  intros H. unfold choose_ci. destruct (Z.leb_spec 8 n); [lia|]. destruct (Z.leb_spec 25 n); [lia|].
  rewrite Bool.andb_false_r. cbn [andb]. rewrite Bool.andb_false_r. reflexivity.
Qed.
Lemma median_ci_15 alpha m z : (length alpha <= 15)%nat -> exists c, circ_median_ci alpha m z = Ok c.
Proof.
  intros H. destruct (median_ci_small alpha m z H) as (A & B). destruct (Nat.lt_ge_cases (length alpha) 3) as [L|L].
  - rewrite A by auto. eauto.
  - destruct (B L) as (lo & up & E & _). rewrite E. eauto.
Qed.
Lemma repeat_map {A B} (f : A -> B) a n : map f (repeat a n) = repeat (f a) n.
Proof. induction n; cbn; [reflexivity|]. now rewrite IHn. Qed.
Lemma observed_repeat a n b : observed (repeat a n) (Some (ones (repeat a n))) b -> b = a.
Proof.
  intros (v & H & _). cbn [eff_weights] in H. apply in_combine_l in H. apply repeat_spec in H. exact H.
Qed.
(** Ungrouped, fewer than 8 observations, all at the same angle. *)
Lemma plain_one x g c a n : full_cycle_of (a_unit g) (a_cycle g) = Ok c ->
  to_alpha (a_data g) c (a_rotate g) = Ok (repeat a n) -> a_w g = None -> a_bins g = None ->
  a_mean_ci g = None -> 0 <= a < 2 * PI -> (1 <= n < 8)%nat ->
  exists o, circular x g = Ok (o, None) /\ o_n o = Z.of_nat n /\ o_r o = 1 /\ o_mean o = Fin a /\ o_median o = MOne a /\
    o_cycle o = c /\ o_alpha o = repeat a n.
Proof.
  intros E1 E2 Ew Eb Ek Ha Hn.
  assert (E3 : prepare (repeat a n) (a_w g) (a_bins g) = Ok {| p_alpha := repeat a n; p_w := ones (repeat a n); p_grouped := false; p_bin := 0; p_bounds := [] |}).
  { rewrite Ew, Eb. reflexivity. }
  assert (Hv : valid_sample (repeat a n) (Some (ones (repeat a n)))) by (apply ones_valid; destruct n; [lia|discriminate]).
  destruct (one_dir_mean _ _ a Hv Ha) as (R1 & M1).
  { exists 1. destruct n as [|n]; [lia|]. cbn. split; [left; reflexivity|lra]. }
  { intros b Hb. apply observed_repeat in Hb. subst b. exists 0%Z. cbn. lra. }
  destruct (circular_run x g c _ _ E1 E2 E3) as (kp & ray & s & s0 & _ & ->); cbn [p_alpha p_w p_grouped p_bin p_bounds].
  - rewrite ones_total, repeat_length, trunc_INR. lia.
  - rewrite R1. lra.
  - rewrite ones_total, repeat_length, trunc_INR. cbv zeta. rewrite Ek, choose_small by lia. cbn [bind].
    destruct n as [|n]; [lia|]. rewrite (one_dir_median _ _ a (repeat a n) _ _ _ eq_refl R1). cbn [bind].
    destruct (median_ci_15 (repeat a (S n)) a (x_z x)) as (mc & ->); [rewrite repeat_length; lia|]. cbn [bind].
    eexists. split; [reflexivity|]. cbn [o_n o_r o_mean o_median o_cycle o_alpha]. auto 10.
Qed.
(** C70: the median stays on the doubled scale. *)
Lemma axial_median_double x d n : 0 <= d < 180 -> (1 <= n < 8)%nat -> exists a,
  axial x (plain (repeat d n) "degree") = Ok (a, None) /\ o_mean a = Fin (angle_of 360 d) /\
  o_median a = MOne (2 * angle_of 360 d).
Proof.
  intros Hd Hn. unfold axial. cbn [a_data a_unit a_cycle plain double_data unit_cycle]. cbn -[circular repeat].
  rewrite repeat_map, pymod_small by lra. pose proof PI_RGT_0.
  set (g := {| a_data := _ |}).
  destruct (plain_one x g 360 (2 * angle_of 360 d) n) as (o & E & O1 & O2 & O3 & O4 & O5 & O6); try reflexivity; auto.
  - unfold to_alpha. cbn [a_data a_rotate g]. rewrite repeat_map. do 2 f_equal. unfold data2rad, angle_of. field.
  - unfold angle_of. split.
    + apply Rmult_le_pos; [lra|]. apply Rmult_le_pos; [nra|lra].
    + replace (2 * (2 * PI * d / 360)) with (2 * PI * (d / 180)) by field. nra.
  - rewrite E. cbn. rewrite O3, O4. eexists. split; [reflexivity|]. cbn. split; [f_equal; field|reflexivity].
Qed.
