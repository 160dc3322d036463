From Verif Require Import Prelude NpModel NpProofs CircleSpec UtilsModel UtilsProofs DescModel DescProofs
  DescSpec DescApi DescApi2 Desc2Model ArcProofs HypModel HypProofs BaseModel BaseSpec BaseProofs Base2Proofs Base3Proofs.
Open Scope string_scope.
Open Scope R_scope.

(** * The object depends on the data only through the angles *)
Lemma same_refl o : same_report o o.
Proof. unfold same_report. repeat (split; [reflexivity|]). reflexivity. Qed.
Lemma circular_alpha x g g' c c' a : full_cycle_of (a_unit g) (a_cycle g) = Ok c ->
  full_cycle_of (a_unit g') (a_cycle g') = Ok c' ->
  to_alpha (a_data g) c (a_rotate g) = a -> to_alpha (a_data g') c' (a_rotate g') = a ->
  a_w g = a_w g' -> a_bins g = a_bins g' -> a_median g = a_median g' -> a_mean_ci g = a_mean_ci g' ->
  same_outcome (circular x g) (circular x g').
Proof.
  intros E1 E2 E3 E4 Ew Eb Em Ek. unfold circular. rewrite E1, E2, <- Ew, <- Eb, <- Em, <- Ek. cbn [bind]. rewrite E3, E4.
  destruct a as [a|e]; [|reflexivity]. cbn [bind].
  destruct (prepare _ _ _) as [p|e]; [|reflexivity]. cbn [bind].
  destruct (rayleigh_test _ _ _ _ _ _) as [ray|e]; [|reflexivity]. cbn [bind].
  destruct (match circ_kappa _ _ with Ok _ => _ | Err _ => _ end) as [kp|e]; [|reflexivity]. cbn [bind].
  destruct (choose_ci _ _ _) as [[me le] af].
  destruct (match me with Some _ => _ | None => _ end) as [ci|e]; [|reflexivity]. cbn [bind].
  destruct (angular_std _ _ _ _) as [s|e]; [|reflexivity]. cbn [bind].
  destruct (circ_std _ _ _ _) as [s0|e]; [|reflexivity]. cbn [bind].
  destruct (circ_median _ _ _ _ _) as [med|e]; [|reflexivity]. cbn [bind].
  destruct (if p_grouped p then _ else _) as [mci|e]; [|reflexivity]. cbn [bind].
  split; [|reflexivity]. unfold same_report. cbn. repeat (split; [reflexivity|]). reflexivity.
Qed.
Lemma cycle_full u c v : cycle_of u c v -> full_cycle_of u c = Ok v.
Proof.
  unfold cycle_of, full_cycle_of. destruct c as [c|]; [intros ->; reflexivity|].
  intros [[-> ->]|[[-> ->]|[-> ->]]]; reflexivity.
Qed.
Lemma cycle_iff u c v : full_cycle_of u c = Ok v -> cycle_of u c v.
Proof.
  unfold cycle_of, full_cycle_of, unit_cycle. destruct c as [c|]; [intros E; now injection E as <-|].
  destruct (String.eqb_spec u "degree"); [intros E; injection E as <-; auto|].
  destruct (String.eqb_spec u "radian"); [intros E; injection E as <-; auto|].
  destruct (String.eqb_spec u "hour"); [intros E; injection E as <-; auto|discriminate].
Qed.
(** C161 *)
Lemma unit_free x g u' c' v v' : cycle_of (a_unit g) (a_cycle g) v -> cycle_of u' c' v' -> v <> 0 -> v' <> 0 ->
  same_outcome (circular x g) (circular x (with_unit g (map (fun d => d * v' / v) (a_data g)) u' c')).
Proof.
  intros H H' Nv Nv'. eapply circular_alpha with (c := v) (c' := v'); try reflexivity; [apply cycle_full; exact H|apply cycle_full; exact H'|].
  cbn [a_data a_rotate with_unit]. unfold to_alpha. rewrite map_map.
  replace (map (fun y => data2rad (y * v' / v) v') (a_data g)) with (map (fun y => data2rad y v) (a_data g)); [reflexivity|].
  apply map_ext. intros d. unfold data2rad. field; auto.
Qed.
Lemma unit_unknown x g : a_cycle g = None -> a_unit g <> "degree" -> a_unit g <> "radian" -> a_unit g <> "hour" ->
  circular x g = Err ValueError.
Proof.
  intros E N1 N2 N3. unfold circular, full_cycle_of, unit_cycle. rewrite E.
  destruct (String.eqb_spec (a_unit g) "degree"); [contradiction|].
  destruct (String.eqb_spec (a_unit g) "radian"); [contradiction|].
  destruct (String.eqb_spec (a_unit g) "hour"); [contradiction|]. reflexivity.
Qed.

(** * Axial *)
(** The modulus of the doubling is the cycle in force. *)
Lemma axial_same x g d' : double_data (a_data g) (a_unit g) (a_cycle g) = double_data d' (a_unit g) (a_cycle g) ->
  same_outcome (axial x g) (axial x (with_data g d')).
Proof.
  intros E. unfold axial. cbn [a_data a_unit a_cycle a_w a_bins a_rotate a_median a_mean_ci with_data]. rewrite <- E.
  destruct (double_data _ _ _) as [d|e]; [|reflexivity]. cbn [bind].
  destruct (circular x _) as [[o k]|e]; [|reflexivity]. cbn.
  split; [|reflexivity]. unfold same_report. cbn. repeat (split; [reflexivity|]). reflexivity.
Qed.
Lemma unit_cases u : (exists m, unit_cycle u = Some m /\ 0 < m /\ cycle_of u None m) \/
  (unit_cycle u = None /\ u <> "degree" /\ u <> "radian" /\ u <> "hour").
Proof.
  unfold unit_cycle, cycle_of. destruct (String.eqb_spec u "degree"); [left; exists 360; split; [reflexivity|split; [lra|auto]]|].
  destruct (String.eqb_spec u "radian"); [left; exists (2 * PI); split; [reflexivity|split; [apply PI2_pos|auto]]|].
  destruct (String.eqb_spec u "hour"); [left; exists 24; split; [reflexivity|split; [lra|auto]]|]. right. auto.
Qed.
Lemma double_flip v data ks : 0 < v -> length ks = length data ->
  map (fun d => pymod (2 * d) v) data = map (fun d => pymod (2 * d) v) (map2 (fun d k => d + IZR k * (v / 2)) data ks).
Proof.
  intros Hv. revert ks. unfold map2. induction data as [|d t IH]; intros [|k ks]; cbn [List.length]; try discriminate; [reflexivity|].
  intros E. cbn [combine map fst snd]. f_equal; [|apply IH; lia].
  replace (2 * (d + IZR k * (v / 2))) with (2 * d + v * IZR k) by field. rewrite pymod_add by auto. reflexivity.
Qed.
Lemma modulus_double u c v data : modulus_is_cycle u c v -> double_data data u c = Ok (map (fun d => pymod (2 * d) v) data).
Proof.
  intros (H & D). unfold double_data. destruct (unit_cases u) as [(m & E & Pm & Cm)|(E & N)]; rewrite E.
  - assert (U : forall a b, cycle_of u None a -> cycle_of u None b -> a = b).
    { intros a b Ha Hb. apply cycle_full in Ha. apply cycle_full in Hb. congruence. }
    assert (v = m).
    { destruct D as [->|[(N1 & N2 & N3)|D]]; [apply U; auto| |apply U; auto].
      cbn in Cm. destruct Cm as [[? ?]|[[? ?]|[? ?]]]; contradiction. }
    subst m. reflexivity.
  - destruct c as [c|]; [cbn in H; subst v; reflexivity|].
    cbn in H. destruct N as (N1 & N2 & N3). destruct H as [[? ?]|[[? ?]|[? ?]]]; contradiction.
Qed.
(** C157 *)
Lemma axial_reversal x g v ks : modulus_is_cycle (a_unit g) (a_cycle g) v -> 0 < v -> length ks = length (a_data g) ->
  same_outcome (axial x g) (axial x (with_data g (map2 (fun d k => d + IZR k * (v / 2)) (a_data g) ks))).
Proof.
  intros H Hv Hl. apply axial_same. rewrite !(modulus_double _ _ v) by auto. f_equal. apply double_flip; auto.
Qed.

(** The mean of a successful call is the angle of the resultant. *)
Lemma mean_polar alpha w m r : valid_sample alpha (Some w) -> circ_mean_and_r alpha (Some w) = (Fin m, r) ->
  0 <= m < 2 * PI /\ 0 < r /\ wsum cos alpha w = Rsum w * r * cos m /\ wsum sin alpha w = Rsum w * r * sin m.
Proof.
  intros Hv E. pose proof (smp_pos _ _ Hv) as P. set (s := smp alpha (Some w)) in *.
  change (circ_mean_and_r_s s = (Fin m, r)) in E.
  destruct (circ_mean_and_r_s_cases s) as [(_ & E')|(Hr & E')]; rewrite E' in E; [discriminate|].
  injection E as <- <-. split; [apply mean_dir_range|].
  assert (Hr' : 0 < circ_r_s s) by (apply Rlt_trans with (/ 1000000000000); [apply Rinv_0_lt_compat; lra|exact Hr]).
  split; [exact Hr'|]. destruct (mean_dir_polar s P Hr') as (E1 & E2 & _).
  assert (T : wtotal s = Rsum w) by (unfold wtotal, s, smp; cbn [weights]; destruct Hv as (_ & Hl & _); rewrite combine_snd by (symmetry; exact Hl); reflexivity).
  rewrite circ_r_s_eq by auto. rewrite T in *. replace (Rsum w * (Rlen s / Rsum w)) with (Rlen s) by (field; lra).
  rewrite <- E1, <- E2. unfold Csum, Ssum, s, smp. cbn [weights]. rewrite !wsum_eq. auto.
Qed.
Lemma ones_valid alpha : alpha <> [] -> valid_sample alpha (Some (ones alpha)).
Proof.
  intros Ha. split; [exact Ha|]. unfold ones. rewrite map_length. split; [reflexivity|]. split.
  - apply Forall_forall. intros x Hx. apply in_map_iff in Hx. destruct Hx as (? & <- & _). lra.
  - destruct alpha as [|a t]; [congruence|]. cbn [map]. rewrite Rsum_cons.
    assert (0 <= Rsum (map (fun _ : R => 1) t)); [|lra].
    clear. induction t as [|y u IH]; [cbn; lra|]. cbn [map]. rewrite Rsum_cons. lra.
Qed.
Lemma ones_total (alpha : list R) : Rsum (ones alpha) = INR (length alpha).
Proof. unfold ones. induction alpha as [|a t IH]; [reflexivity|]. cbn [map]. rewrite Rsum_cons, IH. change (length (a :: t)) with (S (length t)). rewrite S_INR. ring. Qed.
Lemma wsum_ones f alpha : wsum f alpha (ones alpha) = Rsum (map f alpha).
Proof. unfold ones. induction alpha as [|a t IH]; [reflexivity|]. cbn [map wsum]. rewrite Rsum_cons, IH. ring. Qed.
Lemma pymod_angle_of v d (f : R -> R) : 0 < v -> (forall a (k : Z), f (a + 2 * PI * IZR k) = f a) -> f (angle_of v (pymod (2 * d) v)) = f (2 * angle_of v d).
Proof.
  intros Hv Hf. destruct (pymod_cong (2 * d) v) as (k & E). rewrite <- (Hf (angle_of v (pymod (2 * d) v)) k). f_equal.
  unfold angle_of. replace (pymod (2 * d) v) with (2 * d - v * IZR k) by lra. field. lra.
Qed.
Lemma mr_snd alpha w : snd (circ_mean_and_r alpha w) = circ_r alpha w.
Proof. unfold circ_mean_and_r, circ_mean_and_r_s, circ_r. destruct (isclose12 (circ_r_s (combine alpha (weights alpha w))) 0); reflexivity. Qed.
(** C70: the mean of an ungrouped Axial sample is the axis of its doubled angles. *)
Lemma axial_mean x g v a k m : modulus_is_cycle (a_unit g) (a_cycle g) v -> 0 < v ->
  a_w g = None -> a_bins g = None -> a_rotate g = None ->
  axial x g = Ok (a, k) -> o_mean a = Fin m ->
  0 <= m < PI /\ 0 < o_r a /\
  Rsum (map (fun d => cos (2 * angle_of v d)) (a_data g)) = IZR (o_n a) * o_r a * cos (2 * m) /\
  Rsum (map (fun d => sin (2 * angle_of v d)) (a_data g)) = IZR (o_n a) * o_r a * sin (2 * m).
Proof.
  intros Hm Hv Ew Eb Er E Em. unfold axial in E. rewrite (modulus_double _ _ v) in E by auto. cbn [bind] in E.
  destruct (circular x _) as [[o k']|e] eqn:Ec; [|discriminate]. cbn [bind fst snd] in E. injection E as <- <-.
  cbn [o_mean o_n o_r] in *. destruct (o_mean o) as [mo| | |] eqn:Emo; try discriminate. cbn in Em. injection Em as <-.
  destruct (circular_inv _ _ _ _ Ec) as (p & a0 & I1 & I2 & I3 & _ & I5 & I6 & _ & _ & _ & I10 & I11 & I12 & I13 & _).
  cbn [a_unit a_cycle a_data a_rotate a_w a_bins] in *. rewrite Ew, Eb, Er in *.
  destruct Hm as (Hc & Hm). rewrite (cycle_full _ _ _ Hc) in I1. injection I1 as I1. rewrite <- I1 in *.
  cbn in I2. injection I2 as <-. cbn in I3. injection I3 as <-. cbn [p_alpha p_w] in *.
  set (al := map (fun y => data2rad y v) (map (fun d => pymod (2 * d) v) (a_data g))) in *.
  assert (Hn : al <> []).
  { intros Z. rewrite I10, Z, ones_total, trunc_INR in I13. cbn in I13. lia. }
  assert (Em : circ_mean_and_r al (Some (ones al)) = (Fin mo, o_r o)).
  { rewrite I12, (surjective_pairing (circ_mean_and_r _ _)), <- I11, Emo. f_equal. apply mr_snd. }
  destruct (mean_polar _ _ _ _ (ones_valid al Hn) Em) as (M1 & M2 & M3 & M4).
  rewrite wsum_ones, ones_total in M3, M4. rewrite I10, ones_total, trunc_INR, <- INR_IZR_INZ.
  split; [lra|]. split; [exact M2|]. replace (2 * (mo / 2)) with mo by field. rewrite <- M3, <- M4. unfold al. rewrite !map_map.
  split; apply Rsum_map_ext; intros d _.
  - symmetry. apply (pymod_angle_of v d cos Hv). intros. apply NpProofs.cos_turns.
  - symmetry. apply (pymod_angle_of v d sin Hv). intros. apply sin_turns.
Qed.
