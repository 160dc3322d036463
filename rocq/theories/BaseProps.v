(** The Circular and Axial objects. *)
From Verif Require Import Prelude NpModel NpProofs CircleSpec UtilsModel UtilsProofs DescModel DescProofs
  DescSpec DescApi DescApi2 Desc2Model Desc2Proofs Desc2Spec ArcProofs Desc3Proofs Desc4Proofs Desc7Proofs Desc2Ex HypModel HypProofs
  BaseModel BaseSpec BaseProofs Base2Proofs Base3Proofs Base4Proofs Base5Proofs Base6Proofs Base7Proofs Base8Proofs Base9Proofs Base10Proofs
  Base11Proofs Base12Proofs Base13Proofs Base14Proofs Base15Proofs BaseEx.
Open Scope string_scope.
Open Scope R_scope.

(** C70 The axial object reports everything on the scale of the data. *)
(** The mean: half the argument of the resultant of the doubled angles. *)
Theorem C70_mean_partial x g v a k m : modulus_is_cycle (a_unit g) (a_cycle g) v -> 0 < v ->
  a_w g = None -> a_bins g = None -> a_rotate g = None ->
  axial x g = Ok (a, k) -> o_mean a = Fin m ->
  0 <= m < PI /\ 0 < o_r a /\
  Rsum (map (fun d => cos (2 * angle_of v d)) (a_data g)) = IZR (o_n a) * o_r a * cos (2 * m) /\
  Rsum (map (fun d => sin (2 * angle_of v d)) (a_data g)) = IZR (o_n a) * o_r a * sin (2 * m).
Proof. exact (axial_mean x g v a k m). Qed.
Print Assumptions C70_mean_partial.
Example C70_mean_ex x : exists a, axial x (plain (repeat 120 3) "degree") = Ok (a, None) /\ o_mean a = Fin (angle_of 360 120) /\
  Rsum (map (fun d => cos (2 * angle_of 360 d)) (repeat 120 3)) = IZR (o_n a) * o_r a * cos (2 * angle_of 360 120).
Proof.
  destruct (axial_median_double x 120 3) as (a & E & M & _); [lra|lia|]. exists a. split; [exact E|]. split; [exact M|].
  refine (proj1 (proj2 (proj2 (C70_mean_partial x _ 360 a None _ _ _ _ _ _ E M)))); try reflexivity; [|lra].
  split; [left; split; reflexivity|left; reflexivity].
Qed.
(** The median is not halved: readings that all agree on one axis have that axis as mean
    and twice the angle as median. *)
Theorem C70_refuted x d n : 0 <= d < 180 -> (1 <= n < 8)%nat -> exists a,
  axial x (plain (repeat d n) "degree") = Ok (a, None) /\ o_mean a = Fin (angle_of 360 d) /\
  o_median a = MOne (2 * angle_of 360 d).
Proof. exact (axial_median_double x d n). Qed.
Print Assumptions C70_refuted.
Example C70_refuted_ex x : exists a m, axial x (plain (repeat 120 3) "degree") = Ok (a, None) /\ o_mean a = Fin m /\ o_median a = MOne (2 * m) /\ 2 * m <> m.
Proof.
  pose proof PI_RGT_0. destruct (C70_refuted x 120 3) as (a & E & M & M2); [lra|lia|]. exists a, (angle_of 360 120). repeat split; auto. unfold angle_of. lra.
Qed.

(** C71 Binned samples of moderate size. *)
(** Whenever the direction is significant the constructor raises, because the bootstrap it
    chooses looks at the bin centres without their counts. *)
Theorem C71_weights x d w u v n t : cycle_of u None v -> equally_spaced (map (angle_of v) d) -> (2 <= length d)%nat ->
  length w = length d -> Forall (fun a => 0 <= a) w -> Rsum w = IZR n -> (8 <= n < 25)%Z ->
  rayleigh_test (Some (map (angle_of v) d)) (Some w) None None 1 [] = Ok t -> ray_pval t < 5/100 ->
  circular x (weighted d w u) = Err ValueError.
Proof. exact (weighted_fails x d w u v n t). Qed.
Print Assumptions C71_weights.
Theorem C71_bins x d k u v w t : cycle_of u None v -> (2 <= k)%Z ->
  Forall (fun y => 0 <= angle_of v y <= 2 * PI) d -> (8 <= length d < 25)%nat ->
  let h := 2 * PI / IZR k in
  length w = Z.to_nat k ->
  (forall i, (i < Z.to_nat k)%nat -> nth i w 0 =
     INR (count_if (fun a => Rleb (INR i * h) a &&
                             (if Nat.eqb (S i) (Z.to_nat k) then Rleb a (2 * PI) else Rltb a (INR (S i) * h))) (map (angle_of v) d))) ->
  rayleigh_test (Some (map (fun i => (INR i + 1 / 2) * h) (seq 0 (Z.to_nat k)))) (Some w) None None 1 [] = Ok t -> ray_pval t < 5/100 ->
  circular x (binned d k u) = Err ValueError.
Proof. exact (binned_fails x d k u v w t). Qed.
Print Assumptions C71_bins.
Theorem C71_refuted x : exists d k, (8 <= length d < 25)%nat /\ (2 <= k)%Z /\ circular x (binned d k "radian") = Err ValueError.
Proof. exists (repeat 1 10), 4%Z. split; [rewrite repeat_length; lia|]. split; [lia|]. exact (four_fails x). Qed.
Print Assumptions C71_refuted.
Example C71_ex x : circular x (weighted [45; 135; 225; 315] [10; 0; 0; 0] "degree") = Err ValueError.
Proof.
  destruct four_ray as (t & E & P).
  assert (A : map (angle_of 360) [45; 135; 225; 315] = four).
  { unfold four. cbn [map seq INR]. unfold angle_of. f_equal; [field|]. f_equal; [field|]. f_equal; [field|]. f_equal. field. }
  apply (C71_weights x _ _ "degree" 360 10 t); rewrite ?A; auto.
  - left. split; reflexivity.
  - exists (PI / 4). unfold four. cbn [length map seq INR]. f_equal; [field|]. f_equal; [field|]. f_equal; [field|]. f_equal. field.
  - cbn. lia.
  - repeat constructor; lra.
  - rewrite !Rsum_cons, Rsum_nil. lra.
  - lia.
Qed.

(** C157 Reversing readings of an axis. *)
Theorem C157_reversal x g v ks : modulus_is_cycle (a_unit g) (a_cycle g) v -> 0 < v -> length ks = length (a_data g) ->
  same_outcome (axial x g) (axial x (with_data g (map2 (fun d k => d + IZR k * (v / 2)) (a_data g) ks))).
Proof. exact (axial_reversal x g v ks). Qed.
Print Assumptions C157_reversal.
Example C157_ex x : same_outcome (axial x (plain [10; 200; 30] "degree")) (axial x (plain [10 + IZR 1 * (360 / 2); 200 + IZR (-1) * (360 / 2); 30 + IZR 0 * (360 / 2)] "degree")).
Proof. apply (C157_reversal x (plain [10; 200; 30] "degree") 360 [1; -1; 0]%Z); [split; [left; split; reflexivity|left; reflexivity]|lra|reflexivity]. Qed.

(** C158 The same with full_cycle. *)
Theorem C158_partial x g c ks : a_cycle g = Some c -> 0 < c -> a_unit g <> "degree" -> a_unit g <> "radian" -> a_unit g <> "hour" ->
  length ks = length (a_data g) ->
  same_outcome (axial x g) (axial x (with_data g (map2 (fun d k => d + IZR k * (c / 2)) (a_data g) ks))).
Proof.
  intros E Hc N1 N2 N3 Hl. apply axial_reversal; auto. rewrite E. split; [reflexivity|]. right. left. auto.
Qed.
Print Assumptions C158_partial.
Example C158_ex x : same_outcome (axial x (with_unit (plain [] "day") [200; 20] "day" (Some 365)))
  (axial x (with_unit (plain [] "day") [200 + IZR (-1) * (365 / 2); 20 + IZR 0 * (365 / 2)] "day" (Some 365))).
Proof. apply (C158_partial x (with_unit (plain [] "day") [200; 20] "day" (Some 365)) 365 [-1; 0]%Z); try discriminate; try reflexivity. lra. Qed.
(** With the default unit the doubling is taken modulo 360, whatever full_cycle says. *)
Theorem C158_refuted x : exists g g' a a', g' = with_data g (map (fun d => d - 365 / 2) (a_data g)) /\ a_cycle g = Some 365 /\
  axial x g = Ok (a, None) /\ axial x g' = Ok (a', None) /\
  o_mean a = Fin (angle_of 365 20) /\ o_mean a' = Fin (angle_of 365 (200 - 365 / 2)) /\ o_mean a <> o_mean a'.
Proof.
  exists (days 200), (days (200 - 365 / 2)). destruct (full_cycle_axial_wrong x) as (a & a' & E). exists a, a'. split; [reflexivity|]. split; [reflexivity|exact E].
Qed.
Print Assumptions C158_refuted.

(** C159 Binning counts every observation. *)
Theorem C159_partial x g k o k' v : a_bins g = Some (BCount k) -> cycle_of (a_unit g) (a_cycle g) v -> a_rotate g = None ->
  circular x g = Ok (o, k') -> Forall (fun d => 0 <= angle_of v d <= 2 * PI) (a_data g) ->
  o_n o = Z.of_nat (length (a_data g)) /\
  Rabs (o_r o - circ_r (map (angle_of v) (a_data g)) None) <= PI / IZR k.
Proof. exact (binned_all x g k o k' v). Qed.
Print Assumptions C159_partial.
Example C159_ex x : exists o, circular x (binned [1; 1] 2 "radian") = Ok (o, None) /\ o_n o = 2%Z.
Proof.
  pose proof PI2_3_2. destruct (binned_two x) as (o & E & _). exists o. split; [exact E|].
  refine (proj1 (C159_partial x (binned [1; 1] 2 "radian") 2 o None (2 * PI) eq_refl _ eq_refl E _)); [right; left; split; reflexivity|].
  assert (A : angle_of (2 * PI) 1 = 1) by (unfold angle_of; field; lra). repeat constructor; rewrite A; lra.
Qed.
(** A reading below zero is the same direction as one within the first cycle and is dropped. *)
Theorem C159_refuted x : exists d d' o, Forall2 same_dir d d' /\ Forall (fun a => 0 <= a < 2 * PI) d' /\
  circular x (binned d 2 "radian") = Ok (o, None) /\ length d = 2%nat /\ o_n o = 1%Z.
Proof.
  pose proof PI2_3_2. destruct (binned_drops x) as (o & E & N & S & _). exists [-1; 1], [2 * PI - 1; 1], o.
  split; [repeat constructor; [exact S|apply same_dir_refl]|]. split; [repeat constructor; lra|]. split; [exact E|]. split; [reflexivity|exact N].
Qed.
Print Assumptions C159_refuted.

(** C160 The histogram behind a binned object. *)
Theorem C160_histogram x g k o k' v : a_bins g = Some (BCount k) -> cycle_of (a_unit g) (a_cycle g) v -> a_rotate g = None ->
  circular x g = Ok (o, k') ->
  let alpha := map (angle_of v) (a_data g) in
  let h := 2 * PI / IZR k in
  (2 <= k)%Z /\ o_grouped o = true /\ o_bin_size o = h /\
  o_alpha o = map (fun i => (INR i + 1 / 2) * h) (seq 0 (Z.to_nat k)) /\
  o_bounds o = map (fun i => (INR i * h, INR (S i) * h)) (seq 0 (Z.to_nat k)) /\
  length (o_w o) = Z.to_nat k /\
  (forall i, (i < Z.to_nat k)%nat -> nth i (o_w o) 0 =
     INR (count_if (fun a => Rleb (INR i * h) a &&
                             (if Nat.eqb (S i) (Z.to_nat k) then Rleb a (2 * PI) else Rltb a (INR (S i) * h))) alpha)) /\
  o_n o = Z.of_nat (count_if (fun a => Rleb 0 a && Rleb a (2 * PI)) alpha).
Proof. exact (binned_object x g k o k' v). Qed.
Print Assumptions C160_histogram.
Example C160_ex x : exists o, circular x (binned [-1; 1] 2 "radian") = Ok (o, None) /\ o_bin_size o = 2 * PI / 2 /\ o_grouped o = true.
Proof.
  destruct (binned_drops x) as (o & E & _). exists o. split; [exact E|].
  destruct (C160_histogram x (binned [-1; 1] 2 "radian") 2 o None (2 * PI) eq_refl (or_intror (or_introl (conj eq_refl eq_refl))) eq_refl E) as (_ & G & B & _). auto.
Qed.

(** C161 Units. *)
Theorem C161_units x g u' c' v v' : cycle_of (a_unit g) (a_cycle g) v -> cycle_of u' c' v' -> v <> 0 -> v' <> 0 ->
  same_outcome (circular x g) (circular x (with_unit g (map (fun d => d * v' / v) (a_data g)) u' c')).
Proof. exact (unit_free x g u' c' v v'). Qed.
Print Assumptions C161_units.
Theorem C161_unknown x g : a_cycle g = None -> a_unit g <> "degree" -> a_unit g <> "radian" -> a_unit g <> "hour" ->
  circular x g = Err ValueError.
Proof. exact (unit_unknown x g). Qed.
Print Assumptions C161_unknown.
Example C161_ex x : same_outcome (circular x (plain [90; 100; 350] "degree")) (circular x (plain [90 * 24 / 360; 100 * 24 / 360; 350 * 24 / 360] "hour")).
Proof. apply (C161_units x (plain [90; 100; 350] "degree") "hour" None 360 24); [left; split; reflexivity|right; right; split; reflexivity|lra|lra]. Qed.
Example C161_unknown_ex x : circular x (plain [1; 2] "grad") = Err ValueError.
Proof. apply C161_unknown; [reflexivity|discriminate..]. Qed.

(** C162 rotate. *)
Theorem C162_rotate x g t o k o' k' : a_rotate g = None -> a_bins g = None ->
  (forall w, a_w g = Some w -> Forall (fun v => 0 <= v) w) ->
  circular x g = Ok (o, k) -> circular x (with_rotate g t) = Ok (o', k') ->
  mean_turned t (o_mean o) (o_mean o') /\
  o_w o' = o_w o /\ o_n o' = o_n o /\ o_r o' = o_r o /\ o_R o' = o_R o /\ o_pval o' = o_pval o /\ o_kappa o' = o_kappa o /\
  o_method o' = o_method o /\ (a_w g = None -> o_s o' = o_s o /\ o_s0 o' = o_s0 o).
Proof. exact (rotated x g t o k o' k'). Qed.
Print Assumptions C162_rotate.
Example C162_ex x : exists o o', circular x (plain (repeat 90 4) "degree") = Ok (o, None) /\
  circular x (with_rotate (plain (repeat 90 4) "degree") (PI / 2)) = Ok (o', None) /\ mean_turned (PI / 2) (Fin (PI / 2)) (o_mean o').
Proof.
  destruct (turned_pair x) as (o & o' & E & E' & M). exists o, o'. split; [exact E|]. split; [exact E'|]. rewrite <- M.
  apply (C162_rotate x (plain (repeat 90 4) "degree") (PI / 2) o None o' None); auto. discriminate.
Qed.

(** C163 Sample size and resultant length of weighted data. *)
Theorem C163_partial x g o k n t : circular x g = Ok (o, k) -> Forall (fun v => 0 <= v) (o_w o) ->
  length (o_w o) = length (o_alpha o) -> Rsum (o_w o) = IZR n ->
  rayleigh_test (Some (o_alpha o)) (Some (o_w o)) None None 1 [] = Ok t ->
  o_n o = n /\ o_R o = sqrt (wsum cos (o_alpha o) (o_w o) ^ 2 + wsum sin (o_alpha o) (o_w o) ^ 2) /\
  o_pval o = ray_pval t /\ o_r o = ray_r t.
Proof. exact (whole_total x g o k n t). Qed.
Print Assumptions C163_partial.
Example C163_ex x : exists o, circular x (binned [1; 1] 2 "radian") = Ok (o, None) /\ o_n o = 2%Z /\
  o_R o = sqrt (wsum cos (o_alpha o) (o_w o) ^ 2 + wsum sin (o_alpha o) (o_w o) ^ 2).
Proof.
  destruct (binned_two x) as (o & E & A & W). exists o. split; [exact E|].
  assert (Hv : valid_sample (o_alpha o) (Some (o_w o))).
  { rewrite A, W. split; [discriminate|]. split; [reflexivity|]. split; [repeat constructor; lra|]. rewrite !Rsum_cons, Rsum_nil. lra. }
  assert (Ht : Rsum (o_w o) = IZR 2) by (rewrite W, !Rsum_cons, Rsum_nil; lra).
  destruct (rayleigh_sample_z (o_alpha o) (Some (o_w o)) 2 None 1 [] Hv) as (t & Et & _); [|lia|].
  { rewrite sample_size_eq. unfold wtotal, smp. cbn [weights]. rewrite combine_snd by (rewrite A, W; reflexivity). exact Ht. }
  destruct (C163_partial x _ o None 2 t E) as (N & R & _); auto; [apply Hv|apply Hv].
Qed.
(** The total weight is cut to an integer, the weights are not. *)
Theorem C163_refuted x : exists d w o, circular x (weighted d w "degree") = Ok (o, None) /\ o_w o = w /\ Forall (fun v => 0 <= v) w /\
  o_R o < sqrt (wsum cos (o_alpha o) w ^ 2 + wsum sin (o_alpha o) w ^ 2) /\ IZR (o_n o) < Rsum w.
Proof.
  destruct (fractional_total x) as (o & E & N & R & C & S). exists [0; 180], [3/2; 0], o. split; [exact E|].
  assert (W : o_w o = [3/2; 0]).
  { destruct (circular_inv _ _ _ _ E) as (p & a0 & I1 & I2 & I3 & _ & I5 & I6 & _). cbn in I2. injection I2 as <-. cbn in I3. injection I3 as <-. exact I6. }
  split; [exact W|]. split; [repeat constructor; lra|]. rewrite W in C, S. rewrite C, S, R, N, !Rsum_cons, Rsum_nil. split; [|lra].
  replace ((3/2) ^ 2 + 0 ^ 2) with (3/2 * (3/2)) by ring. rewrite sqrt_square by lra. lra.
Qed.
Print Assumptions C163_refuted.

(** C164 The order of the bins. *)
Theorem C164_partial x g d w d' w' o k o' k' : a_bins g = None -> a_rotate g = None ->
  Permutation (combine d w) (combine d' w') ->
  circular x (with_bins g d w) = Ok (o, k) -> circular x (with_bins g d' w') = Ok (o', k') ->
  o_n o' = o_n o /\ o_mean o' = o_mean o /\ o_r o' = o_r o /\ o_pval o' = o_pval o /\ o_R o' = o_R o /\
  o_kappa o' = o_kappa o /\ o_method o' = o_method o /\
  (o_bin_size o' = o_bin_size o -> o_s o' = o_s o /\ o_s0 o' = o_s0 o).
Proof. exact (relisted x g d w d' w' o k o' k'). Qed.
Print Assumptions C164_partial.
Theorem C164_refuted x : exists o o' v, circular x (three_bins [0; 90; 270]) = Ok (o, None) /\
  circular x (three_bins [270; 0; 90]) = Ok (o', None) /\
  o_bin_size o = PI / 2 /\ o_bin_size o' = - (3 * PI / 2) /\ o_s0 o = Fin v /\ o_s0 o' = NaN.
Proof. exact (order_matters x). Qed.
Print Assumptions C164_refuted.
Example C164_ex x : exists o o', circular x (three_bins [0; 90; 270]) = Ok (o, None) /\ circular x (three_bins [270; 0; 90]) = Ok (o', None) /\ o_mean o' = o_mean o.
Proof.
  destruct (C164_refuted x) as (o & o' & v & E & E' & _). exists o, o'. split; [exact E|]. split; [exact E'|].
  destruct (C164_partial x (three_bins []) [0; 90; 270] [1; 1; 1] [270; 0; 90] [1; 1; 1] o None o' None) as (_ & M & _); auto.
  cbn [combine]. apply Permutation_sym. apply (perm_trans (perm_swap _ _ _)). apply perm_skip. apply perm_swap.
Qed.

(** C165 kwargs_mean_ci. *)
(** The requested level is not used, and the dictionary loses its "method". *)
Theorem C165_level_refuted x g d o k : a_mean_ci g = Some d -> circular x g = Ok (o, k) ->
  k = Some {| kd_method := None; kd_ci := kd_ci d |} /\ o_level o = Fin (95/100) /\
  o_method o = match kd_method d with Some m => m | None => Some "bootstrap" end.
Proof. exact (mean_ci_options x g d o k). Qed.
Print Assumptions C165_level_refuted.
(** So a second object made with the same dictionary uses another method. *)
Theorem C165_refuted x v : exists g o o' k k',
  a_mean_ci g = Some {| kd_method := Some (Some "dispersion"); kd_ci := Some v |} /\
  circular x g = Ok (o, k) /\ circular x (with_mean_ci g k) = Ok (o', k') /\
  o_method o = Some "dispersion" /\ o_method o' = Some "bootstrap" /\ o_level o = Fin (95/100).
Proof.
  destruct (mean_ci_twice x v) as (o & o' & k & k' & E). exists (ask {| kd_method := Some (Some "dispersion"); kd_ci := Some v |}), o, o', k, k'. split; [reflexivity|exact E].
Qed.
Print Assumptions C165_refuted.
Example C165_ex x : exists g o k, a_mean_ci g = Some {| kd_method := Some (Some "dispersion"); kd_ci := Some (99/100) |} /\ circular x g = Ok (o, k) /\ o_level o = Fin (95/100).
Proof.
  destruct (C165_refuted x (99/100)) as (g & o & _ & k & _ & G & E & _). exists g, o, k. split; [exact G|]. split; [exact E|].
  apply (C165_level_refuted x g _ o k G E).
Qed.

(** C166 Several medians. *)
(** Whenever circ_median finds several medians and they are not averaged, the constructor raises. *)
Theorem C166_several x g v l : cycle_of (a_unit g) (a_cycle g) v -> a_w g = None -> a_bins g = None -> a_rotate g = None ->
  circ_median (map (angle_of v) (a_data g)) None (km_method (a_median g)) (km_average (a_median g)) (km_average_method (a_median g)) = Ok (MMany l) ->
  exists e, circular x g = Err e.
Proof. exact (medians_fail x g v l). Qed.
Print Assumptions C166_several.
Theorem C166_refuted x : exists d k, km_average k = false /\
  (exists l, circ_median (map (angle_of 360) d) None (km_method k) false (km_average_method k) = Ok (MMany l)) /\
  circular x (with_median (plain d "degree") k) = Err ValueError.
Proof.
  exists [0; 0; 90], all_medians. split; [reflexivity|]. split; [|exact (medians_witness x)]. exists [0; 0].
  replace (map (angle_of 360) [0; 0; 90]) with [0; 0; PI / 2]; [exact two_medians|].
  cbn [map]. unfold angle_of. f_equal; [field|]. f_equal; [field|]. f_equal. field.
Qed.
Print Assumptions C166_refuted.
Example C166_ex x : exists e, circular x (with_median (plain [0; 0; 90] "degree") all_medians) = Err e.
Proof.
  apply (C166_several x _ 360 [0; 0]); try reflexivity; [left; split; reflexivity|].
  replace (map (angle_of 360) _) with [0; 0; PI / 2]; [exact two_medians|].
  cbn. unfold angle_of. f_equal; [field|]. f_equal; [field|]. f_equal. field.
Qed.

(** C167 The constructor does not fail on account of the median interval. *)
Theorem C167_refuted x : 195/100 <= x_z x <= 197/100 ->
  (exists e, circular x (plain ci_witness "radian") = Err e) /\
  circular x (with_mean_ci (plain ci_witness "radian") (Some {| kd_method := Some None; kd_ci := None |})) = Err IndexError.
Proof. exact (median_ci_fails x). Qed.
Print Assumptions C167_refuted.
Example C167_ex : exists e, circular ex_ext (plain ci_witness "radian") = Err e.
Proof. apply C167_refuted. cbn. lra. Qed.

(** C168 Large samples. *)
Theorem C168_interval x g o k m : a_mean_ci g = None -> 0 < x_z x <= 2 -> Forall (fun v => 0 <= v) (o_w o) ->
  length (o_w o) = length (o_alpha o) -> circular x g = Ok (o, k) -> (25 <= o_n o)%Z -> o_pval o < 5/100 -> o_mean o = Fin m ->
  exists lb ub, o_mean_ci o = Some (lb, ub) /\ on_ccw_arc m lb ub /\
    o_method o = Some "dispersion" /\ o_level o = Fin (95/100).
Proof. exact (large_sample x g o k m). Qed.
Print Assumptions C168_interval.
Theorem C168_built x g v : a_mean_ci g = None -> a_w g = None -> a_bins g = None -> a_rotate g = None ->
  cycle_of (a_unit g) (a_cycle g) v -> km_method (a_median g) = None -> km_average (a_median g) = false -> 0 < x_z x <= 2 ->
  (25 <= length (a_data g))%nat -> circ_r (map (angle_of v) (a_data g)) None < conc_limit ->
  exists o, circular x g = Ok (o, None) /\ o_median o = MNaN /\ o_n o = Z.of_nat (length (a_data g)).
Proof. exact (large_built x g v). Qed.
Print Assumptions C168_built.
Example C168_ex : exists o m lb ub, circular ex_ext two_ways_args = Ok (o, None) /\ o_mean o = Fin m /\ o_mean_ci o = Some (lb, ub) /\ on_ccw_arc m lb ub.
Proof.
  destruct (two_ways_ok ex_ext ltac:(cbn; lra)) as (o & m & E & N & P & M & W & L).
  destruct (C168_interval ex_ext two_ways_args o None m eq_refl ltac:(cbn; lra) W L E N P M) as (lb & ub & A & B & _).
  exists o, m, lb, ub. auto.
Qed.
Example C168_built_ex : exists o, circular ex_ext two_ways_args = Ok (o, None) /\ o_n o = 26%Z.
Proof.
  destruct (C168_built ex_ext two_ways_args 360) as (o & E & _ & N); try reflexivity; [left; split; reflexivity|cbn; lra|cbn; lia|apply two_ways_limit|].
  exists o. split; [exact E|]. rewrite N. reflexivity.
Qed.

(** C169 The bootstrap interval turns with the data. *)
(** The same resamples of the turned data give another direction, not the turned one. *)
Theorem C169_refuted n : exists alpha draws t d d', (forall row, In row draws -> forall a, In a row -> In a alpha) /\ length draws = S n /\
  ci_bootstrap alpha draws (95/100) = Ok (d, d) /\
  ci_bootstrap (map (fun a => a + t) alpha) (map (map (fun a => a + t)) draws) (95/100) = Ok (d', d') /\
  0 <= d < 2 * PI /\ 0 <= d' < 2 * PI /\ ~ same_dir d' (d + t).
Proof.
  destruct (boot_not_turned n) as (d & d' & E). exists boot_sample, (repeat (repeat (PI / 2) 8) (S n)), (PI / 4), d, d'.
  split; [|split; [apply repeat_length|exact E]]. intros row Hr a Ha. apply repeat_spec in Hr. subst row. apply repeat_spec in Ha. subst a.
  unfold boot_sample. apply in_or_app. right. left. reflexivity.
Qed.
Print Assumptions C169_refuted.

(** C170 The bootstrap interval and the bootstrap directions. *)
Theorem C170_contains alpha draws ci samples lo up m :
  map_res (circ_mean_resample (moments_of alpha) (boot_v0 (moments_of alpha))) draws = Ok samples ->
  ci_bootstrap alpha draws ci = Ok (lo, up) -> circ_mean samples None = Fin m -> ~ same_dir lo up -> on_ccw_arc m lo up.
Proof. exact (boot_contains alpha draws ci samples lo up m). Qed.
Print Assumptions C170_contains.
Example C170_ex : exists lo up m, ci_bootstrap boot_sample four_rows (95/100) = Ok (lo, up) /\ ~ same_dir lo up /\ on_ccw_arc m lo up.
Proof.
  destruct four_rows_ok as (s & lo & up & m & E & B & M & N). exists lo, up, m. split; [exact B|]. split; [exact N|].
  exact (C170_contains boot_sample four_rows (95/100) s lo up m E B M N).
Qed.

(** C171 The matrix the bootstrap multiplies with is the square root of the covariance of
    (cos, sin). *)
Theorem C171_partial alpha : alpha <> [] -> let m := moments_of alpha in
  mo_u12 m = 0 -> let '(a, b, c) := boot_v0 m in
  a * a + b * b = mo_u11 m /\ b * (a + c) = mo_u12 m /\ b * b + c * c = mo_u22 m /\ 0 <= a /\ 0 <= c.
Proof. exact (v0_root_diag alpha). Qed.
Print Assumptions C171_partial.
Theorem C171_refuted : exists alpha, alpha <> [] /\ let m := moments_of alpha in let '(a, b, c) := boot_v0 m in
  b * (a + c) = 0 /\ mo_u12 m = -1/32.
Proof. exact v0_root_fails. Qed.
Print Assumptions C171_refuted.
Example C171_ex : let m := moments_of boot_sample in let '(a, b, c) := boot_v0 m in a * a + b * b = 3/16 /\ b * b + c * c = 1/4.
Proof.
  cbv zeta. pose proof (C171_partial boot_sample ltac:(discriminate)) as H. cbv zeta in H. rewrite boot_moments in *. cbn [mo_u11 mo_u12 mo_u22] in H.
  specialize (H eq_refl). destruct (boot_v0 _) as [[a b] c]. destruct H as (H1 & _ & H2 & _). auto.
Qed.

(** C172 The median of counts in equal bins. *)
Theorem C172_half_partial a w h meth avg m : (1 <= h)%nat -> INR h <= 500000 -> length w = (2 * h)%nat -> counts w ->
  circ_r (bin_centres a (2 * h)) (Some w) < conc_limit -> (exists v, In v w /\ v <> 1) ->
  circ_median (bin_centres a (2 * h)) (Some w) meth false avg = Ok (MOne m) ->
  exists i f, (i < 2 * h)%nat /\ 0 <= f <= 1 /\ 0 <= m < 2 * PI /\
    same_dir m (a + (INR i + 1/2 + f) * (2 * PI / INR (2 * h))) /\ half_mass w h i f = Rsum w / 2.
Proof. exact (even_bins_split a w h meth avg m). Qed.
Print Assumptions C172_half_partial.
Theorem C172_runs_partial a w h meth b avg : (1 <= h)%nat -> INR h <= 500000 -> length w = (2 * h)%nat -> counts w ->
  circ_r (bin_centres a (2 * h)) (Some w) < conc_limit -> (exists v, In v w /\ v <> 1) ->
  avg = "all" \/ avg = "unique" ->
  exists m, circ_median (bin_centres a (2 * h)) (Some w) meth b avg = Ok m.
Proof. exact (even_bins_ok a w h meth b avg). Qed.
Print Assumptions C172_runs_partial.
Example C172_ex : exists i f, (i < 2)%nat /\ 0 <= f <= 1 /\ half_mass [2; 1] 1 i f = Rsum [2; 1] / 2.
Proof.
  destruct (C172_half_partial 0 [2; 1] 1 None "all" 0) as (i & f & H1 & H2 & _ & _ & H3);
    [lia|cbn; lra|reflexivity|apply two_bins_counts|apply two_bins_r|exists 2; split; [now left|lra]|apply two_bins_median|]. exists i, f. auto.
Qed.
Example C172_runs_ex : exists m, circ_median (bin_centres 0 2) (Some [2; 1]) None true "unique" = Ok m.
Proof.
  apply (C172_runs_partial 0 [2; 1] 1); [lia|cbn; lra|reflexivity|apply two_bins_counts|apply two_bins_r|exists 2; split; [now left|lra]|now right].
Qed.
(** With an odd number of bins the median of a mirror-symmetric sample may be off its axis. *)
Theorem C172_refuted : exists alpha w c m, mirror_symmetric alpha w c /\ counts w /\ equally_spaced alpha /\
  circ_median alpha (Some w) (Some "deviation") false "all" = Ok (MOne m) /\ ~ same_dir (2 * c - m) m.
Proof. exact mirror_refuted. Qed.
Print Assumptions C172_refuted.
