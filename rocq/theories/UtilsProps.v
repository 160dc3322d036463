(** Properties C01-C06 (pycircstat2/utils.py).  Each theorem is closed by an
    already proved lemma; the Example next to it is a concrete instance. *)
From Verif Require Import Prelude CircleSpec UtilsModel UtilsSpec UtilsProofs UtilsEx.

(** C01 *)
Theorem C01_angmod_errors : forall rad bounds,
  (exists e, angmod rad bounds = Err e) <->
  (forall b0 b1, bounds = [b0; b1] -> b1 <= b0).
Proof. exact angmod_errors_l. Qed.
Print Assumptions C01_angmod_errors.
Theorem C01_angmod_error_kind : forall rad bounds e,
  angmod rad bounds = Err e -> e = ValueError.
Proof. exact angmod_error_kind. Qed.
Print Assumptions C01_angmod_error_kind.
Example C01_errors_example :
  angmod 1 [2; 2] = Err ValueError /\ angmod 1 [0; 1; 2] = Err ValueError.
Proof. exact ex_angmod_bad. Qed.

Theorem C01_angmod_representative : forall rad lo hi, lo < hi ->
  exists y, angmod rad [lo; hi] = Ok y /\ is_rep lo (hi - lo) rad y /\
            forall z, is_rep lo (hi - lo) rad z -> z = y.
Proof. exact angmod_rep_l. Qed.
Print Assumptions C01_angmod_representative.
Example C01_representative_example :
  angmod (- PI / 2) [0; 2 * PI] = Ok (3 * PI / 2).
Proof. exact ex_angmod_neg. Qed.

Theorem C01_angmod_idempotent : forall rad lo hi y,
  angmod rad [lo; hi] = Ok y -> angmod y [lo; hi] = Ok y.
Proof. exact angmod_idem_l. Qed.
Print Assumptions C01_angmod_idempotent.
Theorem C01_angmod_periodic : forall rad lo hi (k : Z),
  angmod (rad + (hi - lo) * IZR k) [lo; hi] = angmod rad [lo; hi].
Proof. exact angmod_periodic_l. Qed.
Print Assumptions C01_angmod_periodic.
Example C01_periodic_example : angmod (3 * PI) [- PI; PI] = Ok (- PI).
Proof. exact ex_angmod_upper. Qed.

(** C02 *)
Theorem C02_is_shorter_arc : forall a b, is_arc_dist a b (angular_distance a b).
Proof. exact angular_distance_arc. Qed.
Print Assumptions C02_is_shorter_arc.
Theorem C02_shorter_arc_unique : forall a b d1 d2,
  is_arc_dist a b d1 -> is_arc_dist a b d2 -> d1 = d2.
Proof. exact arc_dist_unique. Qed.
Theorem C02_range : forall a b, 0 <= angular_distance a b <= PI.
Proof. exact angular_distance_range. Qed.
Print Assumptions C02_range.
Theorem C02_zero_iff_same_direction : forall a b,
  angular_distance a b = 0 <-> same_dir a b.
Proof. exact angular_distance_0. Qed.
Print Assumptions C02_zero_iff_same_direction.
Theorem C02_symmetric : forall a b, angular_distance a b = angular_distance b a.
Proof. exact angular_distance_sym. Qed.
Print Assumptions C02_symmetric.
Theorem C02_triangle : forall a b c,
  angular_distance a c <= angular_distance a b + angular_distance b c.
Proof. exact angular_distance_triangle. Qed.
Print Assumptions C02_triangle.
Theorem C02_directions_only : forall a a' b b',
  same_dir a a' -> same_dir b b' -> angular_distance a b = angular_distance a' b'.
Proof. exact angular_distance_dir. Qed.
Print Assumptions C02_directions_only.
Theorem C02_rotation : forall a b t,
  angular_distance (a + t) (b + t) = angular_distance a b.
Proof. exact angular_distance_rot. Qed.
Print Assumptions C02_rotation.
Example C02_example : angular_distance (PI / 6) (11 * PI / 6) = PI / 3.
Proof. exact ex_dist. Qed.

(** C03 *)
Theorem C03_is_arc_membership : forall v lb ub,
  is_within_circular_range v lb ub = true <-> on_ccw_arc v lb ub.
Proof. exact is_within_ccw. Qed.
Print Assumptions C03_is_arc_membership.
Theorem C03_directions_only : forall v v' lb lb' ub ub',
  same_dir v v' -> same_dir lb lb' -> same_dir ub ub' ->
  is_within_circular_range v lb ub = is_within_circular_range v' lb' ub'.
Proof. exact is_within_dir. Qed.
Print Assumptions C03_directions_only.
Theorem C03_rotation : forall v lb ub t,
  is_within_circular_range (v + t) (lb + t) (ub + t) = is_within_circular_range v lb ub.
Proof. exact is_within_rot. Qed.
Print Assumptions C03_rotation.
Theorem C03_complement : forall v lb ub,
  ~ same_dir v lb -> ~ same_dir v ub -> ~ same_dir lb ub ->
  is_within_circular_range v ub lb = negb (is_within_circular_range v lb ub).
Proof. exact is_within_complement. Qed.
Print Assumptions C03_complement.
Example C03_example :
  is_within_circular_range 0 (11 * PI / 6) (PI / 6) = true /\
  is_within_circular_range PI (11 * PI / 6) (PI / 6) = false.
Proof. exact ex_within_wrap. Qed.
Example C03_complement_example :
  ~ same_dir 0 (11 * PI / 6) /\ ~ same_dir 0 (PI / 6) /\ ~ same_dir (11 * PI / 6) (PI / 6).
Proof. exact ex_within_apart. Qed.

(** C04 *)
Theorem C04_rotate_characterised : forall alpha x unit K, cycle_of unit K ->
  exists out, rotate_data alpha x unit = Ok out /\
    Forall2 (fun a y => is_rep 0 K (a + x) y) alpha out.
Proof. exact rotate_data_spec. Qed.
Print Assumptions C04_rotate_characterised.
Theorem C04_rotate_compose : forall alpha x y unit out,
  rotate_data alpha x unit = Ok out ->
  rotate_data out y unit = rotate_data alpha (x + y) unit.
Proof. exact rotate_data_compose. Qed.
Print Assumptions C04_rotate_compose.
Theorem C04_rotate_inverse : forall alpha x unit out,
  rotate_data alpha x unit = Ok out ->
  rotate_data out (- x) unit = rotate_data alpha 0 unit.
Proof. exact rotate_data_inverse. Qed.
Print Assumptions C04_rotate_inverse.
Theorem C04_rotate_zero : forall alpha unit K, cycle_of unit K ->
  (forall a, In a alpha -> 0 <= a < K) -> rotate_data alpha 0 unit = Ok alpha.
Proof. exact rotate_data_zero. Qed.
Print Assumptions C04_rotate_zero.
Theorem C04_rotate_errors : forall alpha x unit,
  (forall K, ~ cycle_of unit K) <-> rotate_data alpha x unit = Err ValueError.
Proof. exact rotate_data_unit_err. Qed.
Print Assumptions C04_rotate_errors.
Example C04_example : rotate_data [350; 10] 30 "degree" = Ok [20; 40].
Proof. exact ex_rotate. Qed.
Example C04_error_example : forall K, ~ cycle_of "week" K.
Proof. exact ex_rotate_bad. Qed.

(** C05 *)
Theorem C05_roundtrip_data : forall x k, k <> 0 -> rad2data (data2rad x k) (Some k) = x.
Proof. exact rad2data_data2rad. Qed.
Print Assumptions C05_roundtrip_data.
Theorem C05_roundtrip_rad : forall x k, k <> 0 -> data2rad (rad2data x (Some k)) k = x.
Proof. exact data2rad_rad2data. Qed.
Print Assumptions C05_roundtrip_rad.
Theorem C05_cycle : forall k, k <> 0 -> data2rad k k = 2 * PI.
Proof. exact data2rad_cycle. Qed.
Print Assumptions C05_cycle.
Theorem C05_cycles : forall x k (m : Z), k <> 0 ->
  data2rad (x + k * IZR m) k = data2rad x k + 2 * PI * IZR m.
Proof. exact data2rad_cycles. Qed.
Print Assumptions C05_cycles.
Example C05_example : (24 : R) <> 0.
Proof. lra. Qed.

(** C06 *)
Theorem C06_thresholds : forall p,
  (significance_code p = "***"%string <-> p < 1/1000) /\
  (significance_code p = "**"%string <-> 1/1000 <= p < 1/100) /\
  (significance_code p = "*"%string <-> 1/100 <= p < 5/100) /\
  (significance_code p = "."%string <-> 5/100 <= p < 1/10) /\
  (significance_code p = ""%string <-> 1/10 <= p).
Proof. exact significance_thresholds. Qed.
Print Assumptions C06_thresholds.
Theorem C06_antitone : forall p q, p <= q ->
  (mark_rank (significance_code q) <= mark_rank (significance_code p))%nat.
Proof. exact significance_antitone. Qed.
Print Assumptions C06_antitone.
Example C06_example : significance_code (2/100) = "*"%string.
Proof. exact ex_sig. Qed.
