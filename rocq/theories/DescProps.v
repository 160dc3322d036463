(** Properties C07-C18 and C73 (pycircstat2/descriptive.py: resultant, mean, spread,
    distances).  Each theorem is closed by an already proved lemma. *)
From Verif Require Import Prelude CircleSpec NpModel UtilsModel DescModel DescSpec
  DescApi DescApi2 DescEx.

(** C07 *)
Theorem C07_r_range : forall alpha w, valid_sample alpha w -> 0 <= circ_r alpha w <= 1.
Proof. exact circ_r_range. Qed.
Print Assumptions C07_r_range.
Example C07_r_range_example : valid_sample sA (Some wA) /\ 0 < circ_r sA (Some wA) < 1.
Proof. exact (conj ex_valid ex_r_inner). Qed.
Theorem C07_variance_range : forall alpha w, valid_sample alpha w ->
  match w with Some w => exists x, w = repeat x (length alpha) | None => True end ->
  exists v, circ_var (Some alpha) w None None = Ok v /\ 0 <= v <= 1 /\
            angular_var (Some alpha) w None None = Ok (2 * v) /\
            v = 1 - circ_r alpha w.
Proof. exact circ_var_total. Qed.
Print Assumptions C07_variance_range.
Example C07_variance_range_example :
  exists v, circ_var (Some [0; PI / 2]) None None None = Ok v /\ 0 < v < 1.
Proof. exact ex_var. Qed.

(** C08 *)
Theorem C08_r_one_iff_coincident : forall alpha w, valid_sample alpha w ->
  (circ_r alpha w = 1 <->
   forall a b, observed alpha w a -> observed alpha w b -> same_dir a b).
Proof. exact circ_r_one. Qed.
Print Assumptions C08_r_one_iff_coincident.
Example C08_example_one : circ_r [1; 1 + 2 * PI; 5] (Some [1; 2; 0]) = 1.
Proof. exact ex_coincident. Qed.
Example C08_example_less : valid_sample sA (Some wA) /\ 0 < circ_r sA (Some wA) < 1.
Proof. exact (conj ex_valid ex_r_inner). Qed.

(** C09 *)
Theorem C09_r_invariant :
  (forall alpha w t, valid_sample alpha w -> circ_r (map (fun a => a + t) alpha) w = circ_r alpha w) /\
  (forall alpha w, valid_sample alpha w -> circ_r (map Ropp alpha) w = circ_r alpha w) /\
  (forall alpha alpha' w, turned alpha alpha' -> circ_r alpha w = circ_r alpha' w) /\
  (forall alpha w alpha' w', reordered alpha w alpha' w' -> circ_r alpha w = circ_r alpha' w') /\
  (forall alpha w c, 0 < c -> valid_sample alpha (Some w) ->
     circ_r alpha (Some (map (fun x => c * x) w)) = circ_r alpha (Some w)).
Proof. exact circ_r_invariant. Qed.
Print Assumptions C09_r_invariant.
Example C09_example : valid_sample sA (Some wA) /\ turned [0; PI] [2 * PI; - PI] /\
  reordered [0; PI] (Some [1; 2]) [PI; 0] (Some [2; 1]).
Proof. exact (conj ex_valid (conj ex_turned ex_reordered)). Qed.

(** C10 *)
Theorem C10_grouped_is_expanded : forall alpha (w : list nat), length w = length alpha ->
  circ_mean alpha (Some (map INR w)) = circ_mean (np_repeat alpha w) None /\
  circ_mean_and_r alpha (Some (map INR w)) = circ_mean_and_r (np_repeat alpha w) None /\
  circ_r alpha (Some (map INR w)) = circ_r (np_repeat alpha w) None.
Proof. exact grouped_expanded. Qed.
Print Assumptions C10_grouped_is_expanded.
Example C10_example : np_repeat [0; PI / 2] [1%nat; 3%nat] = [0; PI / 2; PI / 2; PI / 2].
Proof. exact ex_repeat. Qed.

(** C11 *)
Theorem C11_mean_rotates : forall alpha w t, valid_sample alpha w ->
  (circ_mean alpha w = NaN -> circ_mean (map (fun a => a + t) alpha) w = NaN) /\
  (forall m, circ_mean alpha w = Fin m ->
     exists m', circ_mean (map (fun a => a + t) alpha) w = Fin m' /\
                0 <= m' < 2 * PI /\ same_dir m' (m + t)).
Proof. exact circ_mean_rot. Qed.
Print Assumptions C11_mean_rotates.
Theorem C11_mean_reflects : forall alpha w, valid_sample alpha w ->
  (circ_mean alpha w = NaN -> circ_mean (map Ropp alpha) w = NaN) /\
  (forall m, circ_mean alpha w = Fin m ->
     exists m', circ_mean (map Ropp alpha) w = Fin m' /\
                0 <= m' < 2 * PI /\ same_dir m' (- m)).
Proof. exact circ_mean_reflect. Qed.
Print Assumptions C11_mean_reflects.
Theorem C11_mean_range : forall alpha w m, circ_mean alpha w = Fin m -> 0 <= m < 2 * PI.
Proof. exact circ_mean_range. Qed.
Print Assumptions C11_mean_range.
Theorem C11_mean_invariant :
  (forall alpha alpha' w, turned alpha alpha' -> circ_mean alpha w = circ_mean alpha' w) /\
  (forall alpha w alpha' w', reordered alpha w alpha' w' -> circ_mean alpha w = circ_mean alpha' w') /\
  (forall alpha w c, 0 < c -> valid_sample alpha (Some w) ->
     circ_mean alpha (Some (map (fun x => c * x) w)) = circ_mean alpha (Some w)).
Proof. exact circ_mean_invariant. Qed.
Print Assumptions C11_mean_invariant.
Example C11_example : valid_sample sA (Some wA) /\ circ_mean sA (Some wA) = Fin (atan 3).
Proof. exact (conj ex_valid ex_mean). Qed.

(** C12 *)
Theorem C12_mean_balances : forall alpha w m, valid_sample alpha w -> circ_mean alpha w = Fin m ->
  sample_sum (fun a => sin (a - m)) alpha w = 0 /\
  sample_sum (fun a => cos (a - m)) alpha w = circ_r alpha w * sample_size alpha w /\
  0 < sample_sum (fun a => cos (a - m)) alpha w.
Proof. exact mean_balances. Qed.
Print Assumptions C12_mean_balances.
Theorem C12_mean_maximises : forall alpha w m t, valid_sample alpha w -> circ_mean alpha w = Fin m ->
  sample_sum (fun a => cos (a - t)) alpha w <= sample_sum (fun a => cos (a - m)) alpha w /\
  (sample_sum (fun a => cos (a - t)) alpha w = sample_sum (fun a => cos (a - m)) alpha w ->
   same_dir t m).
Proof. exact mean_maximises. Qed.
Print Assumptions C12_mean_maximises.
Theorem C12_mean_minimises_separation : forall alpha w m t,
  valid_sample alpha w -> circ_mean alpha w = Fin m ->
  sample_sum (fun a => circ_dist AngSep a m) alpha w <=
  sample_sum (fun a => circ_dist AngSep a t) alpha w.
Proof. exact mean_min_angsep. Qed.
Print Assumptions C12_mean_minimises_separation.
Example C12_example : valid_sample sA (Some wA) /\ circ_mean sA (Some wA) = Fin (atan 3).
Proof. exact (conj ex_valid ex_mean). Qed.

(** C13.  The full statement (agreement for every sample) is false: the two
    functions use different tolerances for "r is zero". *)
Theorem C13_means_agree_partial : forall alpha w,
  snd (circ_mean_and_r alpha w) = circ_r alpha w /\
  (circ_r alpha w <= / 1000000000000 \/ / 100000000 < circ_r alpha w ->
   fst (circ_mean_and_r alpha w) = circ_mean alpha w).
Proof. exact mean_agree. Qed.
Print Assumptions C13_means_agree_partial.
Example C13_example : 0 < circ_r sA (Some wA) < 1 /\ circ_mean sA (Some wA) = Fin (atan 3).
Proof. exact (conj ex_r_inner ex_mean). Qed.
Theorem C13_means_agree_refuted :
  exists alpha w, valid_sample alpha (Some w) /\
    circ_mean alpha (Some w) = NaN /\ fst (circ_mean_and_r alpha (Some w)) = Fin 0.
Proof. exact mean_disagree. Qed.
Print Assumptions C13_means_agree_refuted.

(** C14.  The full statement (any groups of equal size) is false when a group has
    no mean direction. *)
Theorem C14_pooling_partial : forall gs k, gs <> [] -> (0 < k)%nat ->
  Forall (fun g => length g = k) gs ->
  Forall (fun g => is_fin (fst (circ_mean_and_r g None))) gs ->
  circ_mean_and_r_of_circs gs =
  Ok (fst (circ_mean_and_r (concat gs) None), Fin (snd (circ_mean_and_r (concat gs) None))).
Proof. exact of_circs_pooled. Qed.
Print Assumptions C14_pooling_partial.
Theorem C14_single_group : forall g, g <> [] -> is_fin (fst (circ_mean_and_r g None)) ->
  circ_mean_and_r_of_circs [g] =
  Ok (fst (circ_mean_and_r g None), Fin (snd (circ_mean_and_r g None))).
Proof. exact of_circs_single. Qed.
Print Assumptions C14_single_group.
Example C14_example : Forall (fun g => length g = 2%nat) [[0; 0]; [PI / 2; PI / 2]] /\
  Forall (fun g => is_fin (fst (circ_mean_and_r g None))) [[0; 0]; [PI / 2; PI / 2]].
Proof. exact ex_groups. Qed.
Theorem C14_pooling_refuted :
  exists gs : list (list R), Forall (fun g => length g = 2%nat) gs /\
    circ_mean_and_r_of_circs gs = Ok (NaN, NaN) /\
    fst (circ_mean_and_r (concat gs) None) = Fin 0.
Proof. exact of_circs_nan_group. Qed.
Print Assumptions C14_pooling_refuted.

(** C15 *)
Theorem C15_std : forall r, 0 < r <= 1 ->
  exists s, circ_std None None (Some r) None = Ok (Fin s) /\ 0 <= s /\ r = exp (- (s * s) / 2) /\
            (s = 0 <-> r = 1).
Proof. exact spread_std. Qed.
Print Assumptions C15_std.
Theorem C15_std_at_zero : circ_std None None (Some 0) None = Ok PInf.
Proof. exact spread_std_zero. Qed.
Theorem C15_angular : forall r, r <= 1 ->
  exists v a s, circ_var None None (Some r) None = Ok v /\
    angular_var None None (Some r) None = Ok a /\
    angular_std None None (Some r) None = Ok (Fin s) /\
    a = 2 * v /\ s * s = a /\ 0 <= s.
Proof. exact spread_angular. Qed.
Print Assumptions C15_angular.
Theorem C15_same_order : forall r1 r2, 0 < r1 -> r1 < r2 -> r2 <= 1 ->
  exists v1 v2 a1 a2 s1 s2 t1 t2,
    circ_var None None (Some r1) None = Ok v1 /\ circ_var None None (Some r2) None = Ok v2 /\
    angular_var None None (Some r1) None = Ok a1 /\ angular_var None None (Some r2) None = Ok a2 /\
    angular_std None None (Some r1) None = Ok (Fin s1) /\ angular_std None None (Some r2) None = Ok (Fin s2) /\
    circ_std None None (Some r1) None = Ok (Fin t1) /\ circ_std None None (Some r2) None = Ok (Fin t2) /\
    v2 < v1 /\ a2 < a1 /\ s2 < s1 /\ t2 < t1.
Proof. exact spread_order. Qed.
Print Assumptions C15_same_order.
Example C15_example : 0 < 1/4 /\ 1/4 < 1/2 /\ 1/2 <= 1.
Proof. lra. Qed.

(** C16 *)
Theorem C16_center : forall x y,
  - PI < circ_dist Center x y <= PI /\ same_dir (circ_dist Center x y) (x - y).
Proof. exact center_spec. Qed.
Print Assumptions C16_center.
Theorem C16_center_is_arc : forall x y, Rabs (circ_dist Center x y) = angular_distance x y.
Proof. exact center_abs. Qed.
Print Assumptions C16_center_is_arc.
Theorem C16_chord : forall x y, circ_dist Chord x y = 2 * sin (angular_distance x y / 2).
Proof. exact chord_spec. Qed.
Print Assumptions C16_chord.
Theorem C16_angular_separation : forall x y, circ_dist AngSep x y = 1 - cos (angular_distance x y).
Proof. exact angsep_spec. Qed.
Print Assumptions C16_angular_separation.
Theorem C16_same_order : forall x y x' y',
  angular_distance x y < angular_distance x' y' ->
  Rabs (circ_dist Center x y) < Rabs (circ_dist Center x' y') /\
  circ_dist Chord x y < circ_dist Chord x' y' /\
  circ_dist AngSep x y < circ_dist AngSep x' y'.
Proof. exact metrics_order. Qed.
Print Assumptions C16_same_order.
Theorem C16_directions_only : forall m x x' y y', m <> Geodesic -> same_dir x x' -> same_dir y y' ->
  circ_dist m x y = circ_dist m x' y'.
Proof. exact metrics_dirs. Qed.
Print Assumptions C16_directions_only.
Example C16_example : circ_dist Center (3 * PI) (PI / 2) = PI / 2 /\
  angular_distance 0 (PI / 4) < angular_distance 0 (PI / 2).
Proof. exact (conj ex_center ex_order). Qed.

(** C17.  The full statement (all angles) is false: the formula does not reduce
    the difference modulo 2 pi. *)
Theorem C17_geodesic_partial : forall x y, Rabs (x - y) <= 2 * PI ->
  is_arc_dist x y (circ_dist Geodesic x y).
Proof. exact geodesic_spec. Qed.
Print Assumptions C17_geodesic_partial.
Example C17_example : Rabs (PI - - PI) <= 2 * PI /\ circ_dist Geodesic PI (- PI) = 0.
Proof. exact ex_geo. Qed.
Theorem C17_geodesic_refuted :
  exists x y, same_dir x (y + PI) /\ circ_dist Geodesic x y < 0 /\
              angular_distance x y = PI /\
              circ_dist Geodesic (x - 2 * PI) y = PI.
Proof. exact geodesic_wrong. Qed.
Print Assumptions C17_geodesic_refuted.

(** C18 *)
Theorem C18_chunked_equals_direct : forall alpha beta chunk, alpha <> [] -> (0 < chunk)%Z ->
  circ_mean_deviation_chunked alpha beta chunk = Ok (circ_mean_deviation alpha beta).
Proof. exact chunked_eq. Qed.
Print Assumptions C18_chunked_equals_direct.
Theorem C18_chunked_rejects : forall alpha beta chunk, (chunk <= 0)%Z ->
  circ_mean_deviation_chunked alpha beta chunk = Err ValueError.
Proof. exact chunked_err. Qed.
Print Assumptions C18_chunked_rejects.
Theorem C18_one_entry_per_beta : forall alpha beta,
  length (circ_mean_deviation alpha beta) = length beta.
Proof. exact deviation_length. Qed.
Print Assumptions C18_one_entry_per_beta.
Example C18_example : circ_mean_deviation_chunked [0; PI] [0; 1; 2] 2 =
  Ok (circ_mean_deviation [0; PI] [0; 1; 2]).
Proof. exact ex_chunk. Qed.

(** C73.  Full statement: for every valid grouped sample circ_var lies in [0, 1].
    False: the bin correction multiplies r by a factor > 1 with no cap. *)
Theorem C73_binned_variance_refuted :
  exists alpha w v, valid_sample alpha (Some w) /\
    circ_var (Some alpha) (Some w) None None = Ok v /\ v < 0 /\
    angular_std (Some alpha) (Some w) None None = Ok NaN /\
    circ_std (Some alpha) (Some w) None None = Ok NaN.
Proof. exact binned_var_negative. Qed.
Print Assumptions C73_binned_variance_refuted.
