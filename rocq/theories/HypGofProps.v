(** Property theorems for the goodness-of-fit and randomisation tests of hypothesis.py
    (C27, C34-C37, C83-C86). *)
From Verif Require Import Prelude NpModel NpProofs CircleSpec UtilsModel UtilsProofs
  DescModel DescProofs DescSpec DescApi DescApi2 Desc2Model Desc2Spec
  HypModel HypSpec HypProofs HypGofModel HypGofSpec HypGofProofs HypGof2Proofs HypGof3Proofs HypGof4Proofs HypGof5Proofs HypGofEx.

(** C27 *)
Theorem C27_rayleigh : forall n r B draws, (0 < n)%Z -> 0 <= r <= 1 -> (1 < B)%Z -> length draws = Z.to_nat B ->
  (forall d, In d draws -> length d = Z.to_nat n) ->
  exists t k p, rayleigh_test None None (Some r) (Some n) B draws = Ok t /\ ray_boot t = Some p /\
    counts (fun d => exists t', rayleigh_test (Some d) None None None B draws = Ok t' /\ ray_z t <= ray_z t') draws k /\
    p = (INR k + 1) / (IZR B + 1) /\ / (IZR B + 1) <= p <= 1.
Proof. exact rayleigh_boot. Qed.
Print Assumptions C27_rayleigh.
Theorem C27_kuiper : forall a B draws, a <> [] -> (1 < B)%Z -> length draws = Z.to_nat B ->
  (forall d, In d draws -> d <> []) ->
  exists t k, kuiper_test a B draws = Ok t /\
    counts (fun d => exists t', kuiper_test d B draws = Ok t' /\ gof_stat t <= gof_stat t') draws k /\
    gof_pval t = (INR k + 1) / (IZR B + 1) /\ / (IZR B + 1) <= gof_pval t <= 1.
Proof. exact kuiper_mc. Qed.
Print Assumptions C27_kuiper.
Theorem C27_watson : forall a B draws, a <> [] -> (1 < B)%Z -> length draws = Z.to_nat B ->
  (forall d, In d draws -> d <> []) ->
  exists t k, watson_test a B draws = Ok t /\
    counts (fun d => exists t', watson_test d B draws = Ok t' /\ gof_stat t <= gof_stat t') draws k /\
    gof_pval t = (INR k + 1) / (IZR B + 1) /\ / (IZR B + 1) <= gof_pval t <= 1.
Proof. exact watson_mc. Qed.
Print Assumptions C27_watson.
Theorem C27_rao : forall a B draws, a <> [] -> (0 < B)%Z -> length draws = Z.to_nat B ->
  (forall d, In d draws -> d <> []) ->
  exists t k, rao_spacing_test a None B draws = Ok t /\
    counts (fun d => exists t', rao_spacing_test d None B draws = Ok t' /\ gof_stat t <= gof_stat t') draws k /\
    gof_pval t = (INR k + 1) / (IZR B + 1) /\ / (IZR B + 1) <= gof_pval t <= 1.
Proof. exact rao_mc. Qed.
Print Assumptions C27_rao.
Theorem C27_randomisation : forall s1 s2 B draws, s1 <> [] -> s2 <> [] -> (0 < B)%Z -> length draws = Z.to_nat B ->
  (forall d, In d draws -> Permutation d (s1 ++ s2)) ->
  exists t k, angular_randomisation_test [s1; s2] B draws = Ok t /\
    counts (fun d => exists t', angular_randomisation_test [firstn (length s1) d; skipn (length s1) d] B draws = Ok t' /\
                                gof_stat t <= gof_stat t') draws k /\
    gof_pval t = (INR k + 1) / (IZR B + 1) /\ / (IZR B + 1) <= gof_pval t <= 1.
Proof. exact art_mc. Qed.
Print Assumptions C27_randomisation.
Theorem C27_kuiper_antitone : forall a b B draws ta tb, (1 < B)%Z ->
  kuiper_test a B draws = Ok ta -> kuiper_test b B draws = Ok tb ->
  gof_stat ta <= gof_stat tb -> gof_pval tb <= gof_pval ta.
Proof. exact kuiper_antitone. Qed.
Print Assumptions C27_kuiper_antitone.
Theorem C27_watson_antitone : forall a b B draws ta tb, (1 < B)%Z ->
  watson_test a B draws = Ok ta -> watson_test b B draws = Ok tb ->
  gof_stat ta <= gof_stat tb -> gof_pval tb <= gof_pval ta.
Proof. exact watson_antitone. Qed.
Print Assumptions C27_watson_antitone.
Theorem C27_rao_antitone : forall a b wa wb B draws ta tb,
  rao_spacing_test a wa B draws = Ok ta -> rao_spacing_test b wb B draws = Ok tb ->
  gof_stat ta <= gof_stat tb -> gof_pval tb <= gof_pval ta.
Proof. exact rao_antitone. Qed.
Print Assumptions C27_rao_antitone.
Theorem C27_randomisation_antitone : forall a1 a2 b1 b2 B draws ta tb, length a1 = length b1 ->
  angular_randomisation_test [a1; a2] B draws = Ok ta -> angular_randomisation_test [b1; b2] B draws = Ok tb ->
  gof_stat ta <= gof_stat tb -> gof_pval tb <= gof_pval ta.
Proof. exact art_antitone. Qed.
Print Assumptions C27_randomisation_antitone.
Example C27_example : exists t, kuiper_test [0; PI / 2] 2 [[0; 0]; [1; PI + 1]] = Ok t /\ gof_pval t = 2 / 3.
Proof. exact ex27. Qed.

(** C34 *)
Theorem C34_kuiper_turned : forall t a b B draws, within_turn a -> within_turn b -> turned_by t a b ->
  kuiper_test b B draws = kuiper_test a B draws.
Proof. exact kuiper_turned. Qed.
Print Assumptions C34_kuiper_turned.
Theorem C34_kuiper_mirrored : forall t a b B draws, within_turn a -> within_turn b -> mirrored t a b ->
  kuiper_test b B draws = kuiper_test a B draws.
Proof. exact kuiper_mirrored. Qed.
Print Assumptions C34_kuiper_mirrored.
Theorem C34_kuiper_permuted : forall a b B draws, Permutation a b -> kuiper_test b B draws = kuiper_test a B draws.
Proof. exact kuiper_permuted. Qed.
Print Assumptions C34_kuiper_permuted.
Theorem C34_kuiper_bounds : forall a B draws, a <> [] -> within_turn a -> (0 < B)%Z ->
  let n := INR (length a) in
  let f := sqrt n + 155/1000 + (24/100) / sqrt n in
  exists t, kuiper_test a B draws = Ok t /\ f / n <= gof_stat t <= f /\
    (gof_stat t = f / n <-> equally_spaced a) /\ (gof_stat t = f <-> coincident a).
Proof. exact kuiper_test_bounds. Qed.
Print Assumptions C34_kuiper_bounds.
Example C34_example_turn : within_turn [0; PI / 2; 7 * PI / 4] /\ within_turn [PI / 2; PI; PI / 4] /\
  turned_by (PI / 2) [0; PI / 2; 7 * PI / 4] [PI / 2; PI; PI / 4].
Proof. exact ex_turn. Qed.
Example C34_example_mirror : within_turn [0; PI / 2; 7 * PI / 4] /\ within_turn [0; 3 * PI / 2; PI / 4] /\
  mirrored 0 [0; PI / 2; 7 * PI / 4] [0; 3 * PI / 2; PI / 4].
Proof. exact ex_mirror. Qed.
Example C34_example_spaced : equally_spaced [PI + 1; 1] /\ within_turn [PI + 1; 1] /\ coincident [1; 1] /\ ~ coincident [0; 1].
Proof. exact ex_spaced. Qed.
Example C34_C35_C36_example_values : within_turn [0; PI / 2] /\
  (exists t, kuiper_test [0; PI / 2] 1 [] = Ok t /\ gof_stat t = 3 / 4 * (sqrt 2 + 155/1000 + (24/100) / sqrt 2)) /\
  (exists t, watson_test [0; PI / 2] 1 [] = Ok t /\ gof_stat t = 7 / 96) /\
  (exists t, rao_spacing_test [0; PI / 2] None 1 [] = Ok t /\ gof_stat t = 90).
Proof. exact ex_values. Qed.

(** C35 *)
Theorem C35_watson_turned : forall t a b B draws, within_turn a -> within_turn b -> turned_by t a b ->
  watson_test b B draws = watson_test a B draws.
Proof. exact watson_turned. Qed.
Print Assumptions C35_watson_turned.
Theorem C35_watson_mirrored : forall t a b B draws, within_turn a -> within_turn b -> mirrored t a b ->
  watson_test b B draws = watson_test a B draws.
Proof. exact watson_mirrored. Qed.
Print Assumptions C35_watson_mirrored.
Theorem C35_watson_permuted : forall a b B draws, Permutation a b -> watson_test b B draws = watson_test a B draws.
Proof. exact watson_permuted. Qed.
Print Assumptions C35_watson_permuted.
Theorem C35_watson_bounds : forall a B draws, a <> [] -> within_turn a -> (0 < B)%Z ->
  exists t, watson_test a B draws = Ok t /\ 1 / (12 * INR (length a)) <= gof_stat t /\
    (gof_stat t = 1 / (12 * INR (length a)) <-> equally_spaced a).
Proof. exact watson_test_bounds. Qed.
Print Assumptions C35_watson_bounds.

(** C36 *)
Theorem C36_rao_turned : forall t a b B draws, within_turn a -> within_turn b -> turned_by t a b ->
  rao_spacing_test b None B draws = rao_spacing_test a None B draws.
Proof. exact rao_turned. Qed.
Print Assumptions C36_rao_turned.
Theorem C36_rao_mirrored : forall t a b B draws, within_turn a -> within_turn b -> mirrored t a b ->
  rao_spacing_test b None B draws = rao_spacing_test a None B draws.
Proof. exact rao_mirrored. Qed.
Print Assumptions C36_rao_mirrored.
Theorem C36_rao_permuted : forall a b B draws, Permutation a b ->
  rao_spacing_test b None B draws = rao_spacing_test a None B draws.
Proof. exact rao_permuted. Qed.
Print Assumptions C36_rao_permuted.
Theorem C36_rao_bounds : forall a B draws, a <> [] -> within_turn a -> (0 < B)%Z ->
  let top := 360 * (1 - / INR (length a)) in
  exists t, rao_spacing_test a None B draws = Ok t /\ 0 <= gof_stat t <= top /\
    (gof_stat t = 0 <-> equally_spaced a) /\ (gof_stat t = top <-> coincident a).
Proof. exact rao_test_bounds. Qed.
Print Assumptions C36_rao_bounds.

(** C37 *)
Theorem C37_range_test_valid : forall alpha, alpha <> [] -> Forall in_two_turns alpha ->
  exists r p, circ_range_test alpha = Ok (r, p) /\ circ_range alpha = Ok r /\ 0 <= p <= 1 /\
    (p = 1 <-> equally_spaced alpha) /\
    ((2 <= length alpha)%nat -> (p = 0 <-> forall a b, In a alpha -> In b alpha -> same_dir a b)).
Proof. exact range_test_valid. Qed.
Print Assumptions C37_range_test_valid.
Theorem C37_range_test_strict : forall a b ra pa rb pb, length a = length b ->
  circ_range_test a = Ok (ra, pa) -> circ_range_test b = Ok (rb, pb) -> ra < rb -> pa < pb.
Proof. exact range_test_strict. Qed.
Print Assumptions C37_range_test_strict.
Theorem C37_range_test_turned : forall t a b, a <> [] -> Forall in_two_turns a -> Forall in_two_turns b ->
  turned_by t a b -> circ_range_test b = circ_range_test a.
Proof. exact range_test_turned. Qed.
Print Assumptions C37_range_test_turned.
Theorem C37_range_test_mirrored : forall t a b, a <> [] -> Forall in_two_turns a -> Forall in_two_turns b ->
  mirrored t a b -> circ_range_test b = circ_range_test a.
Proof. exact range_test_mirrored. Qed.
Print Assumptions C37_range_test_mirrored.
Theorem C37_range_test_permuted : forall a b, Permutation a b -> circ_range_test b = circ_range_test a.
Proof. exact range_test_permuted. Qed.
Print Assumptions C37_range_test_permuted.
Theorem C37_range_test_errors : forall alpha,
  (alpha = [] \/ Exists (fun a => ~ in_two_turns a) alpha) <-> circ_range_test alpha = Err ValueError.
Proof. exact range_test_errors. Qed.
Print Assumptions C37_range_test_errors.
Example C37_example : Forall in_two_turns [0; PI / 2] /\ circ_range_test [0; PI / 2] = Ok (PI / 2, 1 / 2).
Proof. exact ex37. Qed.

(** C83.  Full statement: the series p-values (n_simulation = 1) of watson_test and
    kuiper_test lie in [0, 1].  True for Watson; false for Kuiper. *)
Theorem C83_watson_probability_partial : forall a, a <> [] ->
  exists t, watson_test a 1 [] = Ok t /\ gof_sim t = false /\ 0 < gof_pval t <= 1 /\
    gof_pval t < 2 * exp (- 2 * PI ^ 2 * gof_stat t).
Proof. exact watson_test_prob. Qed.
Print Assumptions C83_watson_probability_partial.
Theorem C83_kuiper_probability_refuted : forall a, coincident a -> (2 <= length a)%nat ->
  exists t, kuiper_test a 1 [] = Ok t /\ gof_sim t = false /\ gof_pval t < 0.
Proof. exact kuiper_asym_negative. Qed.
Print Assumptions C83_kuiper_probability_refuted.
Example C83_example : coincident [1; 1] /\ (2 <= length [1; 1])%nat.
Proof. split; [exact (proj1 (proj2 (proj2 ex_spaced)))|simpl; lia]. Qed.

(** C84.  Full statement: the statistics depend on the directions only.  Proved for angles
    within one turn (C34-C36); false in general. *)
Theorem C84_directions_only_refuted : exists a b, Forall2 same_dir a b /\
  (exists ta tb, kuiper_test a 1 [] = Ok ta /\ kuiper_test b 1 [] = Ok tb /\ gof_stat tb = 2 * gof_stat ta) /\
  (exists ta tb, watson_test a 1 [] = Ok ta /\ watson_test b 1 [] = Ok tb /\ gof_stat tb = 7 * gof_stat ta) /\
  (exists tb, rao_spacing_test b None 1 [] = Ok tb /\ gof_stat tb = 540).
Proof. exact turn_refuted. Qed.
Print Assumptions C84_directions_only_refuted.

(** C85 *)
Theorem C85_randomisation_statistic : forall s1 s2 B draws, s1 <> [] -> s2 <> [] -> within_turn (s1 ++ s2) -> (0 < B)%Z ->
  exists t D, angular_randomisation_test [s1; s2] B draws = Ok t /\
    (forall a b, In a s1 -> In b s2 -> is_arc_dist a b (D a b)) /\
    gof_stat t = sqrt (INR (length s1) * INR (length s2) / (INR (length s1) + INR (length s2))) *
                 Rsum (map (fun a => Rsum (map (D a) s2)) s1).
Proof. exact art_spec. Qed.
Print Assumptions C85_randomisation_statistic.
Theorem C85_randomisation_turned : forall t s1 s2 s1' s2' B B' draws draws' r r',
  turned_by t s1 s1' -> turned_by t s2 s2' -> within_turn (s1 ++ s2) -> within_turn (s1' ++ s2') ->
  angular_randomisation_test [s1; s2] B draws = Ok r -> angular_randomisation_test [s1'; s2'] B' draws' = Ok r' ->
  gof_stat r' = gof_stat r.
Proof. exact art_turned. Qed.
Print Assumptions C85_randomisation_turned.
Theorem C85_randomisation_mirrored : forall t s1 s2 s1' s2' B B' draws draws' r r',
  mirrored t s1 s1' -> mirrored t s2 s2' -> within_turn (s1 ++ s2) -> within_turn (s1' ++ s2') ->
  angular_randomisation_test [s1; s2] B draws = Ok r -> angular_randomisation_test [s1'; s2'] B' draws' = Ok r' ->
  gof_stat r' = gof_stat r.
Proof. exact art_mirrored. Qed.
Print Assumptions C85_randomisation_mirrored.
Theorem C85_randomisation_symmetric : forall s1 s2 B B' draws draws' r r',
  angular_randomisation_test [s1; s2] B draws = Ok r -> angular_randomisation_test [s2; s1] B' draws' = Ok r' ->
  gof_stat r' = gof_stat r.
Proof. exact art_symmetric. Qed.
Print Assumptions C85_randomisation_symmetric.
Theorem C85_randomisation_errors : forall samples B draws,
  (length samples <> 2%nat \/ In [] samples \/ (B <= 0)%Z) <-> angular_randomisation_test samples B draws = Err ValueError.
Proof. exact art_errors. Qed.
Print Assumptions C85_randomisation_errors.
Example C85_example : within_turn ([0] ++ [PI / 2; PI]) /\
  exists t, angular_randomisation_test [[0]; [PI / 2; PI]] 1 [] = Ok t /\ gof_stat t = sqrt (2 / 3) * (3 * PI / 2).
Proof. exact ex85. Qed.

(** C86.  Full statement: a grouped call equals the call on the expanded sample, for every
    weight vector the test accepts (weights within isclose of an integer count as that
    integer).  Proved for exactly integral weights; false for the others: astype(int)
    truncates. *)
Theorem C86_rao_grouped_partial : forall alpha ks B draws, length ks = length alpha ->
  rao_spacing_test alpha (Some (map INR ks)) B draws = rao_spacing_test (np_repeat alpha ks) None B draws.
Proof. exact rao_grouped. Qed.
Print Assumptions C86_rao_grouped_partial.
Theorem C86_rao_near_integer_refuted : exists alpha w ks ta tb,
  Forall2 (fun v k => isclose v (INR k) = true) w ks /\
  rao_spacing_test alpha (Some w) 1 [] = Ok ta /\ gof_stat ta = 120 /\
  rao_spacing_test alpha (Some (map INR ks)) 1 [] = Ok tb /\ gof_stat tb = 180.
Proof. exact rao_near_integer_refuted. Qed.
Print Assumptions C86_rao_near_integer_refuted.
Example C86_example : length [3%nat; 1%nat] = length [0; PI] /\ np_repeat [0; PI] [3%nat; 1%nat] = [0; 0; 0; PI].
Proof. split; reflexivity. Qed.
