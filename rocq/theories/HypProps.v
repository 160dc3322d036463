(** Property theorems for the one-sample tests of hypothesis.py (C26, C28-C31, C81, C82). *)
From Verif Require Import Prelude NpModel NpProofs CircleSpec UtilsModel UtilsProofs
  DescModel DescProofs DescSpec DescApi DescApi2 DescEx Desc2Model Desc2Spec ArcProofs Desc3Proofs Desc4Proofs
  Desc2Proofs Desc6Proofs Desc7Proofs Desc8Proofs Desc2Ex HypModel HypSpec HypProofs Hyp2Proofs Hyp3Proofs HypEx.

(** C26 *)
Theorem C26_rayleigh_valid : forall n r B draws, (0 < n)%Z -> 0 <= r <= 1 -> (0 < B)%Z ->
  exists t, rayleigh_test None None (Some r) (Some n) B draws = Ok t /\
    ray_r t = r /\ ray_z t = IZR n * r ^ 2 /\ 0 < ray_pval t <= 1 /\ (ray_pval t = 1 <-> r = 0).
Proof. exact rayleigh_valid. Qed.
Print Assumptions C26_rayleigh_valid.
Theorem C26_rayleigh_monotone : forall n n' r r' B draws draws' t t',
  (0 < n)%Z -> (n <= n')%Z -> 0 <= r -> r <= r' -> r' <= 1 ->
  rayleigh_test None None (Some r) (Some n) B draws = Ok t ->
  rayleigh_test None None (Some r') (Some n') B draws' = Ok t' ->
  ray_pval t' <= ray_pval t /\ (r < r' -> ray_pval t' < ray_pval t).
Proof. exact rayleigh_monotone. Qed.
Print Assumptions C26_rayleigh_monotone.
Theorem C26_rayleigh_errors : forall alpha w r n B draws,
  ((B <= 0)%Z \/ (match n with None => True | Some k => (k <= 0)%Z end) \/ ~ 0 <= r <= 1)
  <-> rayleigh_test alpha w (Some r) n B draws = Err ValueError.
Proof. exact rayleigh_errors. Qed.
Print Assumptions C26_rayleigh_errors.
Theorem C26_rayleigh_sample : forall alpha w k n B draws, valid_sample alpha w ->
  sample_size alpha w = IZR k ->
  rayleigh_test (Some alpha) w None n B draws =
  rayleigh_test None None (Some (circ_r alpha w)) (Some k) B draws.
Proof. exact rayleigh_sample. Qed.
Print Assumptions C26_rayleigh_sample.
Theorem C26_rayleigh_sample_z : forall alpha w k n B draws, valid_sample alpha w ->
  sample_size alpha w = IZR k -> (0 < B)%Z ->
  exists t, rayleigh_test (Some alpha) w None n B draws = Ok t /\ ray_r t = circ_r alpha w /\
    ray_z t = (sample_sum cos alpha w ^ 2 + sample_sum sin alpha w ^ 2) / sample_size alpha w.
Proof. exact rayleigh_sample_z. Qed.
Print Assumptions C26_rayleigh_sample_z.
Theorem C26_rayleigh_fractional_weights : forall alpha w n B draws, valid_sample alpha w -> (0 < B)%Z ->
  (forall k : Z, / 100000 * Rabs (IZR k) + / 100000000 < Rabs (sample_size alpha w - IZR k)) ->
  rayleigh_test (Some alpha) w None n B draws = Err ValueError.
Proof. exact rayleigh_sample_fraction. Qed.
Print Assumptions C26_rayleigh_fractional_weights.
Example C26_example : exists t, rayleigh_test None None (Some (3/5)) (Some 10%Z) 1 [] = Ok t /\
  ray_z t = 18/5 /\ 0 < ray_pval t < 1.
Proof. exact ex26. Qed.
Example C26_example_sample : valid_sample [0; PI / 2] (Some [2; 3]) /\
  sample_size [0; PI / 2] (Some [2; 3]) = IZR 5.
Proof. exact ex26_sample. Qed.

(** C28.  Full statement: V = sum w_i cos(alpha_i - angle) for every weighted sample with a
    defined mean.  Proved when the total weight is an integer; false otherwise, because
    n = int(sum(w)) truncates. *)
Theorem C28_projection_partial : forall sf angle alpha w k r n, valid_sample alpha w ->
  sample_size alpha w = IZR k -> / 1000000000000 < circ_r alpha w ->
  let V := sample_sum (fun a => cos (a - angle)) alpha w in
  V_test sf angle (Some alpha) w None r n =
    Ok {| v_V := Fin V; v_u := Fin (V * sqrt (2 / IZR k)); v_pval := Fin (sf (V * sqrt (2 / IZR k))) |}.
Proof. exact V_sample. Qed.
Print Assumptions C28_projection_partial.
Theorem C28_given_summary : forall sf angle m r n alpha w, (0 < n)%Z -> 0 <= r <= 1 ->
  V_test sf angle alpha w (Some (Fin m)) (Some r) (Some n) =
    Ok {| v_V := Fin (IZR n * r * cos (m - angle)); v_u := Fin (IZR n * r * cos (m - angle) * sqrt (2 / IZR n));
          v_pval := Fin (sf (IZR n * r * cos (m - angle) * sqrt (2 / IZR n))) |}.
Proof. exact V_given. Qed.
Print Assumptions C28_given_summary.
Theorem C28_bound : forall angle alpha w, valid_sample alpha w ->
  Rabs (sample_sum (fun a => cos (a - angle)) alpha w) <= circ_r alpha w * sample_size alpha w
    <= sample_size alpha w.
Proof. exact sample_cos_bound. Qed.
Print Assumptions C28_bound.
Theorem C28_maximal_at_mean : forall sf angle alpha w k m V u p, valid_sample alpha w ->
  sample_size alpha w = IZR k -> circ_mean alpha w = Fin m ->
  V_test sf angle (Some alpha) w None None None = Ok {| v_V := Fin V; v_u := u; v_pval := p |} ->
  exists V0 u0 p0, V_test sf m (Some alpha) w None None None = Ok {| v_V := Fin V0; v_u := u0; v_pval := p0 |} /\
    V <= V0 /\ (V = V0 <-> same_dir angle m).
Proof. exact V_max. Qed.
Print Assumptions C28_maximal_at_mean.
Theorem C28_whole_turns : forall sf angle angle' alpha w m r n, same_dir angle angle' ->
  V_test sf angle alpha w m r n = V_test sf angle' alpha w m r n.
Proof. exact V_periodic. Qed.
Print Assumptions C28_whole_turns.
Theorem C28_rotation : forall sf angle t alpha w k, valid_sample alpha w -> sample_size alpha w = IZR k ->
  / 1000000000000 < circ_r alpha w ->
  V_test sf (angle + t) (Some (map (fun a => a + t) alpha)) w None None None =
  V_test sf angle (Some alpha) w None None None.
Proof. exact V_rot. Qed.
Print Assumptions C28_rotation.
Theorem C28_fractional_weights_refuted : forall sf, exists angle alpha w V u p,
  valid_sample alpha (Some w) /\ / 1000000000000 < circ_r alpha (Some w) /\
  V_test sf angle (Some alpha) (Some w) None None None = Ok {| v_V := Fin V; v_u := u; v_pval := p |} /\
  V <> sample_sum (fun a => cos (a - angle)) alpha (Some w).
Proof. exact V_fraction. Qed.
Print Assumptions C28_fractional_weights_refuted.
Example C28_example : valid_sample [0; PI / 2] None /\ sample_size [0; PI / 2] None = IZR 2 /\
  circ_mean [0; PI / 2] None = Fin (PI / 4) /\ / 1000000000000 < circ_r [0; PI / 2] None /\
  sample_sum (fun a => cos (a - 0)) [0; PI / 2] None = 1.
Proof. exact ex28. Qed.

(** C29 *)
Theorem C29_rejects_outside : forall chi angle alpha w lb ub, exists b,
  one_sample_test chi angle alpha w (Some lb) (Some ub) = Ok b /\ (b = true <-> ~ on_ccw_arc angle lb ub).
Proof. exact one_sample_bounds. Qed.
Print Assumptions C29_rejects_outside.
Theorem C29_whole_turns : forall chi angle angle' lb lb' ub ub' alpha w,
  same_dir angle angle' -> same_dir lb lb' -> same_dir ub ub' ->
  one_sample_test chi angle alpha w (Some lb) (Some ub) = one_sample_test chi angle' alpha w (Some lb') (Some ub').
Proof. exact one_sample_turns. Qed.
Print Assumptions C29_whole_turns.
Theorem C29_rotation_bounds : forall chi angle lb ub alpha w t,
  one_sample_test chi (angle + t) alpha w (Some (lb + t)) (Some (ub + t))
  = one_sample_test chi angle alpha w (Some lb) (Some ub).
Proof. exact one_sample_turn_rot. Qed.
Print Assumptions C29_rotation_bounds.
Theorem C29_rotation_sample : forall chi angle alpha w t, valid_sample alpha w ->
  one_sample_test chi (angle + t) (Some (map (fun a => a + t) alpha)) w None None
  = one_sample_test chi angle (Some alpha) w None None.
Proof. exact one_sample_rot. Qed.
Print Assumptions C29_rotation_sample.
Theorem C29_mean_never_rejected : forall chi alpha w m b, valid_sample alpha w -> 0 < chi ->
  circ_mean alpha w = Fin m ->
  one_sample_test chi m (Some alpha) w None None = Ok b -> b = false.
Proof. exact one_sample_mean. Qed.
Print Assumptions C29_mean_never_rejected.
Example C29_example : exists m, valid_sample ten_thirds None /\ circ_mean ten_thirds None = Fin m /\
  exists b, one_sample_test (384/100) m (Some ten_thirds) None None None = Ok b.
Proof. exact ex29. Qed.
Example C29_example_bounds : forall chi,
  one_sample_test chi 0 None None (Some (7 * PI / 4)) (Some (PI / 4)) = Ok false /\
  one_sample_test chi PI None None (Some (7 * PI / 4)) (Some (PI / 4)) = Ok true.
Proof. exact ex29_bounds. Qed.

(** C30.  Full statement: m is the minimum over all closed half circles, so the result is
    unchanged by rotation, and pval is in (0, 1].  Refuted below: only the half circles that
    start in [0, pi) are scanned.  What holds is C30_scan_partial. *)
Theorem C30_rotation_refuted : forall s, (0 < s)%Z -> exists alpha t x y,
  omnibus_test alpha s = Ok x /\ omnibus_test (map (fun a => a + t) alpha) s = Ok y /\
  omni_m x = 1%nat /\ omni_m y = 0%nat /\ omni_pval x = 0 /\ omni_pval y = 1.
Proof. exact omnibus_rot_refuted. Qed.
Print Assumptions C30_rotation_refuted.
Theorem C30_opposite_points_refuted : forall s, (0 < s)%Z -> exists t,
  omnibus_test [0; PI] s = Ok t /\ omni_pval t = 0 /\ omni_A t = PInf.
Proof. exact omnibus_opposite_refuted. Qed.
Print Assumptions C30_opposite_points_refuted.
Theorem C30_scan_partial : forall alpha s, (0 < s)%Z -> alpha <> [] ->
  exists t, omnibus_test alpha s = Ok t /\
    (exists i, (i < Z.to_nat s * 360)%nat /\
       counts (in_closed_half (PI * INR i / INR (Z.to_nat s * 360))) alpha (omni_m t)) /\
    (forall i k, (i < Z.to_nat s * 360)%nat ->
       counts (in_closed_half (PI * INR i / INR (Z.to_nat s * 360))) alpha k -> (omni_m t <= k)%nat) /\
    ((2 * omni_m t < length alpha)%nat ->
       omni_pval t = hodges_ajne_p (length alpha) (omni_m t) /\
       omni_A t = Fin (PI * sqrt (INR (length alpha)) / (2 * (INR (length alpha) - 2 * INR (omni_m t))))) /\
    ((length alpha <= 2 * omni_m t)%nat -> omni_pval t = 0 /\ omni_A t = PInf).
Proof. exact omnibus_spec. Qed.
Print Assumptions C30_scan_partial.
Theorem C30_tail_positive_partial : forall n m, (2 * m < n)%nat -> 0 < hodges_ajne_p n m.
Proof. exact hodges_ajne_pos. Qed.
Print Assumptions C30_tail_positive_partial.
Theorem C30_order_partial : forall alpha alpha' s, Permutation alpha alpha' ->
  omnibus_test alpha s = omnibus_test alpha' s.
Proof. exact omnibus_perm. Qed.
Print Assumptions C30_order_partial.
Theorem C30_whole_turns_partial : forall alpha alpha' s, turned alpha alpha' ->
  omnibus_test alpha s = omnibus_test alpha' s.
Proof. exact omnibus_turned. Qed.
Print Assumptions C30_whole_turns_partial.
Example C30_example : omnibus_m 1 [3 * PI / 4; 5 * PI / 4] = 1%nat /\
  omnibus_m 1 [3 * PI / 4 + PI; 5 * PI / 4 + PI] = 0%nat.
Proof. exact (conj (omnibus_at_pi 1 (le_n 1)) (omnibus_at_0 1 (le_n 1))). Qed.

(** C31 *)
Theorem C31_batschelet_counts : forall angle alpha, alpha <> [] ->
  exists c p, batschelet_test angle alpha = Ok (c, p) /\
    counts (fun a => ~ in_open_half angle a) alpha c /\ (c <= length alpha)%nat /\ 0 < p <= 1.
Proof. exact batschelet_spec. Qed.
Print Assumptions C31_batschelet_counts.
Theorem C31_batschelet_monotone : forall angle alpha angle' alpha' c p c' p',
  length alpha = length alpha' ->
  batschelet_test angle alpha = Ok (c, p) -> batschelet_test angle' alpha' = Ok (c', p') ->
  (c <= c')%nat -> (2 * c' <= length alpha)%nat -> p <= p'.
Proof. exact batschelet_more. Qed.
Print Assumptions C31_batschelet_monotone.
Theorem C31_batschelet_rotation : forall angle alpha t,
  batschelet_test (angle + t) (map (fun a => a + t) alpha) = batschelet_test angle alpha.
Proof. exact batschelet_rot. Qed.
Print Assumptions C31_batschelet_rotation.
Theorem C31_binomial_counts : forall alpha md, alpha <> [] ->
  exists t, binomial_test alpha md = Ok t /\
    counts (clockwise_of md) alpha (bin_n1 t) /\
    counts (fun a => anticlockwise_of md a \/ opposite_to md a) alpha (bin_n2 t) /\
    counts (fun a => ~ same_dir a md) alpha (bin_neff t) /\
    bin_neff t = (bin_n1 t + bin_n2 t)%nat /\ 0 < bin_pval t <= 1.
Proof. exact binomial_spec. Qed.
Print Assumptions C31_binomial_counts.
Theorem C31_binomial_reflection : forall alpha md t t' k, alpha <> [] -> binomial_test alpha md = Ok t ->
  binomial_test (map (fun a => md - (a - md)) alpha) md = Ok t' ->
  counts (opposite_to md) alpha k ->
  (bin_n1 t' + k = bin_n2 t)%nat /\ (bin_n2 t' = bin_n1 t + k)%nat /\
  (k = 0%nat -> bin_pval t' = bin_pval t).
Proof. exact binomial_reflect. Qed.
Print Assumptions C31_binomial_reflection.
Example C31_example : exists p, batschelet_test 0 [PI / 4; PI; - PI / 4; 0] = Ok (1%nat, p).
Proof. exact ex31. Qed.
Example C31_example_binomial : exists t, binomial_test [PI / 4; PI; - PI / 4; 0] 0 = Ok t /\
  bin_n1 t = 1%nat /\ bin_n2 t = 2%nat /\ bin_neff t = 3%nat.
Proof. exact ex31_binomial. Qed.

(** C81 *)
Theorem C81_chisquare : forall sf w, w <> [] -> Forall (fun x => 0 <= x) w -> 0 < Rsum w ->
  exists x, chisquare_test sf w = Ok (Fin x, Fin (sf (length w - 1)%nat x)) /\
    0 <= x /\ (x = 0 <-> forall a b, In a w -> In b w -> a = b) /\
    x = INR (length w) * Rsum (map (fun y => y ^ 2) w) / Rsum w - Rsum w.
Proof. exact chisquare_spec. Qed.
Print Assumptions C81_chisquare.
Theorem C81_chisquare_order : forall sf w w', Permutation w w' -> chisquare_test sf w = chisquare_test sf w'.
Proof. exact chisquare_perm. Qed.
Print Assumptions C81_chisquare_order.
Theorem C81_chisquare_errors : forall sf w,
  chisquare_test sf w = Err ValueError <-> (w = [] \/ exists x, In x w /\ x < 0).
Proof. exact chisquare_errors. Qed.
Print Assumptions C81_chisquare_errors.
Example C81_example : forall sf, chisquare_test sf [1; 2; 3] = Ok (Fin 1, Fin (sf 2%nat 1)).
Proof. exact ex81. Qed.

(** C82 *)
Theorem C82_symmetry_signed_offsets : forall (T : Type) (wx : list R -> T) alpha m, alpha <> [] ->
  exists d, symmetry_test wx alpha (Some m) = Ok (Some (wx d)) /\
    Forall2 (fun a x => - PI <= x < PI /\ same_dir x (a - m)) alpha d.
Proof. exact @symmetry_diffs_spec. Qed.
Print Assumptions C82_symmetry_signed_offsets.
Theorem C82_symmetry_rotation : forall (T : Type) (wx : list R -> T) alpha t,
  symmetry_test wx (map (fun a => a + t) alpha) None = symmetry_test wx alpha None /\
  forall m, symmetry_test wx (map (fun a => a + t) alpha) (Some (m + t)) = symmetry_test wx alpha (Some m).
Proof. exact (fun T wx alpha t => conj (symmetry_rot wx alpha t) (fun m => symmetry_given wx alpha m t)). Qed.
Print Assumptions C82_symmetry_rotation.
Theorem C82_symmetry_whole_turns : forall (T : Type) (wx : list R -> T) alpha alpha' m m',
  turned alpha alpha' -> same_dir m m' ->
  symmetry_test wx alpha (Some m) = symmetry_test wx alpha' (Some m').
Proof. exact @symmetry_turns. Qed.
Print Assumptions C82_symmetry_whole_turns.
Example C82_example : forall (T : Type) (wx : list R -> T),
  symmetry_test wx [0; PI / 2; PI] (Some (PI / 2)) = Ok (Some (wx [- (PI / 2); 0; PI / 2])).
Proof. exact @ex82. Qed.
