(** API-level lemmas about the goodness-of-fit tests: results, Monte Carlo p-values,
    asymptotic p-values, angles outside one turn, grouped data. *)
From Verif Require Import Prelude NpModel NpProofs CircleSpec UtilsModel UtilsProofs
  DescModel DescProofs DescSpec DescApi DescApi2 Desc2Model Desc2Proofs Desc2Spec ArcProofs Desc3Proofs Desc6Proofs
  HypModel HypSpec HypProofs Hyp2Proofs HypGofModel HypGofSpec HypGofProofs HypGof2Proofs.
From Coq Require Import Sorted.

Lemma nonempty_eqb (l : list R) : l <> [] -> Nat.eqb (length l) 0 = false.
Proof. destruct l; [congruence|reflexivity]. Qed.
Lemma nonempty_len (a b : list R) : length a = length b -> a <> [] -> b <> [].
Proof. intros L H ->. destruct a; [congruence|discriminate]. Qed.

(** ** Whole-result invariance *)
Lemma kuiper_test_ext a b B draws : length a = length b -> kuiper_V a = kuiper_V b ->
  kuiper_test a B draws = kuiper_test b B draws.
Proof. intros L E. unfold kuiper_test. now rewrite L, E. Qed.
Lemma watson_test_ext a b B draws : length a = length b -> watson_U2 a = watson_U2 b ->
  watson_test a B draws = watson_test b B draws.
Proof. intros L E. unfold watson_test. now rewrite L, E. Qed.
Lemma rao_test_ext a b B draws : length a = length b -> rao_U a = rao_U b ->
  rao_spacing_test a None B draws = rao_spacing_test b None B draws.
Proof. intros L E. unfold rao_spacing_test. rewrite L. cbn [bind]. now rewrite E. Qed.

Lemma kuiper_turned t a b B draws : within_turn a -> within_turn b -> turned_by t a b ->
  kuiper_test b B draws = kuiper_test a B draws.
Proof.
  intros Wa Wb H. destruct a as [|x a]; [inversion H; reflexivity|].
  apply kuiper_test_ext; [apply (turned_by_len _ _ _ H)|]. now apply (proj1 kuiper_invariant t); [discriminate| | |].
Qed.
Lemma kuiper_mirrored t a b B draws : within_turn a -> within_turn b -> mirrored t a b ->
  kuiper_test b B draws = kuiper_test a B draws.
Proof.
  intros Wa Wb H. destruct a as [|x a]; [inversion H; reflexivity|].
  apply kuiper_test_ext; [apply (mirrored_len _ _ _ H)|]. now apply (proj1 (proj2 kuiper_invariant) t); [discriminate| | |].
Qed.
Lemma kuiper_permuted a b B draws : Permutation a b -> kuiper_test b B draws = kuiper_test a B draws.
Proof. intros P. apply kuiper_test_ext; [symmetry; apply Permutation_length, P|]. apply (proj2 (proj2 kuiper_invariant)), P. Qed.
Lemma watson_turned t a b B draws : within_turn a -> within_turn b -> turned_by t a b ->
  watson_test b B draws = watson_test a B draws.
Proof.
  intros Wa Wb H. destruct a as [|x a]; [inversion H; reflexivity|].
  apply watson_test_ext; [apply (turned_by_len _ _ _ H)|]. now apply (proj1 watson_invariant t); [discriminate| | |].
Qed.
Lemma watson_mirrored t a b B draws : within_turn a -> within_turn b -> mirrored t a b ->
  watson_test b B draws = watson_test a B draws.
Proof.
  intros Wa Wb H. destruct a as [|x a]; [inversion H; reflexivity|].
  apply watson_test_ext; [apply (mirrored_len _ _ _ H)|]. now apply (proj1 (proj2 watson_invariant) t); [discriminate| | |].
Qed.
Lemma watson_permuted a b B draws : Permutation a b -> watson_test b B draws = watson_test a B draws.
Proof. intros P. apply watson_test_ext; [symmetry; apply Permutation_length, P|]. apply (proj2 (proj2 watson_invariant)), P. Qed.
Lemma rao_turned t a b B draws : within_turn a -> within_turn b -> turned_by t a b ->
  rao_spacing_test b None B draws = rao_spacing_test a None B draws.
Proof.
  intros Wa Wb H. destruct a as [|x a]; [inversion H; reflexivity|].
  apply rao_test_ext; [apply (turned_by_len _ _ _ H)|]. now apply (proj1 rao_invariant t); [discriminate| | |].
Qed.
Lemma rao_mirrored t a b B draws : within_turn a -> within_turn b -> mirrored t a b ->
  rao_spacing_test b None B draws = rao_spacing_test a None B draws.
Proof.
  intros Wa Wb H. destruct a as [|x a]; [inversion H; reflexivity|].
  apply rao_test_ext; [apply (mirrored_len _ _ _ H)|]. now apply (proj1 (proj2 rao_invariant) t); [discriminate| | |].
Qed.
Lemma rao_permuted a b B draws : Permutation a b -> rao_spacing_test b None B draws = rao_spacing_test a None B draws.
Proof. intros P. apply rao_test_ext; [symmetry; apply Permutation_length, P|]. apply (proj2 (proj2 rao_invariant)), P. Qed.

(** ** Bounds *)
Lemma kuiper_ok a B draws : a <> [] -> (0 < B)%Z -> exists t, kuiper_test a B draws = Ok t /\ gof_stat t = kuiper_V a.
Proof.
  intros Ha HB. unfold kuiper_test. replace (Z.leb B 0) with false by (symmetry; apply Z.leb_gt, HB).
  rewrite nonempty_eqb by exact Ha. destruct (Z.eqb B 1); eexists; split; reflexivity.
Qed.
Lemma watson_ok a B draws : a <> [] -> (0 < B)%Z -> exists t, watson_test a B draws = Ok t /\ gof_stat t = watson_U2 a.
Proof.
  intros Ha HB. unfold watson_test. replace (Z.leb B 0) with false by (symmetry; apply Z.leb_gt, HB).
  rewrite nonempty_eqb by exact Ha. destruct (Z.eqb B 1); eexists; split; reflexivity.
Qed.
Lemma rao_ok a B draws : a <> [] -> (0 < B)%Z ->
  exists t, rao_spacing_test a None B draws = Ok t /\ gof_stat t = rao_U a * 180 / PI.
Proof.
  intros Ha HB. unfold rao_spacing_test. replace (Z.leb B 0) with false by (symmetry; apply Z.leb_gt, HB).
  rewrite nonempty_eqb by exact Ha. cbn [bind]. eexists. split; reflexivity.
Qed.
Lemma kuiper_test_bounds a B draws : a <> [] -> within_turn a -> (0 < B)%Z ->
  let n := INR (length a) in
  let f := sqrt n + 155/1000 + (24/100) / sqrt n in
  exists t, kuiper_test a B draws = Ok t /\ f / n <= gof_stat t <= f /\
    (gof_stat t = f / n <-> equally_spaced a) /\ (gof_stat t = f <-> coincident a).
Proof.
  intros Ha W HB n f. destruct (kuiper_ok a B draws Ha HB) as (t & E & S). exists t. rewrite S. split; [exact E|].
  exact (kuiper_bounds a Ha W).
Qed.
Lemma watson_test_bounds a B draws : a <> [] -> within_turn a -> (0 < B)%Z ->
  exists t, watson_test a B draws = Ok t /\ 1 / (12 * INR (length a)) <= gof_stat t /\
    (gof_stat t = 1 / (12 * INR (length a)) <-> equally_spaced a).
Proof.
  intros Ha W HB. destruct (watson_ok a B draws Ha HB) as (t & E & S). exists t. rewrite S. split; [exact E|].
  exact (watson_bounds a Ha W).
Qed.
Lemma rao_test_bounds a B draws : a <> [] -> within_turn a -> (0 < B)%Z ->
  let top := 360 * (1 - / INR (length a)) in
  exists t, rao_spacing_test a None B draws = Ok t /\ 0 <= gof_stat t <= top /\
    (gof_stat t = 0 <-> equally_spaced a) /\ (gof_stat t = top <-> coincident a).
Proof.
  intros Ha W HB top. destruct (rao_ok a B draws Ha HB) as (t & E & S). exists t. rewrite S. split; [exact E|].
  destruct (rao_bounds a Ha W) as (B1 & B2 & B3). cbn zeta in *. pose proof PI_pos as Hp.
  set (q := 1 - / INR (length a)) in *. set (U := rao_U a) in *.
  assert (F : U = U * 180 / PI * (PI / 180)) by (field; lra).
  assert (K : 0 < PI / 180) by lra. split; [|split].
  - split.
    + apply Rmult_le_reg_r with (PI / 180); [exact K|]. rewrite <- F. lra.
    + apply Rmult_le_reg_r with (PI / 180); [exact K|]. rewrite <- F. unfold top. fold q. lra.
  - rewrite <- B2. split; intros Z; [rewrite F, Z; ring|rewrite Z; unfold Rdiv; ring].
  - rewrite <- B3. unfold top. fold q. split; intros Z; [rewrite F, Z; field|rewrite Z; field; lra].
Qed.

(** ** Monte Carlo p-values *)
Lemma mc_range B x stats : (0 < B)%Z -> (length stats <= Z.to_nat B)%nat ->
  / (IZR B + 1) <= mc_pval (IZR B) x stats <= 1.
Proof.
  intros HB HL. unfold mc_pval. set (k := count_if _ stats).
  assert (Hk : (k <= Z.to_nat B)%nat) by (unfold k; etransitivity; [apply count_if_len|exact HL]).
  apply le_INR in Hk. rewrite (INR_IZR_INZ (Z.to_nat B)), Z2Nat.id in Hk by lia. apply IZR_lt in HB. pose proof (pos_INR k) as Pk.
  split.
  - unfold Rdiv. rewrite <- (Rmult_1_l (/ (IZR B + 1))) at 1. apply Rmult_le_compat_r; [left; apply Rinv_0_lt_compat|]; lra.
  - apply Rmult_le_reg_r with (IZR B + 1); [lra|]. unfold Rdiv. rewrite Rmult_assoc, Rinv_l by lra. lra.
Qed.
Lemma mc_antitone B x y stats : (0 < B)%Z -> x <= y -> mc_pval (IZR B) y stats <= mc_pval (IZR B) x stats.
Proof.
  intros HB H. unfold mc_pval, Rdiv. apply IZR_lt in HB. apply Rmult_le_compat_r; [left; apply Rinv_0_lt_compat; lra|].
  apply Rplus_le_compat_r, le_INR, count_if_le. intros s _ Hs. apply Rleb_true in Hs. apply Rleb_true. lra.
Qed.
(** The p-value of a simulation test: k of the draws have a statistic at least as large. *)
Lemma mc_counts {A} (f : A -> R) (P : A -> Prop) B x draws : (0 < B)%Z -> length draws = Z.to_nat B ->
  (forall d, In d draws -> (P d <-> x <= f d)) ->
  exists k, counts P draws k /\ mc_pval (IZR B) x (map f draws) = (INR k + 1) / (IZR B + 1) /\
    / (IZR B + 1) <= mc_pval (IZR B) x (map f draws) <= 1.
Proof.
  intros HB HL H. exists (count_if (fun d => Rleb x (f d)) draws). split; [|split].
  - apply counts_count_if. intros d Hd. rewrite Rleb_true. symmetry. apply H, Hd.
  - unfold mc_pval. now rewrite count_if_map.
  - apply mc_range; [exact HB|]. rewrite map_length. lia.
Qed.
Lemma kuiper_mc a B draws : a <> [] -> (1 < B)%Z -> length draws = Z.to_nat B ->
  (forall d, In d draws -> d <> []) ->
  exists t k, kuiper_test a B draws = Ok t /\
    counts (fun d => exists t', kuiper_test d B draws = Ok t' /\ gof_stat t <= gof_stat t') draws k /\
    gof_pval t = (INR k + 1) / (IZR B + 1) /\ / (IZR B + 1) <= gof_pval t <= 1.
Proof.
  intros Ha HB HL Hd. unfold kuiper_test at 1. replace (Z.leb B 0) with false by (symmetry; apply Z.leb_gt; lia).
  rewrite nonempty_eqb by exact Ha. replace (Z.eqb B 1) with false by (symmetry; apply Z.eqb_neq; lia).
  destruct (mc_counts kuiper_V (fun d => exists t', kuiper_test d B draws = Ok t' /\ kuiper_V a <= gof_stat t') B (kuiper_V a) draws)
    as (k & K1 & K2 & K3); [lia|exact HL| |].
  { intros d Id. destruct (kuiper_ok d B draws (Hd d Id)) as (t' & E & S); [lia|]. split.
    - intros (t2 & E2 & L). rewrite E in E2. injection E2 as <-. now rewrite <- S.
    - intros L. exists t'. rewrite S. auto. }
  eexists. exists k. split; [reflexivity|]. cbn [gof_stat gof_pval]. auto.
Qed.
Lemma watson_mc a B draws : a <> [] -> (1 < B)%Z -> length draws = Z.to_nat B ->
  (forall d, In d draws -> d <> []) ->
  exists t k, watson_test a B draws = Ok t /\
    counts (fun d => exists t', watson_test d B draws = Ok t' /\ gof_stat t <= gof_stat t') draws k /\
    gof_pval t = (INR k + 1) / (IZR B + 1) /\ / (IZR B + 1) <= gof_pval t <= 1.
Proof.
  intros Ha HB HL Hd. unfold watson_test at 1. replace (Z.leb B 0) with false by (symmetry; apply Z.leb_gt; lia).
  rewrite nonempty_eqb by exact Ha. replace (Z.eqb B 1) with false by (symmetry; apply Z.eqb_neq; lia).
  destruct (mc_counts watson_U2 (fun d => exists t', watson_test d B draws = Ok t' /\ watson_U2 a <= gof_stat t') B (watson_U2 a) draws)
    as (k & K1 & K2 & K3); [lia|exact HL| |].
  { intros d Id. destruct (watson_ok d B draws (Hd d Id)) as (t' & E & S); [lia|]. split.
    - intros (t2 & E2 & L). rewrite E in E2. injection E2 as <-. now rewrite <- S.
    - intros L. exists t'. rewrite S. auto. }
  eexists. exists k. split; [reflexivity|]. cbn [gof_stat gof_pval]. auto.
Qed.
Lemma rad2deg_le x y : x * 180 / PI <= y * 180 / PI <-> x <= y.
Proof.
  pose proof PI_pos as Hp. split; intros H.
  - apply Rmult_le_reg_r with (180 / PI); [apply Rdiv_lt_0_compat; lra|]. unfold Rdiv in *. lra.
  - unfold Rdiv. apply Rmult_le_compat_r; [left; apply Rinv_0_lt_compat, Hp|]. lra.
Qed.
Lemma rao_mc a B draws : a <> [] -> (0 < B)%Z -> length draws = Z.to_nat B ->
  (forall d, In d draws -> d <> []) ->
  exists t k, rao_spacing_test a None B draws = Ok t /\
    counts (fun d => exists t', rao_spacing_test d None B draws = Ok t' /\ gof_stat t <= gof_stat t') draws k /\
    gof_pval t = (INR k + 1) / (IZR B + 1) /\ / (IZR B + 1) <= gof_pval t <= 1.
Proof.
  intros Ha HB HL Hd. unfold rao_spacing_test at 1. replace (Z.leb B 0) with false by (symmetry; apply Z.leb_gt; lia).
  rewrite nonempty_eqb by exact Ha. cbn [bind].
  destruct (mc_counts rao_U (fun d => exists t', rao_spacing_test d None B draws = Ok t' /\ rao_U a * 180 / PI <= gof_stat t') B (rao_U a) draws)
    as (k & K1 & K2 & K3); [lia|exact HL| |].
  { intros d Id. destruct (rao_ok d B draws (Hd d Id)) as (t' & E & S); [lia|]. split.
    - intros (t2 & E2 & L). rewrite E in E2. injection E2 as <-. rewrite S in L. apply (proj1 (rad2deg_le _ _)) in L. exact L.
    - intros L. exists t'. rewrite S, rad2deg_le. auto. }
  eexists. exists k. split; [reflexivity|]. cbn [gof_stat gof_pval]. auto.
Qed.
Lemma art_mc s1 s2 B draws : s1 <> [] -> s2 <> [] -> (0 < B)%Z -> length draws = Z.to_nat B ->
  (forall d, In d draws -> Permutation d (s1 ++ s2)) ->
  exists t k, angular_randomisation_test [s1; s2] B draws = Ok t /\
    counts (fun d => exists t', angular_randomisation_test [firstn (length s1) d; skipn (length s1) d] B draws = Ok t' /\
                                gof_stat t <= gof_stat t') draws k /\
    gof_pval t = (INR k + 1) / (IZR B + 1) /\ / (IZR B + 1) <= gof_pval t <= 1.
Proof.
  intros H1 H2 HB HL Hd. set (n1 := length s1).
  assert (Ok2 : forall a b, a <> [] -> b <> [] -> exists t, angular_randomisation_test [a; b] B draws = Ok t /\ gof_stat t = art_statistic a b).
  { intros a b Ha Hb. unfold angular_randomisation_test. cbn [existsb]. rewrite !nonempty_eqb by assumption. cbn [orb].
    replace (Z.leb B 0) with false by (symmetry; apply Z.leb_gt; lia). eexists. split; reflexivity. }
  destruct (mc_counts (fun d => art_statistic (firstn n1 d) (skipn n1 d))
    (fun d => exists t', angular_randomisation_test [firstn n1 d; skipn n1 d] B draws = Ok t' /\ art_statistic s1 s2 <= gof_stat t')
    B (art_statistic s1 s2) draws) as (k & K1 & K2 & K3); [lia|exact HL| |].
  { intros d Id. pose proof (Permutation_length (Hd d Id)) as L. rewrite app_length in L.
    assert (0 < length s1)%nat by (destruct s1; [congruence|simpl; lia]).
    assert (0 < length s2)%nat by (destruct s2; [congruence|simpl; lia]).
    destruct (Ok2 (firstn n1 d) (skipn n1 d)) as (t' & E & S).
    - intros Z. apply (f_equal (@length R)) in Z. rewrite firstn_length in Z. simpl in Z. unfold n1 in Z. lia.
    - intros Z. apply (f_equal (@length R)) in Z. rewrite skipn_length in Z. simpl in Z. unfold n1 in Z. lia.
    - split.
      + intros (t2 & E2 & L2). rewrite E in E2. injection E2 as <-. now rewrite <- S.
      + intros L2. exists t'. rewrite S. auto. }
  unfold angular_randomisation_test at 1. cbn [existsb]. rewrite !nonempty_eqb by assumption. cbn [orb].
  replace (Z.leb B 0) with false by (symmetry; apply Z.leb_gt; lia).
  eexists. exists k. split; [reflexivity|]. cbn [gof_stat gof_pval]. auto.
Qed.
(** Antitone in the observed statistic, for the same draws. *)
Lemma kuiper_antitone a b B draws ta tb : (1 < B)%Z -> kuiper_test a B draws = Ok ta -> kuiper_test b B draws = Ok tb ->
  gof_stat ta <= gof_stat tb -> gof_pval tb <= gof_pval ta.
Proof.
  intros HB. unfold kuiper_test. destruct (Z.leb B 0); [discriminate|]. replace (Z.eqb B 1) with false by (symmetry; apply Z.eqb_neq; lia).
  destruct (Nat.eqb (length a) 0), (Nat.eqb (length b) 0); try discriminate.
  intros Ea Eb. injection Ea as <-. injection Eb as <-. cbn [gof_stat gof_pval]. apply mc_antitone. lia.
Qed.
Lemma watson_antitone a b B draws ta tb : (1 < B)%Z -> watson_test a B draws = Ok ta -> watson_test b B draws = Ok tb ->
  gof_stat ta <= gof_stat tb -> gof_pval tb <= gof_pval ta.
Proof.
  intros HB. unfold watson_test. destruct (Z.leb B 0); [discriminate|]. replace (Z.eqb B 1) with false by (symmetry; apply Z.eqb_neq; lia).
  destruct (Nat.eqb (length a) 0), (Nat.eqb (length b) 0); try discriminate.
  intros Ea Eb. injection Ea as <-. injection Eb as <-. cbn [gof_stat gof_pval]. apply mc_antitone. lia.
Qed.
Lemma rao_antitone a b wa wb B draws ta tb : rao_spacing_test a wa B draws = Ok ta -> rao_spacing_test b wb B draws = Ok tb ->
  gof_stat ta <= gof_stat tb -> gof_pval tb <= gof_pval ta.
Proof.
  unfold rao_spacing_test. destruct (Z.leb B 0) eqn:HB; [discriminate|]. apply Z.leb_gt in HB.
  destruct (Nat.eqb (length a) 0); [discriminate|]. destruct (Nat.eqb (length b) 0); [discriminate|].
  match goal with |- (do _ <- ?p; _) = _ -> (do _ <- ?q; _) = _ -> _ => destruct p as [x|]; [|discriminate]; destruct q as [y|]; [|discriminate] end.
  cbn [bind]. intros Ea Eb. injection Ea as <-. injection Eb as <-. cbn [gof_stat gof_pval]. rewrite rad2deg_le.
  apply mc_antitone. lia.
Qed.
Lemma art_antitone a1 a2 b1 b2 B draws ta tb : length a1 = length b1 ->
  angular_randomisation_test [a1; a2] B draws = Ok ta -> angular_randomisation_test [b1; b2] B draws = Ok tb ->
  gof_stat ta <= gof_stat tb -> gof_pval tb <= gof_pval ta.
Proof.
  intros L. unfold angular_randomisation_test. destruct (existsb _ [a1; a2]); [discriminate|]. destruct (existsb _ [b1; b2]); [discriminate|].
  destruct (Z.leb B 0) eqn:HB; [discriminate|]. apply Z.leb_gt in HB.
  intros Ea Eb. injection Ea as <-. injection Eb as <-. cbn [gof_stat gof_pval]. rewrite L. apply mc_antitone. lia.
Qed.
(** The Rayleigh bootstrap: its simulated statistic is the test's own z of the draw. *)
Lemma hypot_sq x y : hypot x y ^ 2 = x ^ 2 + y ^ 2.
Proof. unfold hypot. rewrite pow2_sqrt; nra. Qed.
Lemma sample_none_valid (a : list R) : a <> [] -> valid_sample a None.
Proof. apply valid_none. Qed.
Lemma sample_sum_none f a : sample_sum f a None = Rsum (map f a).
Proof.
  unfold sample_sum, eff_weights. induction a as [|x a IH]; [reflexivity|].
  cbn [map wsum length repeat]. rewrite Rsum_cons, <- IH. ring.
Qed.
Lemma sample_size_none a : sample_size a None = INR (length a).
Proof. unfold sample_size. rewrite sample_sum_none, Rsum_map_const. ring. Qed.
Lemma rayleigh_boot n r B draws : (0 < n)%Z -> 0 <= r <= 1 -> (1 < B)%Z -> length draws = Z.to_nat B ->
  (forall d, In d draws -> length d = Z.to_nat n) ->
  exists t k p, rayleigh_test None None (Some r) (Some n) B draws = Ok t /\ ray_boot t = Some p /\
    counts (fun d => exists t', rayleigh_test (Some d) None None None B draws = Ok t' /\ ray_z t <= ray_z t') draws k /\
    p = (INR k + 1) / (IZR B + 1) /\ / (IZR B + 1) <= p <= 1.
Proof.
  intros Hn Hr HB HL Hd.
  assert (E : exists t, rayleigh_test None None (Some r) (Some n) B draws = Ok t /\ ray_z t = IZR n * r ^ 2 /\
    ray_boot t = Some (mc_pval (IZR B) (IZR n * r ^ 2) (map (rayleigh_boot_stat (IZR n)) draws))).
  { unfold rayleigh_test. replace (Z.leb B 0) with false by (symmetry; apply Z.leb_gt; lia). cbn [bind fst snd].
    replace (Z.leb n 0) with false by (symmetry; apply Z.leb_gt; lia).
    destruct (Rleb_spec 0 r); [|lra]. destruct (Rleb_spec r 1); [|lra]. cbn [andb negb].
    replace (Z.ltb 1 B) with true by (symmetry; apply Z.ltb_lt; lia). eexists. split; [reflexivity|]. split; reflexivity. }
  destruct E as (t & E & Ez & Eb).
  destruct (mc_counts (rayleigh_boot_stat (IZR n))
    (fun d => exists t', rayleigh_test (Some d) None None None B draws = Ok t' /\ ray_z t <= ray_z t') B (ray_z t) draws)
    as (k & K1 & K2 & K3); [lia|exact HL| |].
  { intros d Id. pose proof (Hd d Id) as Ld.
    assert (Nd : d <> []) by (intros ->; simpl in Ld; lia).
    destruct (rayleigh_sample_z d None n None B draws) as (t' & E' & _ & Z').
    - apply sample_none_valid, Nd.
    - rewrite sample_size_none, Ld, INR_IZR_INZ, Z2Nat.id by lia. reflexivity.
    - lia.
    - assert (S : rayleigh_boot_stat (IZR n) d = ray_z t').
      { rewrite Z'. unfold rayleigh_boot_stat. rewrite hypot_sq, !sample_sum_none, sample_size_none, Ld, INR_IZR_INZ, Z2Nat.id by lia. reflexivity. }
      split.
      + intros (t2 & E2 & L). rewrite E' in E2. injection E2 as <-. now rewrite S.
      + intros L. exists t'. rewrite <- S. auto. }
  exists t, k, (mc_pval (IZR B) (ray_z t) (map (rayleigh_boot_stat (IZR n)) draws)).
  split; [exact E|]. rewrite Eb, Ez. split; [reflexivity|]. rewrite Ez in K1, K2, K3. auto.
Qed.

(** ** Kuiper's asymptotic p-value *)
Lemma kuiper_f_big n : (2 <= n)%nat -> 3 <= kuiper_f (INR n) ^ 2.
Proof.
  intros H. apply le_INR in H. replace (INR 2) with 2 in H by reflexivity. unfold kuiper_f. set (x := sqrt (INR n)).
  assert (Hx : 1414 / 1000 <= x).
  { unfold x. apply Rsqr_incr_0_var; [|apply sqrt_pos]. rewrite Rsqr_sqrt by lra. unfold Rsqr. lra. }
  assert (E : 17323 / 10000 <= x + 155 / 1000 + 24 / 100 / x).
  { assert (24 / 100 / x * x = 24 / 100) by (field; lra). apply Rmult_le_reg_r with x; [lra|]. nra. }
  nra.
Qed.
Lemma kuiper_term_neg f j : 3 <= f ^ 2 -> 0 < f -> (1 <= j)%nat -> kuiper_term f f j < 0.
Proof.
  intros Hf Hp Hj. apply le_INR in Hj. simpl in Hj. unfold kuiper_term. set (m := INR j ^ 2).
  assert (Hm : 1 <= m) by (unfold m; nra). set (e := exp _). assert (He : 0 < e) by apply exp_pos.
  replace (8 * f / (3 * f) * m * (4 * m * f ^ 2 - 3) * e) with (8 / 3 * m * (4 * m * f ^ 2 - 3) * e) by (field; lra).
  set (q := f ^ 2) in *. assert (2 * (4 * m * q - 1) - 8 / 3 * m * (4 * m * q - 3) < 0); [|nra].
  assert (8 * m - 32 / 3 * m ^ 2 < 0) by nra. assert ((8 * m - 32 / 3 * m ^ 2) * q <= (8 * m - 32 / 3 * m ^ 2) * 3) by nra.
  nra.
Qed.
Lemma Rsum_map_neg {A} (f : A -> R) l : l <> [] -> (forall x, In x l -> f x < 0) -> Rsum (map f l) < 0.
Proof.
  intros Hn H. induction l as [|a l IH]; [congruence|]. cbn [map]. rewrite Rsum_cons.
  pose proof (H a (or_introl eq_refl)). destruct l as [|b l]; [simpl; lra|].
  assert (Rsum (map f (b :: l)) < 0); [|lra]. apply IH; [discriminate|]. intros x Hx. apply H. right. exact Hx.
Qed.
Lemma kuiper_asym_negative a : coincident a -> (2 <= length a)%nat ->
  exists t, kuiper_test a 1 [] = Ok t /\ gof_sim t = false /\ gof_pval t < 0.
Proof.
  intros Hc Hl. assert (Ha : a <> []) by (intros ->; simpl in Hl; lia).
  assert (W : within_turn a) by (intros x y Hx Hy; rewrite (Hc x y Hx Hy); pose proof PI_pos; lra).
  unfold kuiper_test. cbn [Z.leb Z.compare Z.eqb Pos.eqb]. rewrite nonempty_eqb by exact Ha.
  eexists. split; [reflexivity|]. split; [reflexivity|]. cbn [gof_pval].
  rewrite (proj2 (proj2 (proj2 (kuiper_bounds a Ha W))) Hc). unfold kuiper_asym. apply Rsum_map_neg; [discriminate|].
  intros j Hj. apply in_seq in Hj. apply kuiper_term_neg; [apply kuiper_f_big, Hl| |lia].
  apply kuiper_f_pos, lt_0_INR. lia.
Qed.

(** ** Watson's asymptotic p-value *)
Lemma alt_bounds (f : nat -> R) : (forall m, f (S m) < f m) -> (forall m, 0 < f m) -> forall k s,
  let A := Rsum (map (fun m => (-1) ^ (m - s) * f m) (seq s (2 * k))) in 0 <= A < f s /\ ((0 < k)%nat -> 0 < A).
Proof.
  intros Hd Hp. induction k as [|k IH]; intros s A.
  - unfold A. change (2 * 0)%nat with 0%nat. cbn [seq map]. rewrite Rsum_nil. pose proof (Hp s). split; [lra|]. intros K; inversion K.
  - assert (E : A = f s - f (S s) + Rsum (map (fun m => (-1) ^ (m - S (S s)) * f m) (seq (S (S s)) (2 * k)))).
    { unfold A. replace (2 * S k)%nat with (S (S (2 * k))) by lia. cbn [seq map]. rewrite !Rsum_cons.
      rewrite Nat.sub_diag. replace (S s - s)%nat with 1%nat by lia.
      rewrite (Rsum_map_ext (fun m => (-1) ^ (m - s) * f m) (fun m => (-1) ^ (m - S (S s)) * f m)); [simpl; ring|].
      intros m Hm. apply in_seq in Hm. replace (m - s)%nat with (S (S (m - S (S s)))) by lia. simpl. ring. }
    destruct (IH (S (S s))) as [B _]. cbn zeta in B. pose proof (Hd s). pose proof (Hd (S s)). rewrite E. split; [lra|]. intros _. lra.
Qed.
Lemma watson_asym_bounds U2 : 0 < U2 -> 0 < watson_asym U2 < 2 * exp (- 2 * PI ^ 2 * U2).
Proof.
  intros HU. unfold watson_asym. pose proof PI_pos as Hp.
  destruct (alt_bounds (fun m => exp (- 2 * INR m ^ 2 * PI ^ 2 * U2))) with (k := 25%nat) (s := 1%nat) as [B1 B2].
  - intros m. apply exp_increasing. rewrite S_INR. pose proof (pos_INR m). assert (HP : 0 < PI ^ 2 * U2) by (apply Rmult_lt_0_compat; [apply pow_lt, Hp|exact HU]).
    rewrite !(Rmult_assoc _ (PI ^ 2) U2). set (P := PI ^ 2 * U2) in *. nra.
  - intros m. apply exp_pos.
  - specialize (B2 ltac:(lia)). change (2 * 25)%nat with 50%nat in *. cbn beta zeta in *.
    replace (- 2 * PI ^ 2 * U2) with (- 2 * INR 1 ^ 2 * PI ^ 2 * U2) by (simpl; ring). lra.
Qed.
Lemma watson_U2_pos a : a <> [] -> 0 < watson_U2 a.
Proof.
  intros H. unfold watson_U2. match goal with |- 0 < Rsum ?l + _ => assert (0 <= Rsum l) end.
  { apply Rsum_map_nonneg. intros p _. apply pow2_ge_0. }
  assert (0 < INR (length a)) by (apply lt_0_INR; destruct a; [congruence|simpl; lia]).
  assert (0 < 1 / (12 * INR (length a))) by (apply Rdiv_lt_0_compat; lra). lra.
Qed.
Lemma watson_test_asym a : a <> [] ->
  exists t, watson_test a 1 [] = Ok t /\ gof_sim t = false /\ 0 < gof_pval t < 2 * exp (- 2 * PI ^ 2 * gof_stat t).
Proof.
  intros Ha. unfold watson_test. cbn [Z.leb Z.compare Z.eqb Pos.eqb]. rewrite nonempty_eqb by exact Ha.
  eexists. split; [reflexivity|]. split; [reflexivity|]. cbn [gof_pval gof_stat]. apply watson_asym_bounds, watson_U2_pos, Ha.
Qed.

(** ** Angles more than one turn apart *)
Lemma sort_04 : nsort [0; 4 * PI] = [0; 4 * PI].
Proof. apply sort_id. pose proof PI_pos. repeat (constructor; try lra). Qed.
Lemma sort_00 : nsort [0; 0] = [0; 0].
Proof. apply sort_id. repeat (constructor; try lra). Qed.
Lemma rao_04 : rao_U [0; 4 * PI] = 3 * PI.
Proof.
  unfold rao_U. rewrite sort_04. cbn [length diff last hd app map]. rewrite ?Rsum_cons, ?Rsum_nil.
  pose proof PI_pos. simpl INR. replace (1 + 1) with 2 by ring. unfold Rabs. repeat destruct Rcase_abs; lra.
Qed.
Lemma watson_04 : watson_U2 [0; 4 * PI] = 7 / 6.
Proof.
  unfold watson_U2. rewrite sort_04. unfold indexed. cbn [length seq map combine fst snd]. rewrite ?Rsum_cons, ?Rsum_nil.
  pose proof PI_pos. simpl INR. field. lra.
Qed.
Lemma watson_00 : watson_U2 [0; 0] = 1 / 6.
Proof.
  unfold watson_U2. rewrite sort_00. unfold indexed. cbn [length seq map combine fst snd]. rewrite ?Rsum_cons, ?Rsum_nil.
  pose proof PI_pos. simpl INR. field. lra.
Qed.
Lemma kuiper_04 : kuiper_V [0; 4 * PI] = 2 * kuiper_f 2.
Proof.
  unfold kuiper_V. rewrite sort_04. unfold indexed. cbn [length seq map combine fst snd]. simpl INR.
  replace (1 + 1) with 2 by ring. pose proof PI_pos.
  replace (4 * PI / (2 * PI)) with 2 by (field; lra). replace (0 / (2 * PI)) with 0 by (field; lra).
  unfold np_max, Rlmax. cbn [fold_left]. unfold Rmax. repeat destruct Rle_dec; lra.
Qed.
Lemma kuiper_00 : kuiper_V [0; 0] = kuiper_f 2.
Proof.
  apply (kuiper_bounds [0; 0]); [discriminate| |].
  - intros x y [<-|[<-|[]]] [<-|[<-|[]]]; pose proof PI_pos; lra.
  - intros x y [<-|[<-|[]]] [<-|[<-|[]]]; reflexivity.
Qed.
Lemma turn_refuted : exists a b, Forall2 same_dir a b /\
  (exists ta tb, kuiper_test a 1 [] = Ok ta /\ kuiper_test b 1 [] = Ok tb /\ gof_stat tb = 2 * gof_stat ta) /\
  (exists ta tb, watson_test a 1 [] = Ok ta /\ watson_test b 1 [] = Ok tb /\ gof_stat tb = 7 * gof_stat ta) /\
  (exists tb, rao_spacing_test b None 1 [] = Ok tb /\ gof_stat tb = 540).
Proof.
  exists [0; 0], [0; 4 * PI]. split; [|split; [|split]].
  - repeat constructor; [exists 0%Z|exists (-2)%Z]; ring.
  - destruct (kuiper_ok [0; 0] 1 []) as (ta & Ea & Sa); [discriminate|lia|].
    destruct (kuiper_ok [0; 4 * PI] 1 []) as (tb & Eb & Sb); [discriminate|lia|].
    exists ta, tb. split; [exact Ea|]. split; [exact Eb|]. now rewrite Sa, Sb, kuiper_04, kuiper_00.
  - destruct (watson_ok [0; 0] 1 []) as (ta & Ea & Sa); [discriminate|lia|].
    destruct (watson_ok [0; 4 * PI] 1 []) as (tb & Eb & Sb); [discriminate|lia|].
    exists ta, tb. split; [exact Ea|]. split; [exact Eb|]. rewrite Sa, Sb, watson_04, watson_00. field.
  - destruct (rao_ok [0; 4 * PI] 1 []) as (tb & Eb & Sb); [discriminate|lia|].
    exists tb. split; [exact Eb|]. rewrite Sb, rao_04. pose proof PI_pos. field. lra.
Qed.

(** ** Grouped data in Rao's test *)
Lemma astype_INR ks : astype_int (map INR ks) = ks.
Proof.
  unfold astype_int. rewrite map_map. rewrite <- map_id. apply map_ext. intros k.
  rewrite INR_IZR_INZ. rewrite Rfloor_IZR. apply Nat2Z.id.
Qed.
Lemma np_repeat_len {A} (x : list A) w : length x = length w -> length (np_repeat x w) = fold_right Nat.add 0%nat w.
Proof.
  revert w. induction x as [|a x IH]; intros [|k w] L; try discriminate; [reflexivity|].
  cbn [np_repeat fold_right]. rewrite app_length, repeat_length, IH; [reflexivity|]. now injection L.
Qed.
Lemma rao_grouped alpha ks B draws : length ks = length alpha ->
  rao_spacing_test alpha (Some (map INR ks)) B draws = rao_spacing_test (np_repeat alpha ks) None B draws.
Proof.
  intros L. unfold rao_spacing_test. destruct (Z.leb B 0); [reflexivity|].
  assert (F1 : existsb (fun v => Rltb v 0) (map INR ks) = false).
  { clear L. induction ks as [|k ks IH]; [reflexivity|]. cbn [map existsb]. rewrite IH.
    destruct (Rltb_spec (INR k) 0) as [H|H]; [pose proof (pos_INR k); lra|reflexivity]. }
  assert (F2 : forallb (fun v => isclose v (IZR (rint v))) (map INR ks) = true).
  { clear L F1. induction ks as [|k ks IH]; [reflexivity|]. cbn [map forallb]. rewrite IH.
    rewrite INR_IZR_INZ, rint_IZR, isclose_refl. reflexivity. }
  rewrite F1, F2, astype_INR, map_length, L, Nat.eqb_refl. cbn [negb].
  rewrite (np_repeat_len alpha ks) by (symmetry; exact L).
  destruct (Nat.eqb (length alpha) 0) eqn:E0.
  - apply Nat.eqb_eq in E0. destruct alpha; [|discriminate]. destruct ks; [reflexivity|discriminate].
  - destruct (Nat.eqb (fold_right Nat.add 0%nat ks) 0); reflexivity.
Qed.
Lemma rao_near_integer_refuted : exists alpha w ks ta tb,
  Forall2 (fun v k => isclose v (INR k) = true) w ks /\
  rao_spacing_test alpha (Some w) 1 [] = Ok ta /\ gof_stat ta = 120 /\
  rao_spacing_test alpha (Some (map INR ks)) 1 [] = Ok tb /\ gof_stat tb = 180.
Proof.
  set (v := 3 - / 100000).
  assert (Fv : Rfloor v = 2%Z) by (apply Rfloor_unique; unfold v; lra).
  assert (F1 : Rfloor 1 = 1%Z) by (apply Rfloor_unique; lra).
  assert (Cv : isclose v 3 = true) by (unfold isclose, isclose_tol; apply Rleb_true; unfold v, Rabs; repeat destruct Rcase_abs; lra).
  assert (Rv : rint v = 3%Z).
  { unfold rint. rewrite Fv. destruct (Rltb_spec (v - IZR 2) (1 / 2)) as [H|H]; [unfold v in H; lra|].
    destruct (Rltb_spec (1 / 2) (v - IZR 2)) as [H2|H2]; [reflexivity|unfold v in H2; lra]. }
  pose proof PI_pos as Hp. exists [0; PI], [v; 1], [3%nat; 1%nat].
  eexists {| gof_stat := 120; gof_pval := _; gof_sim := true |}, {| gof_stat := 180; gof_pval := _; gof_sim := true |}.
  split; [|split; [|split; [|split]]]; try reflexivity.
  - repeat constructor; [replace (INR 3) with 3 by (simpl; ring); exact Cv|apply isclose_refl].
  - unfold rao_spacing_test. cbn [Z.leb Z.compare length Nat.eqb existsb forallb].
    destruct (Rltb_spec v 0) as [H|_]; [unfold v in H; lra|]. destruct (Rltb_spec 1 0) as [H|_]; [lra|].
    rewrite Rv, Cv, (rint_IZR 1), isclose_refl. cbn [orb andb negb].
    unfold astype_int. cbn [map]. rewrite Fv, F1.
    change (Z.to_nat 2) with 2%nat. change (Z.to_nat 1) with 1%nat. cbn [fold_right Nat.add Nat.eqb np_repeat repeat app bind map].
    f_equal. assert (E : rao_U [0; 0; PI] * 180 / PI = 120); [|rewrite E; reflexivity].
    unfold rao_U. rewrite sort_id by (repeat (constructor; try lra)). cbn [length diff last hd app map]. rewrite ?Rsum_cons, ?Rsum_nil.
    simpl INR. replace (1 + 1 + 1) with 3 by ring.
    rewrite !(Rabs_left1 (0 - 0 - _)) by lra. rewrite !Rabs_pos_eq by lra. field. lra.
  - rewrite rao_grouped by reflexivity. cbn [np_repeat repeat app]. unfold rao_spacing_test. cbn [Z.leb Z.compare length Nat.eqb bind map].
    f_equal. assert (E : rao_U [0; 0; 0; PI] * 180 / PI = 180); [|rewrite E; reflexivity].
    unfold rao_U. rewrite sort_id by (repeat (constructor; try lra)). cbn [length diff last hd app map]. rewrite ?Rsum_cons, ?Rsum_nil.
    simpl INR. replace (1 + 1 + 1 + 1) with 4 by ring.
    rewrite !(Rabs_left1 (0 - 0 - _)) by lra. rewrite !Rabs_pos_eq by lra. field. lra.
Qed.

(** ** Angular randomisation test *)
Lemma Rsum_flat_map {A} (f : A -> list R) l : Rsum (flat_map f l) = Rsum (map (fun a => Rsum (f a)) l).
Proof. induction l as [|a l IH]; [reflexivity|]. cbn [flat_map map]. now rewrite Rsum_app, Rsum_cons, IH. Qed.
Lemma Rsum_swap {A B} (f : A -> B -> R) l m :
  Rsum (map (fun a => Rsum (map (fun b => f a b) m)) l) = Rsum (map (fun b => Rsum (map (fun a => f a b) l)) m).
Proof.
  induction l as [|a l IH]; cbn [map].
  - rewrite (Rsum_map_ext _ (fun _ => 0)) by (intros; reflexivity). rewrite Rsum_map_const. rewrite Rsum_nil. ring.
  - rewrite Rsum_cons, IH. rewrite <- Rsum_map_plus. apply Rsum_map_ext. intros b _. now rewrite Rsum_cons.
Qed.
Lemma pairdist_sum x y : Rsum (circ_pairdist Geodesic x y) = Rsum (map (fun a => Rsum (map (fun b => circ_dist Geodesic a b) y)) x).
Proof. apply Rsum_flat_map. Qed.
Lemma geodesic_comm a b : circ_dist Geodesic a b = circ_dist Geodesic b a.
Proof. cbn [circ_dist]. unfold circ_dist_geodesic. now rewrite (Rabs_minus_sym a b). Qed.
Lemma art_swap s1 s2 : art_statistic s1 s2 = art_statistic s2 s1.
Proof.
  unfold art_statistic. rewrite !pairdist_sum, Rsum_swap. f_equal.
  - f_equal. unfold Rdiv. rewrite (Rplus_comm (INR (length s1))). ring.
  - apply Rsum_map_ext. intros b _. apply Rsum_map_ext. intros a _. apply geodesic_comm.
Qed.
Lemma arc_dist_unique a b d d' : is_arc_dist a b d -> is_arc_dist a b d' -> d = d'.
Proof. intros [[k ->] H1] [[k' ->] H2]. apply Rle_antisym; auto. Qed.
Lemma arc_dist_turned t a b a' b' d : same_dir a' (a + t) -> same_dir b' (b + t) -> is_arc_dist a b d -> is_arc_dist a' b' d.
Proof.
  intros [i ->] [j ->] [[k Ek] H]. split.
  - exists (k - i + j)%Z. rewrite Ek. f_equal. rewrite plus_IZR, minus_IZR. ring.
  - intros k'. specialize (H (k' + i - j)%Z). rewrite minus_IZR, plus_IZR in H.
    replace (a + t + 2 * PI * IZR i - (b + t + 2 * PI * IZR j) + 2 * PI * IZR k') with (a - b + 2 * PI * (IZR k' + IZR i - IZR j)) by ring. exact H.
Qed.
Lemma arc_dist_mirrored t a b a' b' d : same_dir a' (t - a) -> same_dir b' (t - b) -> is_arc_dist a b d -> is_arc_dist a' b' d.
Proof.
  intros [i ->] [j ->] [[k Ek] H]. split.
  - exists (- k - i + j)%Z. rewrite Ek, <- Rabs_Ropp. f_equal. rewrite plus_IZR, minus_IZR, opp_IZR. ring.
  - intros k'. specialize (H (- k' - i + j)%Z). rewrite plus_IZR, minus_IZR, opp_IZR in H. rewrite <- Rabs_Ropp.
    replace (- (t - a + 2 * PI * IZR i - (t - b + 2 * PI * IZR j) + 2 * PI * IZR k')) with (a - b + 2 * PI * (- IZR k' - IZR i + IZR j)) by ring. exact H.
Qed.
Lemma Rsum_Forall2 {A B} (P : A -> B -> Prop) (f : A -> R) (g : B -> R) l l' : Forall2 P l l' ->
  (forall a b, In a l -> In b l' -> P a b -> f a = g b) -> Rsum (map f l) = Rsum (map g l').
Proof.
  induction 1 as [|a b l l' H F IH]; intros K; [reflexivity|]. cbn [map]. rewrite !Rsum_cons.
  rewrite (K a b (or_introl eq_refl) (or_introl eq_refl) H). f_equal. apply IH. intros u v Hu Hv. apply K; right; assumption.
Qed.
Lemma within_geodesic s1 s2 a b : within_turn (s1 ++ s2) -> In a s1 -> In b s2 -> is_arc_dist a b (circ_dist Geodesic a b).
Proof.
  intros W Ha Hb. apply geodesic_spec. pose proof (W a b (in_or_app _ _ _ (or_introl Ha)) (in_or_app _ _ _ (or_intror Hb))).
  pose proof (W b a (in_or_app _ _ _ (or_intror Hb)) (in_or_app _ _ _ (or_introl Ha))). unfold Rabs. destruct Rcase_abs; lra.
Qed.
Lemma art_invariant (P : R -> R -> Prop) s1 s2 s1' s2' :
  (forall a b a' b' d, P a a' -> P b b' -> is_arc_dist a b d -> is_arc_dist a' b' d) ->
  Forall2 P s1 s1' -> Forall2 P s2 s2' -> within_turn (s1 ++ s2) -> within_turn (s1' ++ s2') ->
  art_statistic s1' s2' = art_statistic s1 s2.
Proof.
  intros K F1 F2 W W'. unfold art_statistic. rewrite !pairdist_sum.
  rewrite <- (Forall2_len _ _ _ F1), <- (Forall2_len _ _ _ F2). f_equal. symmetry.
  apply (Rsum_Forall2 P); [exact F1|]. intros a a' Ha Ha' Pa.
  apply (Rsum_Forall2 P); [exact F2|]. intros b b' Hb Hb' Pb.
  apply (arc_dist_unique a' b'); [|apply (within_geodesic _ _ _ _ W' Ha' Hb')].
  apply (K a b); auto. apply (within_geodesic _ _ _ _ W Ha Hb).
Qed.
Lemma art_ok s1 s2 B draws : s1 <> [] -> s2 <> [] -> (0 < B)%Z ->
  exists t, angular_randomisation_test [s1; s2] B draws = Ok t /\ gof_stat t = art_statistic s1 s2.
Proof.
  intros Ha Hb HB. unfold angular_randomisation_test. cbn [existsb]. rewrite !nonempty_eqb by assumption. cbn [orb].
  replace (Z.leb B 0) with false by (symmetry; apply Z.leb_gt; lia). eexists. split; reflexivity.
Qed.
Lemma Forall2_nonempty {A B} (P : A -> B -> Prop) l l' : Forall2 P l l' -> l <> [] -> l' <> [].
Proof. intros F H ->. inversion F. congruence. Qed.
(** C85 *)
Lemma art_spec s1 s2 B draws : s1 <> [] -> s2 <> [] -> within_turn (s1 ++ s2) -> (0 < B)%Z ->
  exists t D, angular_randomisation_test [s1; s2] B draws = Ok t /\
    (forall a b, In a s1 -> In b s2 -> is_arc_dist a b (D a b)) /\
    gof_stat t = sqrt (INR (length s1) * INR (length s2) / (INR (length s1) + INR (length s2))) *
                 Rsum (map (fun a => Rsum (map (D a) s2)) s1).
Proof.
  intros H1 H2 W HB. destruct (art_ok s1 s2 B draws H1 H2 HB) as (t & E & S).
  exists t, (circ_dist Geodesic). split; [exact E|]. split; [intros; eapply within_geodesic; eauto|].
  rewrite S. unfold art_statistic. now rewrite pairdist_sum.
Qed.
Lemma art_turned t s1 s2 s1' s2' B B' draws draws' r r' : turned_by t s1 s1' -> turned_by t s2 s2' ->
  within_turn (s1 ++ s2) -> within_turn (s1' ++ s2') ->
  angular_randomisation_test [s1; s2] B draws = Ok r -> angular_randomisation_test [s1'; s2'] B' draws' = Ok r' ->
  gof_stat r' = gof_stat r.
Proof.
  intros F1 F2 W W'. unfold angular_randomisation_test. destruct (existsb _ [s1; s2]); [discriminate|]. destruct (existsb _ [s1'; s2']); [discriminate|].
  destruct (Z.leb B 0); [discriminate|]. destruct (Z.leb B' 0); [discriminate|].
  intros E E'. injection E as <-. injection E' as <-. cbn [gof_stat].
  apply (art_invariant (fun x y => same_dir y (x + t))); auto. intros a b a' b' d Pa Pb. apply (arc_dist_turned t); assumption.
Qed.
Lemma art_mirrored t s1 s2 s1' s2' B B' draws draws' r r' : mirrored t s1 s1' -> mirrored t s2 s2' ->
  within_turn (s1 ++ s2) -> within_turn (s1' ++ s2') ->
  angular_randomisation_test [s1; s2] B draws = Ok r -> angular_randomisation_test [s1'; s2'] B' draws' = Ok r' ->
  gof_stat r' = gof_stat r.
Proof.
  intros F1 F2 W W'. unfold angular_randomisation_test. destruct (existsb _ [s1; s2]); [discriminate|]. destruct (existsb _ [s1'; s2']); [discriminate|].
  destruct (Z.leb B 0); [discriminate|]. destruct (Z.leb B' 0); [discriminate|].
  intros E E'. injection E as <-. injection E' as <-. cbn [gof_stat].
  apply (art_invariant (fun x y => same_dir y (t - x))); auto. intros a b a' b' d Pa Pb. apply (arc_dist_mirrored t); assumption.
Qed.
Lemma art_symmetric s1 s2 B B' draws draws' r r' :
  angular_randomisation_test [s1; s2] B draws = Ok r -> angular_randomisation_test [s2; s1] B' draws' = Ok r' ->
  gof_stat r' = gof_stat r.
Proof.
  unfold angular_randomisation_test. destruct (existsb _ [s1; s2]); [discriminate|]. destruct (existsb _ [s2; s1]); [discriminate|].
  destruct (Z.leb B 0); [discriminate|]. destruct (Z.leb B' 0); [discriminate|].
  intros E E'. injection E as <-. injection E' as <-. cbn [gof_stat]. apply art_swap.
Qed.
Lemma art_errors samples B draws :
  (length samples <> 2%nat \/ In [] samples \/ (B <= 0)%Z) <-> angular_randomisation_test samples B draws = Err ValueError.
Proof.
  unfold angular_randomisation_test. destruct (existsb _ samples) eqn:E.
  - split; [reflexivity|]. intros _. right. left. apply existsb_exists in E. destruct E as (s & Hs & Z). destruct s; [exact Hs|discriminate].
  - assert (N : ~ In [] samples).
    { intros I. assert (existsb (fun s : list R => Nat.eqb (length s) 0) samples = true) by (apply existsb_exists; exists []; auto). congruence. }
    destruct samples as [|a [|b [|c l]]]; cbn [length]; try (split; [reflexivity|intros _; left; lia]).
    destruct (Z.leb_spec B 0); split; try discriminate; try (intros _; right; right; assumption); try reflexivity.
    intros [K|[K|K]]; [lia|contradiction|lia].
Qed.
