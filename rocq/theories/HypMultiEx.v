(** Concrete examples for the multi-sample tests. *)
From Verif Require Import Prelude NpModel NpProofs CircleSpec UtilsModel UtilsProofs DescModel DescProofs
  DescSpec DescApi DescApi2 Desc2Model Desc2Proofs Desc5Proofs Desc6Proofs Desc7Proofs ArcProofs HypProofs HypSpec Hyp2Proofs HypGofSpec HypGofModel HypGofProofs
  HypGof3Proofs HypMultiModel HypMulti2Model HypMultiSpec HypMultiProofs HypMulti2Proofs HypMulti3Proofs HypMulti4Proofs
  HypMulti5Proofs HypMulti6Proofs HypMulti7Proofs HypMulti8Proofs HypMulti9Proofs HypMulti10Proofs.

Lemma not_one g r : g <> [] -> resultant g = r -> r <> INR (length g) -> ~ one_direction g.
Proof. intros N E D K. apply resultant_full in K; auto. congruence. Qed.
Ltac res c s := apply (resultant_val _ c s); [cbn [map app concat]; rewrite ?Rsum_cons, ?Rsum_nil, ?cos_0, ?sin_0, ?cos_PI2, ?sin_PI2, ?cos_PI, ?sin_PI; ring ..|lra|].
Lemma sq2 : sqrt 2 * sqrt 2 = 2 /\ 141/100 < sqrt 2 < 142/100.
Proof.
  assert (Q : sqrt 2 * sqrt 2 = 2) by (apply sqrt_sqrt; lra). pose proof (sqrt_pos 2). split; auto. split; nra.
Qed.
Lemma res_0h : resultant [0; PI / 2] = sqrt 2.
Proof. destruct sq2 as [Q [A B]]. res 1 1. nra. Qed.
Lemma res_0p : resultant [0; PI] = 0.
Proof. res 0 0. nra. Qed.
Lemma not_0h : ~ one_direction [0; PI / 2].
Proof. apply (not_one _ (sqrt 2)); [discriminate|apply res_0h|]. destruct sq2. simpl. lra. Qed.
Lemma not_0p : ~ one_direction [0; PI].
Proof. apply (not_one _ 0); [discriminate|apply res_0p|]. simpl. lra. Qed.
Lemma not_p0 : ~ one_direction [PI; 0].
Proof. intros K. apply not_0p. intros a b Ha Hb. apply K; simpl in *; tauto. Qed.

Lemma ex_tab : tabulates ([0; PI], Some [2; 1]) [0; 0; PI] /\ tabulates ([PI / 2], None) [PI / 2].
Proof.
  split; [|apply tab_plain; discriminate]. split; [discriminate|]. exists [2; 1]%nat. split; auto.
Qed.
(** C32 *)
Lemma ex32 : Forall2 tabulates [([0; PI], Some [2; 1]); ([PI / 2], None)] [[0; 0; PI]; [PI / 2]] /\
  ~ Forall one_direction [[0; 0; PI]; [PI / 2]] /\ ~ aligned [[0; 0; PI]; [PI / 2]].
Proof.
  destruct ex_tab as [A B]. split; [exact (Forall2_cons _ _ A (Forall2_cons _ _ B (Forall2_nil _)))|]. split.
  - intros K. inversion K as [|? ? K1 _]; subst. apply not_0p. intros x y Hx Hy. apply K1; simpl in *; tauto.
  - intros (t & K). inversion K as [|? ? [K1 K2] K']; subst. inversion K' as [|? ? [K3 K4] _]; subst.
    cbn [map] in *. rewrite ?Rsum_cons, ?Rsum_nil, ?cos_0, ?sin_0, ?cos_PI, ?sin_PI, ?cos_PI2, ?sin_PI2 in *.
    assert (R1 : resultant [0; 0; PI] = 1) by (res 1 0; nra). assert (R2 : resultant [PI / 2] = 1) by (res 0 1; nra).
    rewrite R1 in *. rewrite R2 in *. lra.
Qed.
(** C33 *)
Lemma ex33 : turned_groups (PI / 2) [[0]; [0; PI]] [[3 * PI / 2; PI / 2]; [5 * PI / 2]].
Proof.
  exists [[0; PI]; [0]]. split; [apply perm_swap|]. constructor; [|constructor; [|constructor]].
  - exists [PI; 0]. split; [apply perm_swap|]. constructor; [exists 0%Z; field|constructor; [exists 0%Z; field|constructor]].
  - exists [0]. split; auto. constructor; [exists 1%Z; field|constructor].
Qed.
(** C38 *)
Lemma ex38 fsf : exists t, concentration_test fsf [0; PI / 2] [0; PI] = Ok t /\ co_f t = (2 - sqrt 2) / 2 /\ co_f t <> 1.
Proof.
  rewrite conc_run by (auto using not_0h, not_0p). eexists. split; [reflexivity|]. cbn [co_f]. unfold disp. rewrite res_0h, res_0p.
  cbn [length Nat.sub]. simpl INR. destruct sq2. split; [field|].
  replace ((1 + 1 - sqrt 2) / 1 / ((1 + 1 - 0) / 1)) with ((2 - sqrt 2) / 2) by field. lra.
Qed.
(** C39 *)
Lemma s_disp_ex : s_disp [0; 0; PI / 2] = 4 / 81 /\ s_disp [0; PI / 2; PI / 2] = 4 / 81.
Proof.
  unfold s_disp, var1, cov1, cos_mean, sin_mean, mean, map2. cbn [map combine length fst snd].
  rewrite ?Rsum_cons, ?Rsum_nil, ?cos_0, ?sin_0, ?cos_PI2, ?sin_PI2. simpl INR. split; field.
Qed.
Lemma ex39 ccdf cppf alpha : exists H, rh_disp (rao_homogeneity_test ccdf cppf alpha [[0; 0; PI / 2]; [0; PI / 2; PI / 2]]) = Fin H.
Proof.
  destruct s_disp_ex as [A B]. unfold rao_homogeneity_test. cbn [rh_disp length Nat.eqb negb forallb Nat.leb andb]. rewrite A, B.
  destruct (Reqb_spec (4 / 81) 0); [lra|]. cbn [negb andb]. eauto.
Qed.
Lemma ex39p ccdf cppf alpha :
  rh_polar (rao_homogeneity_test ccdf cppf alpha [sym_pair 0 (PI / 3); sym_pair (PI / 4) (PI / 3)]) = Fin (/ 15).
Proof.
  rewrite rao_pairs.
  - f_equal. rewrite tan_0, tan_PI4, cos_0, sin_PI3, cos_PI3, cos_PI4.
    assert (Q : sqrt 3 * sqrt 3 = 3) by (apply sqrt_sqrt; lra). destruct sq2 as [Q2 _].
    replace ((1 / sqrt 2) ^ 4) with (/ 4).
    + replace ((sqrt 3 / 2 / (1 / 2)) ^ 2) with 3 by (replace (sqrt 3 / 2 / (1 / 2)) with (sqrt 3) by field; nra). field.
    + replace ((1 / sqrt 2) ^ 4) with (/ ((sqrt 2 * sqrt 2) * (sqrt 2 * sqrt 2))) by (field; nra). rewrite Q2. lra.
  - rewrite cos_0; lra.
  - rewrite cos_PI4. destruct sq2 as [_ [A B]]. assert (0 < 1 / sqrt 2) by (apply Rdiv_lt_0_compat; lra). lra.
  - rewrite cos_PI3; lra.
  - rewrite sin_PI3. pose proof (sqrt_lt_R0 3). lra.
Qed.
(** C40 *)
Lemma ex40 logI0 : exists t, change_point_test logI0 [0; PI / 2; PI; 0] = Ok t /\ cp_tmax t <> NaN.
Proof.
  destruct (change_R logI0 [0; PI / 2; PI; 0]) as (t & E & _); [simpl; lia|]. exists t. split; auto.
  intros K. apply (change_T2 logI0 _ _ E) in K. destruct K as (k & Hk & K). cbn [length Nat.sub] in Hk.
  assert (k = 2%nat) by lia. subst k. cbn [firstn skipn] in K. destruct K as [K|K]; revert K; [apply not_0h|apply not_p0].
Qed.
(** C41: seven angles 0 and one angle pi/2, two observations per cell. *)
Definition ex_design : list (R * (nat * nat)) :=
  [(0, (0, 0)%nat); (0, (0, 0)%nat); (0, (0, 1)%nat); (0, (0, 1)%nat);
   (0, (1, 0)%nat); (0, (1, 0)%nat); (0, (1, 1)%nat); (PI / 2, (1, 1)%nat)].
Lemma design_cells : cells_of_size 2 ex_design.
Proof. intros i j Hi Hj. cbn in Hi, Hj. repeat (destruct Hi as [<-|Hi]); try contradiction; repeat (destruct Hj as [<-|Hj]); try contradiction; reflexivity. Qed.
Lemma design_filled : cells_filled ex_design.
Proof. intros i j Hi Hj E. pose proof (design_cells i j Hi Hj) as K. rewrite E in K. discriminate. Qed.
Lemma design_levels : level_count lvA ex_design 2 /\ level_count lvB ex_design 2.
Proof. split; [exact (levels_count lvA ex_design)|exact (levels_count lvB ex_design)]. Qed.
Lemma design_kappa : 2 < kappa0 (INR (length ex_design) * circ_r (angles_of ex_design) None / INR (length ex_design)).
Proof.
  assert (R8 : circ_r (angles_of ex_design) None * INR (length (angles_of ex_design)) = sqrt 50).
  { rewrite circ_r_resultant by discriminate.
    apply (resultant_val _ 7 1); [cbn [map angles_of ex_design fst]; rewrite ?Rsum_cons, ?Rsum_nil, ?cos_0, ?sin_0, ?cos_PI2, ?sin_PI2; ring ..|apply sqrt_pos|].
    rewrite pow2_sqrt; lra. }
  assert (Q : sqrt 50 * sqrt 50 = 50) by (apply sqrt_sqrt; lra). pose proof (sqrt_pos 50).
  assert (B : 7 < sqrt 50 < 72/10) by nra.
  replace (INR (length ex_design) * circ_r (angles_of ex_design) None / INR (length ex_design)) with (sqrt 50 / 8)
    by (rewrite <- R8; simpl length; simpl INR; field).
  set (r := sqrt 50 / 8). assert (Hr : 875/1000 < r < 9/10) by (unfold r; lra).
  unfold kappa0. destruct (Rltb_spec r (53/100)); [lra|]. destruct (Rltb_spec r (85/100)); [lra|].
  assert (N : 0 < r ^ 3 - 4 * r ^ 2 + 3 * r < 1/2).
  { replace (r ^ 3 - 4 * r ^ 2 + 3 * r) with (r * (1 - r) * (3 - r)) by ring. split.
    - apply Rmult_lt_0_compat; [apply Rmult_lt_0_compat|]; lra.
    - assert (r * (1 - r) < 1/8) by nra. nra. }
  destruct (Reqb_spec (r ^ 3 - 4 * r ^ 2 + 3 * r) 0); [lra|].
  unfold Rdiv. rewrite Rmult_1_l. rewrite <- (Rinv_inv 2). apply Rinv_lt_contravar; [apply Rmult_lt_0_compat; lra|lra].
Qed.
Lemma ex41 fcdf ccdf csf A1 inter : exists a b i r tot, harrison_kanji_test fcdf ccdf csf A1 ex_design inter = Ok (HkF a b i r tot).
Proof.
  pose proof design_kappa as K. unfold harrison_kanji_test. rewrite circ_kappa_none. cbn [bind].
  match goal with |- context [Rltb 2 ?x] => destruct (Rltb_spec 2 x) as [X|X] end; [|exfalso; exact (X K)].
  do 5 eexists. reflexivity.
Qed.
(** C42, C89 *)
Lemma sep_far tol l : tol <= / 1000 -> (forall a, In a l -> Rabs a <= 100) ->
  (forall a b, In a l -> In b l -> a <> b -> 1/100 < Rabs (a - b)) -> separated tol l.
Proof. intros T A B a b Ha Hb N. specialize (B a b Ha Hb N). specialize (A b Hb). lra. Qed.
Lemma ex42 : ascending [0; 1] /\ ascending [1; 2] /\ separated tol10 ([0; 1] ++ [1; 2]).
Proof.
  split; [repeat constructor; lra|]. split; [repeat constructor; lra|]. apply sep_far; [unfold tol10; lra| |]; cbn [app].
  - intros a Ha. repeat (destruct Ha as [<-|Ha]); try contradiction; unfold Rabs; destruct Rcase_abs; lra.
  - intros a b Ha Hb N. repeat (destruct Ha as [<-|Ha]); try contradiction; repeat (destruct Hb as [<-|Hb]); try contradiction; try lra;
      unfold Rabs; destruct Rcase_abs; lra.
Qed.
Lemma ex89 : NoDup (concat [[0]; [1; 3]]) /\ separated tol8 (concat [[0]; [1; 3]]) /\ Forall on_turn [[0]; [1; 3]] /\
  Forall2 (turned_obs 1) [[0]; [1; 3]] [[1]; [2; 4]] /\ Forall on_turn [[1]; [2; 4]].
Proof.
  assert (3 < PI <= 4) by (split; [pose proof PI2_3_2; unfold PI2 in *|pose proof PI_4]; lra).
  split; [repeat constructor; simpl; intros K; repeat (destruct K as [K|K]); try contradiction; lra|].
  split; [|split; [|split]].
  - apply sep_far; [unfold tol8; lra| |]; cbn [app concat].
    + intros a Ha. repeat (destruct Ha as [<-|Ha]); try contradiction; unfold Rabs; destruct Rcase_abs; lra.
    + intros a b Ha Hb N. repeat (destruct Ha as [<-|Ha]); try contradiction; repeat (destruct Hb as [<-|Hb]); try contradiction; try lra;
        unfold Rabs; destruct Rcase_abs; lra.
  - unfold on_turn. repeat constructor; lra.
  - constructor; [|constructor; [|constructor]]; (eexists; split; [apply Permutation_refl|]); repeat constructor; exists 0%Z; lra.
  - unfold on_turn. repeat constructor; lra.
Qed.
(** C43 *)
Lemma ex43 : pick_angles (Array [0; 1]) 0 1 /\ Forall2 (fun x e => is_arc_dist x 0 e) [PI / 2; 0] [PI / 2; 0].
Proof.
  split; [now right|]. pose proof PI_RGT_0.
  constructor; [|constructor; [|constructor]]; split.
  - exists 0%Z. rewrite Rmult_0_r, Rplus_0_r, Rminus_0_r. symmetry. apply Rabs_right. lra.
  - intros k. destruct (Z.lt_trichotomy k 0) as [K|[->|K]].
    + assert (IZR k <= -1) by (apply IZR_le; lia). rewrite Rabs_left; nra.
    + rewrite Rmult_0_r, Rplus_0_r, Rminus_0_r. rewrite Rabs_right; lra.
    + assert (1 <= IZR k) by (apply IZR_le; lia). rewrite Rabs_right; nra.
  - exists 0%Z. rewrite Rmult_0_r, Rplus_0_r, Rminus_0_r. symmetry. apply Rabs_R0.
  - intros k. apply Rabs_pos.
Qed.
(** C44: the pooled median is pi/2, one of three observations lies clockwise of it. *)
Lemma ex44 : circ_median_default (concat [[0; PI / 2]; [PI]]) = Ok (MOne (PI / 2)) /\
  Forall2 (fun g k => counts (clockwise_of (PI / 2)) g k) [[0; PI / 2]; [PI]] [1%nat; 0%nat].
Proof.
  split; [exact median_quarter|]. pose proof PI_RGT_0.
  assert (C0 : clockwise_of (PI / 2) 0) by (exists (PI / 2); split; [lra|]; exists 0%Z; field).
  assert (C1 : ~ clockwise_of (PI / 2) (PI / 2)).
  { intros (t & Ht & k & E). assert (IZR k * 2 * PI = t) by lra.
    destruct (Z.lt_trichotomy k 0) as [K|[->|K]]; [assert (IZR k <= -1) by (apply IZR_le; lia); nra|lra|assert (1 <= IZR k) by (apply IZR_le; lia); nra]. }
  assert (C2 : ~ clockwise_of (PI / 2) PI).
  { intros (t & Ht & k & E). assert (2 * PI * IZR k = t + PI / 2) by lra.
    destruct (Z.lt_trichotomy k 0) as [K|[->|K]]; [assert (IZR k <= -1) by (apply IZR_le; lia); nra|lra|assert (1 <= IZR k) by (apply IZR_le; lia); nra]. }
  constructor; [|constructor; [|constructor]].
  - exists [0], [PI / 2]. repeat split; auto.
  - exists [], [PI]. repeat split; auto.
Qed.
(** C88: one example per regime. *)
Lemma ml_val g c s r : (0 < length g)%nat -> Rsum (map cos g) = c -> Rsum (map sin g) = s -> 0 <= r ->
  c ^ 2 + s ^ 2 = r ^ 2 -> mean_length g = r / INR (length g).
Proof. intros L C S H E. unfold mean_length. now rewrite (resultant_val g c s r). Qed.
Ltac ml c s r := erewrite (ml_val _ c s r);
  [simpl length; simpl INR|simpl; lia|cbn [map app concat]; rewrite ?Rsum_cons, ?Rsum_nil, ?cos_0, ?sin_0, ?cos_PI2, ?sin_PI2, ?cos_PI, ?sin_PI; ring ..|try lra|].
Lemma ex88 : 
  (two_each [[0; 0; 0; PI; PI]; [0; 0; PI; PI; PI / 2]] /\ mean_length (concat [[0; 0; 0; PI; PI]; [0; 0; PI; PI; PI / 2]]) < 45/100 /\
   Forall (fun g => 3 * mean_length g ^ 2 <= 2 /\ (5 <= length g)%nat) [[0; 0; 0; PI; PI]; [0; 0; PI; PI; PI / 2]]) /\
  (two_each [[0; 0; 0; PI]; [0; 0; 0; PI]] /\ 45/100 <= mean_length (concat [[0; 0; 0; PI]; [0; 0; 0; PI]]) <= 7/10) /\
  (two_each [[0; PI / 2]; [0; PI / 2]] /\ 7/10 < mean_length (concat [[0; PI / 2]; [0; PI / 2]]) /\
   Forall (fun g => ~ one_direction g) [[0; PI / 2]; [0; PI / 2]]).
Proof.
  destruct sq2 as [Q [A B]].
  split; [|split].
  - split; [split; [simpl; lia|repeat constructor]|]. split; [ml 1 1 (sqrt 2); [lra|nra]|].
    constructor; [|constructor; [|constructor]]; (split; [|simpl; lia]); [ml 1 0 1|ml 0 1 1]; lra.
  - split; [split; [simpl; lia|repeat constructor]|]. ml 4 0 4; lra.
  - split; [split; [simpl; lia|repeat constructor]|]. split; [ml 2 2 (2 * sqrt 2); [lra|nra]|].
    repeat constructor; apply not_0h.
Qed.
(** C87 *)
Lemma ex87 : Forall (fun g => / 100000000 < circ_r g None) [concat [[0]; [PI / 2]]; [0]; [PI / 2]].
Proof.
  destruct sq2 as [Q [A B]].
  assert (X : forall g, g <> [] -> / 100000000 < mean_length g -> / 100000000 < circ_r g None) by (intros; now rewrite circ_r_mean).
  repeat constructor; (apply X; [discriminate|]).
  - cbn [concat app]. unfold mean_length. rewrite res_0h. simpl. lra.
  - ml 1 0 1; lra.
  - ml 0 1 1; lra.
Qed.
Lemma ex90 : Exists unusable [([0; 1], None); ([0; 1], Some [1; -1])] /\ Exists unusable [([0], Some [3 / 2]); ([0], None)].
Proof.
  split.
  - right. left. right. right. left. exists (-1). split; [simpl; auto|lra].
  - left. right. right. right. left. exists (3 / 2). split; [simpl; auto|]. intros k.
    destruct (Z_le_gt_dec k 1) as [K|K]; [assert (IZR k <= 1) by (apply IZR_le; lia)|assert (2 <= IZR k) by (apply IZR_le; lia)];
      unfold Rabs; repeat destruct Rcase_abs; lra.
Qed.
(** C42: the two ways the full statement fails. *)
Lemma u2_pval_refuted : exists a, watson_u2_test [(a, None); (a, None)] = Ok (0, 2).
Proof.
  exists [0; 1]. destruct ex42 as (A & B & C).
  assert (S : separated tol10 ([0; 1] ++ [0; 1])).
  { intros x y Hx Hy N. apply C; auto; simpl in *; tauto. }
  rewrite (u2_spec _ _ [0; 1] [0; 1]); auto; try (apply tab_plain; discriminate).
  assert (Z : two_sample_U2 [0; 1] [0; 1] = 0) by (apply u2_zero; try discriminate; reflexivity).
  rewrite Z, Rmult_0_r, exp_0. do 2 f_equal. ring.
Qed.
Lemma u2_order_refuted : exists a a' b r, Permutation a a' /\ watson_u2_test [(a, None); (b, None)] = Ok r /\
  watson_u2_test [(a', None); (b, None)] = Err ValueError.
Proof.
  exists [0; 1], [1; 0], [1; 2]. eexists. split; [apply perm_swap|]. destruct ex42 as (A & B & C). split.
  - apply (u2_spec _ _ [0; 1] [1; 2]); auto; apply tab_plain; discriminate.
  - apply (u2_errors _ _ [1; 0] [1; 2]); try (apply tab_plain; discriminate). left. split.
    + intros x y Hx Hy N. apply C; auto; simpl in *; tauto.
    + left. intros K. inversion K; lra.
Qed.
Lemma conc_value fsf a b : (2 <= length a)%nat -> (2 <= length b)%nat -> ~ one_direction a -> ~ one_direction b ->
  let F := disp a / disp b in
  exists t, concentration_test fsf a b = Ok t /\ co_f t = F /\ 
    co_pval t = Rmin (if Rle_dec 1 F then 2 * fsf F (length a - 1)%nat (length b - 1)%nat
                      else 2 * fsf (/ F) (length b - 1)%nat (length a - 1)%nat) 1 /\
    co_df1 t = (length a - 1)%nat /\ co_df2 t = (length b - 1)%nat.
Proof. intros A B C D F. rewrite conc_run by auto. eexists. split; [reflexivity|]. repeat split. Qed.
Lemma gains alpha k : (k <= length alpha)%nat -> 0 <= split_gain alpha k <= 2 * INR (Nat.min k (length alpha - k)).
Proof.
  intros H. split; [apply gain_nonneg|]. destruct (gain_le alpha k H) as [A B].
  destruct (Nat.min_spec k (length alpha - k)) as [[_ ->]|[_ ->]]; auto.
Qed.
Lemma rao_terms s : (2 <= length s)%nat -> 0 <= s_disp s /\ (Rsum (map cos s) <> 0 -> 0 <= s_polar s).
Proof.
  intros L. split; [now apply s_disp_nonneg|]. intros C. apply s_polar_nonneg; auto. intros Z. apply C.
  unfold cos_mean, mean in Z. rewrite map_length in Z. apply Rmult_integral in Z. destruct Z as [Z|Z]; auto.
  exfalso. revert Z. apply Rinv_neq_0_compat, not_0_INR. lia.
Qed.
