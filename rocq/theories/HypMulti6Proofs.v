From Verif Require Import Prelude NpModel NpProofs CircleSpec UtilsModel UtilsProofs DescModel DescProofs
  DescSpec DescApi DescApi2 Desc2Model Desc2Proofs Desc5Proofs Desc6Proofs ArcProofs HypProofs Hyp2Proofs HypGofSpec HypGofModel HypGofProofs
  HypMultiModel HypMulti2Model HypMultiSpec HypMultiProofs HypMulti2Proofs.

(** * Weighted sums of squares *)
Definition wmean (p : list (R * R)) : R := Rsum (map (fun q => fst q * snd q) p) / Rsum (map fst p).
Lemma wsum_pos (p : list (R * R)) : p <> [] -> Forall (fun q => 0 < fst q) p -> 0 < Rsum (map fst p).
Proof.
  intros N H. destruct H as [|q p Hq H]; [congruence|]. cbn [map]. rewrite Rsum_cons.
  assert (0 <= Rsum (map fst p)).
  { apply Rsum_map_nonneg. intros x Hx. rewrite Forall_forall in H. specialize (H x Hx). lra. }
  lra.
Qed.
Lemma wss_eq p : Rsum (map fst p) <> 0 ->
  Rsum (map (fun q => fst q * snd q ^ 2) p) - Rsum (map (fun q => fst q * snd q) p) ^ 2 / Rsum (map fst p) =
  Rsum (map (fun q => fst q * (snd q - wmean p) ^ 2) p).
Proof.
  intros H. set (m := wmean p).
  rewrite (Rsum_map_ext (fun q => fst q * (snd q - m) ^ 2)
    (fun q => fst q * snd q ^ 2 + ((-2 * m) * (fst q * snd q) + m ^ 2 * fst q))) by (intros; ring).
  rewrite !Rsum_map_plus, !Rsum_map_scal. unfold m, wmean. field. exact H.
Qed.
Lemma wss_nonneg p m : Forall (fun q => 0 < fst q) p -> 0 <= Rsum (map (fun q => fst q * (snd q - m) ^ 2) p).
Proof.
  intros H. apply Rsum_map_nonneg. intros q Hq. rewrite Forall_forall in H. specialize (H q Hq).
  pose proof (pow2_ge_0 (snd q - m)). nra.
Qed.
Lemma wss_zero p : p <> [] -> Forall (fun q => 0 < fst q) p ->
  (Rsum (map (fun q => fst q * (snd q - wmean p) ^ 2) p) = 0 <-> all_equal (map snd p)).
Proof.
  intros N H. pose proof (wsum_pos p N H) as W. split.
  - intros E. assert (Q : forall q, In q p -> snd q = wmean p).
    { intros q Hq. assert (Z : fst q * (snd q - wmean p) ^ 2 = 0).
      { apply (Rsum_map_0 (fun q => fst q * (snd q - wmean p) ^ 2) p); auto.
        intros x Hx. rewrite Forall_forall in H. specialize (H x Hx). pose proof (pow2_ge_0 (snd x - wmean p)). nra. }
      rewrite Forall_forall in H. specialize (H q Hq). apply Rmult_integral in Z. destruct Z as [Z|Z]; [lra|nra]. }
    intros x y Hx Hy. apply in_map_iff in Hx, Hy. destruct Hx as (a & <- & Ha). destruct Hy as (b & <- & Hb).
    now rewrite (Q a Ha), (Q b Hb).
  - intros E. destruct p as [|q0 p0]; [congruence|]. set (p := q0 :: p0) in *.
    assert (A : forall q, In q p -> snd q = snd q0).
    { intros q Hq. apply E; [now apply in_map|apply in_map; now left]. }
    assert (M : wmean p = snd q0).
    { unfold wmean. rewrite (Rsum_map_ext (fun q => fst q * snd q) (fun q => snd q0 * fst q)).
      - rewrite Rsum_map_scal. field. lra.
      - intros q Hq. rewrite (A q Hq). ring. }
    rewrite (Rsum_map_ext _ (fun _ => 0)); [rewrite Rsum_map_const; ring|].
    intros q Hq. rewrite M, (A q Hq). ring.
Qed.

(** * Rao homogeneity *)
Lemma cov1_self x : cov1 x x = ssd x / (INR (length x) - 1).
Proof.
  unfold cov1, ssd, map2. f_equal. induction x as [|a x IH] using rev_ind; [reflexivity|]. clear IH.
  set (m := mean (x ++ [a])). generalize (x ++ [a]). clear. induction l as [|b l IH]; [reflexivity|].
  cbn [combine map fst snd]. rewrite !Rsum_cons, IH. ring.
Qed.
(** Variance of a linear combination of the coordinates. *)
Lemma var_lin u v (s : list R) : (2 <= length s)%nat ->
  ssd (map (fun a => u * cos a + v * sin a) s) / (INR (length s) - 1) =
  u ^ 2 * var1 (map cos s) + v ^ 2 * var1 (map sin s) + 2 * u * v * cov1 (map cos s) (map sin s).
Proof.
  intros L. assert (Ls : INR (length s) <> 0) by (apply not_0_INR; lia).
  assert (Ld : INR (length s) - 1 <> 0).
  { assert (1 < INR (length s)) by (change 1 with (INR 1); apply lt_INR; lia). lra. }
  assert (M : mean (map (fun a => u * cos a + v * sin a) s) = u * mean (map cos s) + v * mean (map sin s)).
  { unfold mean. rewrite !map_length, Rsum_map_plus, !Rsum_map_scal. field. exact Ls. }
  unfold ssd, var1, cov1. rewrite M, !map_length. set (mc := mean (map cos s)). set (ms := mean (map sin s)).
  rewrite map_map.
  assert (E : forall (f g : R -> R) (h : R -> R -> R), map2 h (map f s) (map g s) = map (fun a => h (f a) (g a)) s).
  { intros f g h. unfold map2. clear. induction s; simpl; congruence. }
  rewrite !E.
  rewrite (Rsum_map_ext _ (fun a => u ^ 2 * ((cos a - mc) * (cos a - mc)) + (v ^ 2 * ((sin a - ms) * (sin a - ms))
    + 2 * u * v * ((cos a - mc) * (sin a - ms))))) by (intros; ring).
  rewrite !Rsum_map_plus, !Rsum_map_scal. field. exact Ld.
Qed.
Lemma s_disp_var s : (2 <= length s)%nat ->
  s_disp s = 4 / INR (length s) * (ssd (map (fun a => cos_mean s * cos a + sin_mean s * sin a) s) / (INR (length s) - 1)).
Proof. intros L. rewrite (var_lin (cos_mean s) (sin_mean s) s L). unfold s_disp. reflexivity. Qed.
Lemma s_polar_var s : (2 <= length s)%nat -> cos_mean s <> 0 ->
  s_polar s = / (INR (length s) * cos_mean s ^ 2) *
    (ssd (map (fun a => - (tan_mean s) * cos a + 1 * sin a) s) / (INR (length s) - 1)).
Proof.
  intros L C. rewrite (var_lin (- tan_mean s) 1 s L). unfold s_polar, tan_mean. field. split; auto.
  apply not_0_INR. lia.
Qed.
Lemma ssd_ge0 l : 0 <= ssd l.
Proof. apply Rsum_map_nonneg. intros. apply pow2_ge_0. Qed.
Lemma size_facts (s : list R) : (2 <= length s)%nat -> 0 < INR (length s) /\ 0 < INR (length s) - 1.
Proof.
  intros L. assert (1 < INR (length s)) by (change 1 with (INR 1); apply lt_INR; lia). lra.
Qed.
Lemma s_disp_nonneg s : (2 <= length s)%nat -> 0 <= s_disp s.
Proof.
  intros L. rewrite s_disp_var by auto. destruct (size_facts s L).
  apply Rmult_le_pos; apply Rdiv_ge0; auto; try lra. apply ssd_ge0.
Qed.
Lemma s_polar_nonneg s : (2 <= length s)%nat -> cos_mean s <> 0 -> 0 <= s_polar s.
Proof.
  intros L C. rewrite s_polar_var by auto. destruct (size_facts s L).
  apply Rmult_le_pos; [|apply Rdiv_ge0; auto; apply ssd_ge0].
  apply Rlt_le, Rinv_0_lt_compat, Rmult_lt_0_compat; auto. rewrite <- Rsqr_pow2; now apply Rsqr_pos_lt.
Qed.
Lemma rao_H_wss {A} (x s : A -> R) (l : list A) : l <> [] -> (forall a, In a l -> 0 < s a) ->
  rao_H (map (fun a => (x a, s a)) l) =
    Rsum (map (fun q => fst q * (snd q - wmean (map (fun a => (1 / s a, x a)) l)) ^ 2) (map (fun a => (1 / s a, x a)) l)) /\
  0 <= rao_H (map (fun a => (x a, s a)) l) /\
  (rao_H (map (fun a => (x a, s a)) l) = 0 <-> all_equal (map x l)).
Proof.
  intros N S. set (p := map (fun a => (1 / s a, x a)) l).
  assert (Np : p <> []) by (destruct l; [congruence|discriminate]).
  assert (P : Forall (fun q => 0 < fst q) p).
  { unfold p. rewrite Forall_map. apply Forall_forall. intros a Ha. cbn. specialize (S a Ha). apply Rdiv_lt_0_compat; lra. }
  assert (E : rao_H (map (fun a => (x a, s a)) l) = Rsum (map (fun q => fst q * (snd q - wmean p) ^ 2) p)).
  { rewrite <- wss_eq by (apply Rgt_not_eq, wsum_pos; auto). unfold rao_H, p. rewrite !map_map. cbn [fst snd].
    rewrite (Rsum_map_ext (fun a => x a ^ 2 / s a) (fun a => 1 / s a * x a ^ 2)) by (intros; unfold Rdiv; ring).
    rewrite (Rsum_map_ext (fun a => x a / s a) (fun a => 1 / s a * x a)) by (intros; unfold Rdiv; ring).
    reflexivity. }
  split; auto. split; [rewrite E; now apply wss_nonneg|].
  rewrite E, wss_zero by auto. unfold p. rewrite map_map. reflexivity.
Qed.
Lemma sized_bool samples : negb (Nat.eqb (length samples) 0) && forallb (fun s => Nat.leb 2 (length s)) samples = true <-> sized samples.
Proof.
  unfold sized. rewrite andb_true_iff, negb_true_iff, Nat.eqb_neq, forallb_forall, Forall_forall. split.
  - intros [A B]. split; [intros ->; now apply A|]. intros s Hs. apply Nat.leb_le. auto.
  - intros [A B]. split; [destruct samples; [congruence|discriminate]|]. intros s Hs. apply Nat.leb_le. auto.
Qed.
Lemma rao_disp_spec ccdf cppf alpha samples H : rh_disp (rao_homogeneity_test ccdf cppf alpha samples) = Fin H ->
  0 <= H /\ (H = 0 <-> all_equal (map mean_length samples)) /\ sized samples.
Proof.
  cbn [rao_homogeneity_test rh_disp].
  destruct (_ && forallb (fun s => negb (Reqb (s_disp s) 0)) samples) eqn:B; [|discriminate]. intros [= <-].
  apply andb_true_iff in B. destruct B as [B1 B2]. apply sized_bool in B1. destruct B1 as [N S].
  rewrite forallb_forall in B2. rewrite Forall_forall in S.
  assert (P : forall a, In a samples -> 0 < s_disp a).
  { intros a Ha. pose proof (s_disp_nonneg a (S a Ha)). specialize (B2 a Ha). apply negb_true_iff in B2.
    destruct (Reqb_spec (s_disp a) 0); [discriminate|]. lra. }
  destruct (rao_H_wss U_disp s_disp samples N P) as (_ & G1 & G2). split; auto.
  split; [|split; [auto|now apply Forall_forall]].
  rewrite G2. unfold all_equal.
  assert (U : forall s, In s samples -> U_disp s = mean_length s ^ 2 /\ 0 <= mean_length s).
  { intros s Hs. destruct (size_facts s (S s Hs)). unfold U_disp, cos_mean, sin_mean, mean_length, mean.
    rewrite !map_length. split; [|apply Rdiv_ge0; [apply resultant_nonneg|auto]].
    unfold Rdiv. rewrite !Rpow_mult_distr, resultant_sqr. ring. }
  split; intros E x y Hx Hy; apply in_map_iff in Hx, Hy; destruct Hx as (a & <- & Ha); destruct Hy as (b & <- & Hb).
  - destruct (U a Ha) as [Ea Pa]. destruct (U b Hb) as [Eb Pb].
    assert (Q : mean_length a ^ 2 = mean_length b ^ 2).
    { rewrite <- Ea, <- Eb. apply E; now apply in_map. }
    nra.
  - destruct (U a Ha) as [-> _]. destruct (U b Hb) as [-> _]. f_equal. apply E; now apply in_map.
Qed.
Lemma rao_polar_spec ccdf cppf alpha samples H : rh_polar (rao_homogeneity_test ccdf cppf alpha samples) = Fin H ->
  0 <= H /\ (H = 0 <-> forall a b, In a samples -> In b samples -> same_line a b) /\ sized samples.
Proof.
  cbn [rao_homogeneity_test rh_polar].
  destruct (_ && forallb (fun s => negb (Reqb (cos_mean s) 0) && negb (Reqb (s_polar s) 0)) samples) eqn:B; [|discriminate].
  intros [= <-].
  apply andb_true_iff in B. destruct B as [B1 B2]. apply sized_bool in B1. destruct B1 as [N S].
  rewrite forallb_forall in B2. rewrite Forall_forall in S.
  assert (C : forall a, In a samples -> cos_mean a <> 0).
  { intros a Ha. specialize (B2 a Ha). apply andb_true_iff in B2. destruct B2 as [B2 _].
    apply negb_true_iff in B2. destruct (Reqb_spec (cos_mean a) 0); [discriminate|auto]. }
  assert (P : forall a, In a samples -> 0 < s_polar a).
  { intros a Ha. pose proof (s_polar_nonneg a (S a Ha) (C a Ha)). specialize (B2 a Ha).
    apply andb_true_iff in B2. destruct B2 as [_ B2]. apply negb_true_iff in B2.
    destruct (Reqb_spec (s_polar a) 0); [discriminate|]. lra. }
  destruct (rao_H_wss tan_mean s_polar samples N P) as (_ & G1 & G2). split; auto.
  split; [|split; [auto|now apply Forall_forall]].
  rewrite G2. unfold all_equal.
  assert (L : forall a b, In a samples -> In b samples -> (tan_mean a = tan_mean b <-> same_line a b)).
  { intros a b Ha Hb. destruct (size_facts a (S a Ha)) as [La _]. destruct (size_facts b (S b Hb)) as [Lb _].
    assert (Ca := C a Ha). assert (Cb := C b Hb). unfold tan_mean, same_line in *. unfold cos_mean, sin_mean, mean in *.
    rewrite !map_length in *. set (ca := Rsum (map cos a)) in *. set (cb := Rsum (map cos b)) in *.
    set (sa := Rsum (map sin a)). set (sb := Rsum (map sin b)). set (na := INR (length a)) in *. set (nb := INR (length b)) in *.
    assert (Ca' : ca <> 0) by (intros Z; apply Ca; rewrite Z; unfold Rdiv; ring).
    assert (Cb' : cb <> 0) by (intros Z; apply Cb; rewrite Z; unfold Rdiv; ring).
    replace (sa / na / (ca / na)) with (sa / ca) by (field; split; lra || auto).
    replace (sb / nb / (cb / nb)) with (sb / cb) by (field; split; lra || auto).
    split; intros E.
    - replace sa with (sa / ca * ca) by (field; auto). rewrite E. field. auto.
    - apply (Rmult_eq_reg_r (ca * cb)); [|now apply Rmult_integral_contrapositive_currified].
      replace (sa / ca * (ca * cb)) with (sa * cb) by (field; auto).
      replace (sb / cb * (ca * cb)) with (sb * ca) by (field; auto). exact E. }
  split.
  - intros E a b Ha Hb. apply L; auto. apply E; now apply in_map.
  - intros E x y Hx Hy; apply in_map_iff in Hx, Hy; destruct Hx as (a & <- & Ha); destruct Hy as (b & <- & Hb).
    apply L; auto.
Qed.
(** Turning every sample leaves the dispersion statistic alone. *)
Lemma proj_turn t a b : turned_obs t a b -> (2 <= length a)%nat -> U_disp b = U_disp a /\ s_disp b = s_disp a.
Proof.
  intros T L. pose proof (turned_obs_length _ _ _ T) as TL. destruct (turned_obs_sums _ _ _ T) as [EC ES].
  assert (La : INR (length a) <> 0) by (apply not_0_INR; lia).
  assert (C : cos_mean b = cos_mean a * cos t - sin_mean a * sin t).
  { unfold cos_mean, sin_mean, mean. rewrite !map_length, <- TL, EC. field. auto. }
  assert (S : sin_mean b = sin_mean a * cos t + cos_mean a * sin t).
  { unfold cos_mean, sin_mean, mean. rewrite !map_length, <- TL, ES. field. auto. }
  pose proof (sin2_cos2 t) as SC. unfold Rsqr in SC.
  split.
  - unfold U_disp. rewrite C, S.
    replace ((cos_mean a * cos t - sin_mean a * sin t) ^ 2 + (sin_mean a * cos t + cos_mean a * sin t) ^ 2)
      with ((cos_mean a ^ 2 + sin_mean a ^ 2) * (sin t * sin t + cos t * cos t)) by ring.
    rewrite SC. ring.
  - rewrite !s_disp_var by lia. rewrite <- TL. f_equal. f_equal. destruct T as (l & P & F).
    rewrite (ssd_perm _ _ (Permutation_map (fun x => cos_mean a * cos x + sin_mean a * sin x) P)).
    apply (f_equal ssd). rewrite C, S. clear -F SC. induction F as [|x y l b H F IH]; [reflexivity|].
    cbn [map]. rewrite IH. f_equal. rewrite (same_dir_cos _ _ H), (same_dir_sin _ _ H).
    rewrite cos_plus, sin_plus.
    transitivity ((cos_mean a * cos x + sin_mean a * sin x) * (sin t * sin t + cos t * cos t)); [ring|].
    rewrite SC. ring.
Qed.
Lemma rao_disp_turned ccdf cppf alpha t samples samples' : Forall2 (turned_obs t) samples samples' ->
  rh_disp (rao_homogeneity_test ccdf cppf alpha samples') = rh_disp (rao_homogeneity_test ccdf cppf alpha samples) /\
  rh_pval_disp (rao_homogeneity_test ccdf cppf alpha samples') = rh_pval_disp (rao_homogeneity_test ccdf cppf alpha samples) /\
  rh_reject_disp (rao_homogeneity_test ccdf cppf alpha samples') = rh_reject_disp (rao_homogeneity_test ccdf cppf alpha samples).
Proof.
  intros F. assert (L : length samples' = length samples) by (clear -F; induction F; simpl; congruence).
  assert (Z : forallb (fun s => Nat.leb 2 (length s)) samples' = forallb (fun s => Nat.leb 2 (length s)) samples).
  { clear -F. induction F as [|a b l l' H F IH]; cbn [forallb]; auto. rewrite IH, (turned_obs_length _ _ _ H). reflexivity. }
  cbn [rao_homogeneity_test rh_disp rh_pval_disp rh_reject_disp]. rewrite L, Z.
  destruct (forallb (fun s => Nat.leb 2 (length s)) samples) eqn:B.
  2: { rewrite !andb_false_r. cbn [andb]. auto. }
  rewrite forallb_forall in B.
  assert (E : map (fun s => (U_disp s, s_disp s)) samples' = map (fun s => (U_disp s, s_disp s)) samples /\
    forallb (fun s => negb (Reqb (s_disp s) 0)) samples' = forallb (fun s => negb (Reqb (s_disp s) 0)) samples).
  { clear -F B. induction F as [|a b l l' H F IH]; [auto|]. destruct (IH ltac:(intros; apply B; now right)) as [I1 I2].
    destruct (proj_turn _ _ _ H ltac:(apply Nat.leb_le, B; now left)) as [U V].
    cbn [map forallb]. rewrite I1, I2, U, V. auto. }
  destruct E as [-> ->]. auto.
Qed.
(** The polar statistic sees only the line through the mean direction. *)
Lemma polar_opposite a b : turned_obs PI a b -> (2 <= length a)%nat ->
  tan_mean b = tan_mean a /\ s_polar b = s_polar a /\ (cos_mean b = 0 <-> cos_mean a = 0).
Proof.
  intros T L. pose proof (turned_obs_length _ _ _ T) as TL. destruct (turned_obs_sums _ _ _ T) as [EC ES].
  rewrite cos_PI, sin_PI in EC, ES.
  assert (La : INR (length a) <> 0) by (apply not_0_INR; lia).
  assert (C : cos_mean b = - cos_mean a).
  { unfold cos_mean, mean. rewrite !map_length, <- TL, EC. field. auto. }
  assert (S : sin_mean b = - sin_mean a).
  { unfold sin_mean, mean. rewrite !map_length, <- TL, ES. field. auto. }
  destruct (Req_dec (cos_mean a) 0) as [Z|NZ].
  - unfold tan_mean, s_polar. rewrite C, S, Z, <- TL, Ropp_0. unfold Rdiv.
    replace (0 ^ 2) with 0 by ring. replace (0 ^ 3) with 0 by ring. replace (0 ^ 4) with 0 by ring.
    rewrite Rinv_0. split; [ring|]. split; [ring|tauto].
  - assert (TM : tan_mean b = tan_mean a) by (unfold tan_mean; rewrite C, S; field; auto).
    split; auto. split; [|split; intros; exfalso; lra].
    rewrite !s_polar_var by (auto; try lia; lra). rewrite C, <- TL, TM.
    f_equal; [f_equal; ring|]. f_equal. destruct T as (l & P & F).
    rewrite (ssd_perm _ _ (Permutation_map (fun x => - tan_mean a * cos x + 1 * sin x) P)).
    transitivity (ssd (map (fun d => (-1) * d + 0) (map (fun x => - tan_mean a * cos x + 1 * sin x) l))).
    + f_equal. rewrite map_map. clear -F. induction F as [|x y l b H F IH]; [reflexivity|].
      cbn [map]. rewrite IH. f_equal. rewrite (same_dir_cos _ _ H), (same_dir_sin _ _ H). rewrite neg_cos, neg_sin. ring.
    + rewrite ssd_affine; [ring|]. intros E. apply map_eq_nil in E. subst.
      apply Permutation_sym, Permutation_nil in P. subst. simpl in L. lia.
Qed.
Lemma rao_polar_opposite ccdf cppf alpha pre a b post : turned_obs PI a b ->
  rh_polar (rao_homogeneity_test ccdf cppf alpha (pre ++ b :: post)) =
  rh_polar (rao_homogeneity_test ccdf cppf alpha (pre ++ a :: post)).
Proof.
  intros T. cbn [rao_homogeneity_test rh_polar]. rewrite !app_length, !forallb_app, !map_app. cbn [length forallb map].
  rewrite <- (turned_obs_length _ _ _ T). destruct (Nat.leb 2 (length a)) eqn:L.
  2: { rewrite !andb_false_l, !andb_false_r, !andb_false_l. reflexivity. }
  apply Nat.leb_le in L. destruct (polar_opposite a b T L) as (E1 & E2 & E3). rewrite E1, E2.
  assert (Q : Reqb (cos_mean b) 0 = Reqb (cos_mean a) 0).
  { destruct (Reqb_spec (cos_mean b) 0); destruct (Reqb_spec (cos_mean a) 0); tauto. }
  rewrite Q. reflexivity.
Qed.
(** Two observations at m - u and m + u. *)
Definition sym_pair (m u : R) : list R := [m - u; m + u].
Lemma sym_pair_vals m u : cos m <> 0 -> cos u <> 0 ->
  cos_mean (sym_pair m u) = cos m * cos u /\ tan_mean (sym_pair m u) = tan m /\
  s_polar (sym_pair m u) = (sin u / cos u) ^ 2 / cos m ^ 4.
Proof.
  intros Hm Hu.
  assert (C : cos_mean (sym_pair m u) = cos m * cos u).
  { unfold cos_mean, mean, sym_pair. cbn [map length]. rewrite !Rsum_cons, Rsum_nil, cos_minus, cos_plus.
    replace (INR 2) with 2 by (simpl; lra). field. }
  assert (S : sin_mean (sym_pair m u) = sin m * cos u).
  { unfold sin_mean, mean, sym_pair. cbn [map length]. rewrite !Rsum_cons, Rsum_nil, sin_minus, sin_plus.
    replace (INR 2) with 2 by (simpl; lra). field. }
  assert (T : tan_mean (sym_pair m u) = tan m).
  { unfold tan_mean. rewrite C, S. unfold tan. field. auto. }
  split; auto. split; auto.
  rewrite s_polar_var; [|simpl; lia|rewrite C; now apply Rmult_integral_contrapositive_currified].
  rewrite C, T. unfold ssd, mean, sym_pair. cbn [map length]. rewrite !Rsum_cons, !Rsum_nil, cos_minus, cos_plus, sin_minus, sin_plus.
  replace (INR 2) with 2 by (simpl; lra). unfold tan.
  pose proof (sin2_cos2 m) as SC. unfold Rsqr in SC. set (s := sin m) in *. set (c := cos m) in *.
  set (su := sin u). set (cu := cos u) in *.
  transitivity ((s * s + c * c) ^ 2 * su ^ 2 / (cu ^ 2 * c ^ 4)); [field; auto|]. rewrite SC. field. auto.
Qed.
Lemma rao_two x1 s1 x2 s2 : 0 < s1 -> 0 < s2 -> rao_H [(x1, s1); (x2, s2)] = (x1 - x2) ^ 2 / (s1 + s2).
Proof.
  intros A B. unfold rao_H. cbn [map fst snd]. rewrite !Rsum_cons, !Rsum_nil. field.
  repeat split; lra.
Qed.
Lemma rao_pairs ccdf cppf alpha m1 m2 u : cos m1 <> 0 -> cos m2 <> 0 -> cos u <> 0 -> sin u <> 0 ->
  rh_polar (rao_homogeneity_test ccdf cppf alpha [sym_pair m1 u; sym_pair m2 u]) =
  Fin ((tan m1 - tan m2) ^ 2 / ((sin u / cos u) ^ 2 / cos m1 ^ 4 + (sin u / cos u) ^ 2 / cos m2 ^ 4)).
Proof.
  intros H1 H2 Hc Hs. destruct (sym_pair_vals m1 u H1 Hc) as (C1 & T1 & S1). destruct (sym_pair_vals m2 u H2 Hc) as (C2 & T2 & S2).
  assert (P : forall c, c <> 0 -> 0 < (sin u / cos u) ^ 2 / c ^ 4).
  { intros c Nc. apply Rdiv_lt_0_compat.
    - rewrite <- Rsqr_pow2. apply Rsqr_pos_lt. unfold Rdiv. apply Rmult_integral_contrapositive_currified; auto.
      now apply Rinv_neq_0_compat.
    - replace (c ^ 4) with (Rsqr (c * c)) by (unfold Rsqr; ring). apply Rsqr_pos_lt. now apply Rmult_integral_contrapositive_currified. }
  pose proof (P _ H1) as P1. pose proof (P _ H2) as P2.
  cbn [rao_homogeneity_test rh_polar map forallb]. rewrite C1, C2, T1, T2, S1, S2.
  change (length [sym_pair m1 u; sym_pair m2 u]) with 2%nat. cbn [length sym_pair Nat.leb Nat.eqb negb andb].
  destruct (Reqb_spec (cos m1 * cos u) 0) as [Z|_]; [apply Rmult_integral in Z; tauto|].
  destruct (Reqb_spec (cos m2 * cos u) 0) as [Z|_]; [apply Rmult_integral in Z; tauto|].
  destruct (Reqb_spec ((sin u / cos u) ^ 2 / cos m1 ^ 4) 0) as [Z|_]; [lra|].
  destruct (Reqb_spec ((sin u / cos u) ^ 2 / cos m2 ^ 4) 0) as [Z|_]; [lra|]. cbn [negb andb].
  now rewrite rao_two.
Qed.
Lemma rao_polar_refuted ccdf cppf alpha : exists t samples samples', Forall2 (turned_obs t) samples samples' /\
  rh_polar (rao_homogeneity_test ccdf cppf alpha samples) = Fin (3/17) /\
  rh_polar (rao_homogeneity_test ccdf cppf alpha samples') = Fin (3/8).
Proof.
  exists (- (PI / 6)), [sym_pair 0 (PI / 4); sym_pair (PI / 3) (PI / 4)],
    [sym_pair (- (PI / 6)) (PI / 4); sym_pair (PI / 6) (PI / 4)].
  assert (C4 : cos (PI / 4) <> 0).
  { rewrite cos_PI4. apply Rgt_not_eq, Rdiv_lt_0_compat; [lra|apply sqrt_lt_R0; lra]. }
  assert (S4 : sin (PI / 4) / cos (PI / 4) = 1) by (rewrite sin_PI4, <- cos_PI4; field; auto).
  assert (S4' : sin (PI / 4) <> 0) by (rewrite sin_PI4, <- cos_PI4; auto).
  assert (Q3 : sqrt 3 * sqrt 3 = 3) by (apply sqrt_sqrt; lra).
  assert (P3 : 0 < sqrt 3) by (apply sqrt_lt_R0; lra).
  split; [|split].
  - constructor; [|constructor; [|constructor]].
    + exists (sym_pair 0 (PI / 4)). split; [apply Permutation_refl|]. constructor; [|constructor; [|constructor]]; exists 0%Z; ring.
    + exists (sym_pair (PI / 3) (PI / 4)). split; [apply Permutation_refl|]. constructor; [|constructor; [|constructor]]; exists 0%Z; field.
  - rewrite rao_pairs; auto; [|rewrite cos_0; lra|rewrite cos_PI3; lra].
    rewrite S4, tan_0, tan_PI3, cos_0, cos_PI3. f_equal.
    replace ((0 - sqrt 3) ^ 2) with (sqrt 3 * sqrt 3) by ring. rewrite Q3. field.
  - rewrite rao_pairs; auto; [|rewrite cos_neg, cos_PI6; lra|rewrite cos_PI6; lra].
    rewrite S4, tan_neg, cos_neg, tan_PI6, cos_PI6. f_equal.
    replace ((- (1 / sqrt 3) - 1 / sqrt 3) ^ 2) with (4 / (sqrt 3 * sqrt 3)) by (field; lra).
    replace ((sqrt 3 / 2) ^ 4) with ((sqrt 3 * sqrt 3) * (sqrt 3 * sqrt 3) / 16) by field. rewrite Q3. field.
Qed.
