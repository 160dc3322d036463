From Verif Require Import Prelude NpModel NpProofs CircleSpec UtilsModel UtilsProofs DescModel DescProofs
  DescSpec DescApi DescApi2 Desc2Model Desc5Proofs ArcProofs HypProofs Hyp2Proofs HypGofSpec HypGofProofs
  HypMultiModel HypMultiSpec.

(** * The vector sum of a list of angles *)
Lemma resultant_Rlen g : resultant g = Rlen (smp g None).
Proof. unfold resultant, Rlen. rewrite Csum_none, Ssum_none. f_equal. ring. Qed.
Lemma resultant_nonneg g : 0 <= resultant g.
Proof. apply sqrt_pos. Qed.
Lemma resultant_sqr g : resultant g ^ 2 = Rsum (map cos g) ^ 2 + Rsum (map sin g) ^ 2.
Proof. unfold resultant. apply pow2_sqrt. nra. Qed.
Lemma resultant_le g : resultant g <= INR (length g).
Proof.
  rewrite resultant_Rlen, <- wtotal_none. apply Rlen_le_total. intros [a x] H. simpl.
  unfold smp in H. apply in_combine_r in H. simpl in H. unfold ones in H.
  apply in_map_iff in H. destruct H as (? & <- & _). lra.
Qed.
Lemma circ_r_resultant g : g <> [] -> circ_r g None * INR (length g) = resultant g.
Proof.
  intros H. unfold circ_r. fold (smp g None). rewrite circ_r_s_eq by (apply smp_pos, valid_none, H).
  rewrite resultant_Rlen, wtotal_none. field.
  apply not_0_INR. destruct g; [congruence|discriminate].
Qed.
Lemma resultant_full g : g <> [] -> (resultant g = INR (length g) <-> one_direction g).
Proof.
  intros H. assert (L : 0 < INR (length g)) by (apply lt_0_INR; destruct g; [congruence|simpl; lia]).
  rewrite <- circ_r_resultant by exact H.
  assert (E : circ_r g None * INR (length g) = INR (length g) <-> circ_r g None = 1) by (split; intros; nra).
  rewrite E, (circ_r_one g None (valid_none g H)). unfold one_direction.
  assert (O : forall a, observed g None a <-> In a g).
  { intros a. unfold observed. simpl. split.
    - intros (x & Hx & _). eapply in_combine_l; eauto.
    - intros Ha. exists 1. split; [|lra]. clear -Ha. induction g as [|b g IH]; [easy|].
      simpl in *. destruct Ha as [->|Ha]; auto. }
  split; intros K a b Ha Hb; apply K; apply O; auto.
Qed.

(** * Triangle inequality *)
Lemma resultant_polar g : exists t, Rsum (map cos g) = resultant g * cos t /\
  Rsum (map sin g) = resultant g * sin t.
Proof.
  rewrite resultant_Rlen. pose proof (Rlen_polar (smp g None)) as P.
  rewrite Csum_none, Ssum_none in P. eexists; exact P.
Qed.
Lemma Rsum_map_concat {A} (f : A -> R) l : Rsum (map f (concat l)) = Rsum (map (fun g => Rsum (map f g)) l).
Proof. induction l as [|g l IH]; simpl; auto. rewrite map_app, Rsum_app, IH. reflexivity. Qed.
(** Projection of the pooled sum on a direction. *)
Lemma pooled_proj l t :
  Rsum (map cos (concat l)) * cos t + Rsum (map sin (concat l)) * sin t
  = Rsum (map (fun g => Rsum (map cos g) * cos t + Rsum (map sin g) * sin t) l).
Proof.
  rewrite !Rsum_map_concat. induction l as [|g l IH]; simpl; [ring|]. rewrite <- IH. ring.
Qed.
Lemma proj_le g t : Rsum (map cos g) * cos t + Rsum (map sin g) * sin t <= resultant g.
Proof.
  destruct (resultant_polar g) as (u & -> & ->).
  replace (resultant g * cos u * cos t + resultant g * sin u * sin t) with (resultant g * cos (u - t))
    by (rewrite cos_minus; ring).
  pose proof (resultant_nonneg g). pose proof (COS_bound (u - t)). nra.
Qed.
Lemma proj_full g t : Rsum (map cos g) * cos t + Rsum (map sin g) * sin t = resultant g ->
  Rsum (map cos g) = resultant g * cos t /\ Rsum (map sin g) = resultant g * sin t.
Proof.
  pose proof (resultant_sqr g) as S. intros H.
  assert (T : cos t ^ 2 + sin t ^ 2 = 1) by (pose proof (sin2_cos2 t) as P; unfold Rsqr in P; nra).
  set (C := Rsum (map cos g)) in *. set (D := Rsum (map sin g)) in *. set (r := resultant g) in *.
  assert (Z : (C - r * cos t) ^ 2 + (D - r * sin t) ^ 2 = 0).
  { replace ((C - r * cos t) ^ 2 + (D - r * sin t) ^ 2)
      with (C ^ 2 + D ^ 2 - 2 * r * (C * cos t + D * sin t) + r ^ 2 * (cos t ^ 2 + sin t ^ 2)) by ring.
    rewrite H, T, <- S. ring. }
  assert (0 <= (C - r * cos t) ^ 2) by apply pow2_ge_0. assert (0 <= (D - r * sin t) ^ 2) by apply pow2_ge_0.
  assert (Z1 : (C - r * cos t) ^ 2 = 0) by lra. assert (Z2 : (D - r * sin t) ^ 2 = 0) by lra.
  split; nra.
Qed.
Lemma triangle l : resultant (concat l) <= Rsum (map resultant l).
Proof.
  destruct (resultant_polar (concat l)) as (t & Hc & Hs).
  assert (E : resultant (concat l) = Rsum (map cos (concat l)) * cos t + Rsum (map sin (concat l)) * sin t).
  { rewrite Hc, Hs. replace (resultant (concat l) * cos t * cos t + resultant (concat l) * sin t * sin t)
      with (resultant (concat l) * (Rsqr (sin t) + Rsqr (cos t))) by (unfold Rsqr; ring).
    rewrite sin2_cos2. ring. }
  rewrite E, pooled_proj. apply Rsum_map_le. intros g _. apply proj_le.
Qed.
Lemma triangle_eq l : resultant (concat l) = Rsum (map resultant l) <-> aligned l.
Proof.
  split.
  - intros H. destruct (resultant_polar (concat l)) as (t & Hc & Hs). exists t.
    assert (E : resultant (concat l) = Rsum (map cos (concat l)) * cos t + Rsum (map sin (concat l)) * sin t).
    { rewrite Hc, Hs. replace (resultant (concat l) * cos t * cos t + resultant (concat l) * sin t * sin t)
        with (resultant (concat l) * (Rsqr (sin t) + Rsqr (cos t))) by (unfold Rsqr; ring).
      rewrite sin2_cos2. ring. }
    rewrite E, pooled_proj in H. apply Forall_forall. intros g Hg. apply proj_full.
    assert (Z : Rsum (map (fun g => resultant g - (Rsum (map cos g) * cos t + Rsum (map sin g) * sin t)) l) = 0)
      by (rewrite Rsum_map_minus; lra).
    assert (N : forall g, In g l -> 0 <= resultant g - (Rsum (map cos g) * cos t + Rsum (map sin g) * sin t))
      by (intros x _; pose proof (proj_le x t); lra).
    pose proof (Rsum_map_0 _ l N Z g Hg). simpl in *. lra.
  - intros (t & H). rewrite Forall_forall in H. apply Rle_antisym; [apply triangle|].
    assert (E : Rsum (map resultant l) = Rsum (map cos (concat l)) * cos t + Rsum (map sin (concat l)) * sin t).
    { rewrite pooled_proj. apply Rsum_map_ext. intros g Hg. destruct (H g Hg) as [-> ->].
      replace (resultant g * cos t * cos t + resultant g * sin t * sin t)
        with (resultant g * (Rsqr (sin t) + Rsqr (cos t))) by (unfold Rsqr; ring).
      rewrite sin2_cos2. ring. }
    rewrite E. apply proj_le.
Qed.
Lemma sum_resultants_le l : Rsum (map resultant l) <= INR (length (concat l)).
Proof.
  induction l as [|g l IH]; simpl; [lra|]. rewrite app_length, plus_INR. pose proof (resultant_le g). lra.
Qed.
Lemma sum_resultants_full l : Forall (fun g => g <> []) l ->
  (Rsum (map resultant l) = INR (length (concat l)) <-> Forall one_direction l).
Proof.
  induction l as [|g l IH]; intros H; simpl; [split; auto|].
  inversion H as [|? ? Hg Hl]; subst. rewrite app_length, plus_INR.
  pose proof (resultant_le g). pose proof (sum_resultants_le l). split.
  - intros E. constructor; [apply resultant_full; auto; lra|apply IH; auto; lra].
  - intros E. inversion E; subst. apply resultant_full in H4; auto. apply IH in H5; auto. lra.
Qed.

(** * Turning and reordering *)
Lemma turned_obs_sums t a b : turned_obs t a b ->
  Rsum (map cos b) = Rsum (map cos a) * cos t - Rsum (map sin a) * sin t /\
  Rsum (map sin b) = Rsum (map sin a) * cos t + Rsum (map cos a) * sin t.
Proof.
  intros (l & P & F). rewrite (Rsum_perm _ _ (Permutation_map cos P)), (Rsum_perm _ _ (Permutation_map sin P)).
  clear P. induction F as [|x y l b H F IH]; simpl; [lra|]. destruct IH as [-> ->].
  rewrite (same_dir_cos _ _ H), (same_dir_sin _ _ H), cos_plus, sin_plus. split; ring.
Qed.
Lemma turned_obs_length t a b : turned_obs t a b -> length a = length b.
Proof.
  intros (l & P & F). rewrite (Permutation_length P). clear P. induction F; simpl; congruence.
Qed.
Lemma turned_obs_resultant t a b : turned_obs t a b -> resultant b = resultant a.
Proof.
  intros H. unfold resultant. destruct (turned_obs_sums _ _ _ H) as [-> ->]. f_equal.
  pose proof (sin2_cos2 t) as P. unfold Rsqr in P.
  replace ((Rsum (map cos a) * cos t - Rsum (map sin a) * sin t) ^ 2 +
           (Rsum (map sin a) * cos t + Rsum (map cos a) * sin t) ^ 2)
    with ((Rsum (map cos a) ^ 2 + Rsum (map sin a) ^ 2) * (sin t * sin t + cos t * cos t)) by ring.
  rewrite P. ring.
Qed.
Lemma Forall2_concat_turned t l b : Forall2 (turned_obs t) l b -> turned_obs t (concat l) (concat b).
Proof.
  induction 1 as [|x y l b Q H IH]; [exists []; split; constructor|].
  destruct Q as (m & P & F). destruct IH as (m' & P' & F'). simpl. exists (m ++ m'). split.
  - apply Permutation_app; auto.
  - apply Forall2_app; auto.
Qed.
Lemma concat_perm {A} (a b : list (list A)) : Permutation a b -> Permutation (concat a) (concat b).
Proof.
  induction 1; simpl; auto.
  - apply Permutation_app_head. auto.
  - rewrite !app_assoc. apply Permutation_app_tail, Permutation_app_comm.
  - eapply Permutation_trans; eauto.
Qed.
Lemma turned_groups_concat t a b : turned_groups t a b -> turned_obs t (concat a) (concat b).
Proof.
  intros (l & P & F). destruct (Forall2_concat_turned _ _ _ F) as (m & Pm & Fm).
  exists m. split; auto. apply Permutation_trans with (concat l); auto. apply concat_perm, P.
Qed.
Lemma Forall2_map_eq {A B} (f : A -> B) (rel : A -> A -> Prop) l b :
  (forall x y, rel x y -> f y = f x) -> Forall2 rel l b -> map f b = map f l.
Proof. intros H. induction 1; simpl; auto. f_equal; auto. Qed.
Lemma turned_groups_sum (f : list R -> R) t a b : (forall x y, turned_obs t x y -> f y = f x) ->
  turned_groups t a b -> Rsum (map f b) = Rsum (map f a).
Proof.
  intros H (l & P & F). rewrite (Rsum_perm _ _ (Permutation_map f P)).
  f_equal. apply Forall2_map_eq with (turned_obs t); auto.
Qed.
Lemma turned_groups_length t a b : turned_groups t a b -> length b = length a.
Proof.
  intros (l & P & F). rewrite (Permutation_length P). clear P. induction F; simpl; congruence.
Qed.
Lemma turned_groups_nonempty t a b : turned_groups t a b ->
  Forall (fun g => g <> []) a -> Forall (fun g => g <> []) b.
Proof.
  intros (l & P & F) H. assert (H' : Forall (fun g => g <> []) l).
  { rewrite Forall_forall in *. intros x Hx. apply H. apply Permutation_in with l; auto. now apply Permutation_sym. }
  clear H P. induction F as [|x y l b K F IH]; constructor; inversion H'; subst; auto.
  intros ->. apply turned_obs_length in K. destruct x; auto. discriminate.
Qed.

(** * The samples as the tests see them *)
Lemma spelled_repeat a ns : spelled_out a ns = np_repeat a ns.
Proof. revert ns. induction a as [|x a IH]; intros [|k ns]; simpl; auto. now rewrite IH. Qed.
Lemma spelled_length a ns : length ns = length a -> length (spelled_out a ns) = nsum ns.
Proof.
  revert ns. induction a as [|x a IH]; intros [|k ns] H; simpl in *; try lia.
  rewrite app_length, repeat_length, IH; lia.
Qed.
Lemma Rsum_map_repeat (f : R -> R) x k : Rsum (map f (repeat x k)) = INR k * f x.
Proof. induction k; [simpl; ring|]. rewrite S_INR. simpl. rewrite IHk. ring. Qed.
Lemma spelled_sum f a ns : length ns = length a ->
  Rsum (map f (spelled_out a ns)) = Rsum (map (fun p => snd p * f (fst p)) (combine a (map INR ns))).
Proof.
  revert ns. induction a as [|x a IH]; intros [|k ns] H; simpl in *; try lia; auto.
  rewrite map_app, Rsum_app, Rsum_map_repeat, IH by lia. reflexivity.
Qed.
Lemma INR_nsum ns : INR (nsum ns) = Rsum (map INR ns).
Proof. induction ns as [|k ns IH]; simpl; auto. rewrite plus_INR, IH. reflexivity. Qed.
Lemma tab_circ_r a ns : length ns = length a -> (0 < nsum ns)%nat ->
  INR (nsum ns) * circ_r a (Some (map INR ns)) = resultant (spelled_out a ns).
Proof.
  intros L P. unfold circ_r. simpl weights.
  assert (T : wtotal (combine a (map INR ns)) = INR (nsum ns)).
  { unfold wtotal. rewrite (proj2 (combine_fst_snd a (map INR ns) ltac:(now rewrite map_length))).
    now rewrite INR_nsum. }
  rewrite circ_r_s_eq by (rewrite T; now apply lt_0_INR). rewrite T. unfold resultant, Rlen, Csum, Ssum.
  rewrite !spelled_sum by auto.
  field_simplify; [|apply not_0_INR; lia]. f_equal. ring.
Qed.
Lemma Z_of_nat_rint k : Z.to_nat (rint (INR k)) = k.
Proof. rewrite INR_IZR_INZ, rint_IZR. apply Nat2Z.id. Qed.
Record sees (g : gsample) (obs : list R) (c : csample) : Prop := {
  sees_alpha : cs_alpha c = fst g;
  sees_expand : cs_expand c = obs;
  sees_n : cs_n c = length obs;
  sees_len : length (cs_w c) = length (cs_alpha c);
  sees_ns : nsum (cs_w c) = cs_n c;
  sees_R : cs_R c = resultant obs }.
Lemma coerce_tab g obs : tabulates g obs -> exists c, coerce_one g = Ok c /\ sees g obs c.
Proof.
  destruct g as [a w]. intros (NE & ns & L & E & ->). simpl in *.
  assert (NS : (0 < nsum ns)%nat).
  { rewrite <- (spelled_length a ns L). destruct (spelled_out a ns); [congruence|simpl; lia]. }
  unfold coerce_one. cbn [fst snd]. rewrite weights_eff, E.
  assert (Na : length a <> 0%nat) by (intros Z; destruct a; [|discriminate]; destruct ns; [simpl in NS; lia|discriminate]).
  apply Nat.eqb_neq in Na. rewrite Na, map_length, L, Nat.eqb_refl. cbn [negb].
  assert (X : existsb (fun x => Rltb x 0) (map INR ns) = false).
  { apply existsb_neg. apply Forall_forall. intros x Hx. apply in_map_iff in Hx.
    destruct Hx as (k & <- & _). apply pos_INR. }
  rewrite X.
  assert (Y : forallb (fun x => isclose x (IZR (rint x))) (map INR ns) = true).
  { apply forallb_forall. intros x Hx. apply in_map_iff in Hx. destruct Hx as (k & <- & _).
    rewrite INR_IZR_INZ, rint_IZR. apply isclose_refl. }
  rewrite Y. cbn [negb].
  assert (M : map (fun x => Z.to_nat (rint x)) (map INR ns) = ns).
  { rewrite map_map. etransitivity; [apply map_ext, Z_of_nat_rint|apply map_id]. }
  rewrite M. assert (Nn : Nat.eqb (nsum ns) 0 = false) by (apply Nat.eqb_neq; lia). rewrite Nn.
  eexists. split; [reflexivity|]. constructor; cbn [cs_alpha cs_w cs_n cs_r fst]; auto.
  - unfold cs_expand. cbn. now rewrite spelled_repeat.
  - now rewrite spelled_length.
  - unfold cs_R. cbn. now apply tab_circ_r.
Qed.
Inductive all_see : list gsample -> list (list R) -> list csample -> Prop :=
| see_nil : all_see [] [] []
| see_cons g o c gs os cs : sees g o c -> all_see gs os cs -> all_see (g :: gs) (o :: os) (c :: cs).
Lemma coerce_all_tab gs os : Forall2 tabulates gs os -> exists cs, coerce_all gs = Ok cs /\ all_see gs os cs.
Proof.
  induction 1 as [|g o gs os H F IH]; [exists []; split; [reflexivity|constructor]|].
  destruct IH as (cs & E & A).
  destruct (coerce_tab g o H) as (c & Ec & S). exists (c :: cs). cbn. rewrite Ec. cbn. rewrite E. cbn.
  split; auto. now constructor.
Qed.
Lemma coerce_samples_tab gs os : gs <> [] -> Forall2 tabulates gs os ->
  exists cs, coerce_samples gs = Ok cs /\ all_see gs os cs.
Proof.
  intros N F. destruct (coerce_all_tab gs os F) as (cs & E & A). exists cs. split; auto.
  destruct gs; [congruence|exact E].
Qed.
Lemma all_see_length gs os cs : all_see gs os cs -> length cs = length os /\ length gs = length os.
Proof. induction 1; simpl; lia. Qed.
Lemma all_see_n gs os cs : all_see gs os cs -> nsum (map cs_n cs) = length (concat os).
Proof. induction 1; simpl; auto. rewrite app_length, (sees_n _ _ _ H). lia. Qed.
Lemma all_see_R gs os cs : all_see gs os cs -> map cs_R cs = map resultant os.
Proof. induction 1; simpl; auto. rewrite (sees_R _ _ _ H). congruence. Qed.
Lemma all_see_expand gs os cs : all_see gs os cs -> map cs_expand cs = os.
Proof. induction 1; simpl; auto. rewrite (sees_expand _ _ _ H). congruence. Qed.
Lemma np_repeat_app {A} (a b : list A) v w : length v = length a ->
  np_repeat (a ++ b) (v ++ w) = np_repeat a v ++ np_repeat b w.
Proof.
  revert v. induction a as [|x a IH]; intros [|k v] H; simpl in *; try lia; auto.
  rewrite IH by lia. now rewrite app_assoc.
Qed.
Lemma all_see_pool gs os cs : all_see gs os cs ->
  length (flat_map cs_w cs) = length (flat_map cs_alpha cs) /\
  nsum (flat_map cs_w cs) = length (concat os) /\
  spelled_out (flat_map cs_alpha cs) (flat_map cs_w cs) = concat os.
Proof.
  induction 1 as [|g o c gs os cs H F IH]; simpl; auto. destruct IH as (L & S & E).
  rewrite !app_length, L, (sees_len _ _ _ H). split; auto.
  assert (NA : forall a b, nsum (a ++ b) = (nsum a + nsum b)%nat).
  { induction a as [|x a IH]; intros b; simpl; auto. rewrite IH. lia. }
  split; [rewrite NA, S, (sees_ns _ _ _ H), (sees_n _ _ _ H); auto|].
  rewrite spelled_repeat in *. rewrite np_repeat_app by (apply (sees_len _ _ _ H)).
  rewrite E. f_equal. apply (sees_expand _ _ _ H).
Qed.
Lemma tab_nonempty gs os : Forall2 tabulates gs os -> Forall (fun o => o <> []) os.
Proof. induction 1 as [|? ? ? ? Q]; constructor; auto. apply Q. Qed.
Lemma concat_len_ge (os : list (list R)) : Forall (fun o => o <> []) os -> (length os <= length (concat os))%nat.
Proof.
  induction 1 as [|o os H F IH]; simpl; auto. rewrite app_length. destruct o; [congruence|simpl; lia].
Qed.
(** A plain array stands for itself. *)
Lemma tab_plain obs : obs <> [] -> tabulates (obs, None) obs.
Proof.
  intros H. split; auto. exists (repeat 1%nat (length obs)). cbn [fst snd eff_weights].
  rewrite repeat_length. split; auto. split.
  - induction obs as [|a [|b l] IH]; simpl in *; auto. rewrite IH by congruence. reflexivity.
  - clear H. induction obs as [|a l IH]; simpl; auto. now rewrite <- IH.
Qed.

(** * Watson-Williams *)
Definition ww_K (kappa : R) : R := if Rleb kappa 0 then 1 else 1 + 3 / (8 * kappa).
Definition ww_stat (os : list (list R)) : fl :=
  let N := INR (length (concat os)) in
  let k := INR (length os) in
  let sumR := Rsum (map resultant os) in
  fdiv (np_div (ww_K (kappa0 (sumR / N)) * (N - k) * (sumR - resultant (concat os))) (N - sumR)) (Fin (k - 1)).
Lemma ww_run fsf gs os : Forall2 tabulates gs os -> (2 <= length os)%nat ->
  (length os < length (concat os))%nat ->
  watson_williams_test fsf gs =
  Ok {| ww_F := ww_stat os; ww_pval := fsf (ww_stat os) (length os - 1)%nat (length (concat os) - length os)%nat;
        ww_dfb := (length os - 1)%nat; ww_dfw := (length (concat os) - length os)%nat;
        ww_k := length os; ww_N := length (concat os) |}.
Proof.
  intros T L2 LN.
  assert (NE : gs <> []) by (intros ->; inversion T; subst; simpl in L2; lia).
  destruct (coerce_samples_tab gs os NE T) as (cs & E & A).
  unfold watson_williams_test. rewrite E. cbn [bind].
  destruct (all_see_length _ _ _ A) as [Lc _]. rewrite Lc, (all_see_n _ _ _ A), (all_see_R _ _ _ A).
  destruct (Nat.ltb_spec (length os) 2); [lia|]. destruct (Nat.leb_spec (length (concat os)) (length os)); [lia|].
  rewrite circ_kappa_none. cbn [bind].
  destruct (all_see_pool _ _ _ A) as (P1 & P2 & P3).
  assert (RR : INR (length (concat os)) * circ_r (flat_map cs_alpha cs) (Some (map INR (flat_map cs_w cs)))
               = resultant (concat os)).
  { rewrite <- P2, tab_circ_r by (auto; lia). now rewrite P3. }
  rewrite RR. reflexivity.
Qed.

Lemma kappa0_nonneg r : 0 <= r <= 1 -> 0 <= kappa0 r.
Proof.
  intros H. destruct (Rlt_dec r 1) as [L|L].
  - destruct (Rlt_dec r (85/100)).
    + apply (kappa_monotone_parts r r); lra.
    + apply (kappa_monotone_parts r r); lra.
  - replace r with 1 by lra. unfold kappa0. destruct (Rltb_spec 1 (53/100)); [lra|].
    destruct (Rltb_spec 1 (85/100)); [lra|]. destruct (Reqb_spec (1 ^ 3 - 4 * 1 ^ 2 + 3 * 1) 0); lra.
Qed.
Lemma kappa0_pos r : 0 < r <= 1 -> 0 < kappa0 r.
Proof.
  intros H. unfold kappa0. destruct (Rltb_spec r (53/100)).
  - assert (0 < r ^ 3) by (apply pow_lt; lra). assert (0 < r ^ 5) by (apply pow_lt; lra). lra.
  - destruct (Rltb_spec r (85/100)).
    + assert (0 < 43/100 / (1 - r)) by (apply Rdiv_lt_0_compat; lra). lra.
    + assert (E : r ^ 3 - 4 * r ^ 2 + 3 * r = r * (1 - r) * (3 - r)) by ring. rewrite E.
      destruct (Reqb_spec (r * (1 - r) * (3 - r)) 0); [lra|].
      apply Rdiv_lt_0_compat; [lra|].
      assert (0 <= r * (1 - r) * (3 - r)) by (repeat apply Rmult_le_pos; lra). lra.
Qed.
Lemma ww_K_ge kappa : 1 <= ww_K kappa.
Proof.
  unfold ww_K. destruct (Rleb_spec kappa 0); [lra|].
  assert (0 < 3 / (8 * kappa)) by (apply Rdiv_lt_0_compat; lra). lra.
Qed.
Lemma Rdiv_ge0 a b : 0 <= a -> 0 < b -> 0 <= a / b.
Proof. intros. apply Rmult_le_pos; auto. left. now apply Rinv_0_lt_compat. Qed.
Lemma pool_r_range os : (0 < length (concat os))%nat ->
  0 <= Rsum (map resultant os) / INR (length (concat os)) <= 1.
Proof.
  intros H. apply lt_0_INR in H. pose proof (sum_resultants_le os).
  assert (0 <= Rsum (map resultant os)) by (apply Rsum_map_nonneg; intros; apply resultant_nonneg).
  split; [apply Rdiv_ge0; lra|]. apply Rmult_le_reg_r with (INR (length (concat os))); [lra|].
  unfold Rdiv. rewrite Rmult_assoc, Rinv_l by lra. lra.
Qed.
Lemma ww_spec fsf gs os : Forall2 tabulates gs os -> (2 <= length os)%nat ->
  (length os < length (concat os))%nat ->
  exists t, watson_williams_test fsf gs = Ok t /\
    ww_k t = length os /\ ww_N t = length (concat os) /\
    ww_dfb t = (length os - 1)%nat /\ ww_dfw t = (length (concat os) - length os)%nat /\
    ww_pval t = fsf (ww_F t) (ww_dfb t) (ww_dfw t) /\
    resultant (concat os) <= Rsum (map resultant os) <= INR (length (concat os)) /\
    (Forall one_direction os -> (aligned os -> ww_F t = NaN) /\ (~ aligned os -> ww_F t = PInf)) /\
    (~ Forall one_direction os -> exists kappa F,
       circ_kappa (Rsum (map resultant os) / INR (length (concat os))) None = Ok kappa /\
       ww_F t = Fin F /\
       (0 < kappa -> F = (1 + 3 / (8 * kappa)) *
          ((Rsum (map resultant os) - resultant (concat os)) / (INR (length os) - 1)) /
          ((INR (length (concat os)) - Rsum (map resultant os)) / (INR (length (concat os)) - INR (length os)))) /\
       0 <= F /\ (F = 0 <-> aligned os)).
Proof.
  intros T L2 LN. rewrite (ww_run fsf gs os T L2 LN). eexists. split; [reflexivity|]. cbn.
  pose proof (triangle os) as TR. pose proof (sum_resultants_le os) as SL.
  pose proof (sum_resultants_full os (tab_nonempty _ _ T)) as SF. pose proof (triangle_eq os) as TE.
  repeat (split; [reflexivity|]). split; [lra|].
  set (N := INR (length (concat os))) in *. set (k := INR (length os)) in *.
  set (S := Rsum (map resultant os)) in *. set (RR := resultant (concat os)) in *.
  assert (Hk : 2 <= k) by (apply le_INR in L2; simpl in L2; unfold k; lra).
  assert (HN : k < N) by (apply lt_INR; auto).
  unfold ww_stat. fold N k S RR. pose proof (ww_K_ge (kappa0 (S / N))) as HK.
  set (K := ww_K (kappa0 (S / N))) in *. split.
  - intros H. apply SF in H. unfold np_div.
    destruct (Reqb_spec (N - S) 0); [|lra]. unfold finf. split; intros HA.
    + assert (RR = S) by (apply TE, HA).
      replace (K * (N - k) * (S - RR)) with 0 by (replace (S - RR) with 0 by lra; ring).
      destruct (Rltb_spec 0 0); [lra|]. destruct (Rltb_spec 0 0); [lra|]. reflexivity.
    + assert (S <> RR) by (intros Q; apply HA, TE; auto).
      assert (0 < K * (N - k) * (S - RR)) by (repeat apply Rmult_lt_0_compat; lra).
      destruct (Rltb_spec 0 (K * (N - k) * (S - RR))); [|lra]. cbn.
      destruct (Rltb_spec (k - 1) 0); [lra|]. reflexivity.
  - intros H. assert (S <> N) by (intros Q; apply H, SF; auto).
    exists (kappa0 (S / N)). eexists. split; [apply circ_kappa_none|].
    unfold np_div. destruct (Reqb_spec (N - S) 0); [exfalso; lra|]. cbn. unfold np_div.
    destruct (Reqb_spec (k - 1) 0); [exfalso; lra|]. split; [reflexivity|].
    assert (E : K * (N - k) * (S - RR) / (N - S) / (k - 1) = K * ((S - RR) / (k - 1)) / ((N - S) / (N - k))).
    { field. repeat split; lra. }
    rewrite E. assert (P : 0 < K / ((N - S) / (N - k) * (k - 1))).
    { apply Rdiv_lt_0_compat; [lra|]. apply Rmult_lt_0_compat; [apply Rdiv_lt_0_compat|]; lra. }
    assert (E2 : K * ((S - RR) / (k - 1)) / ((N - S) / (N - k)) = K / ((N - S) / (N - k) * (k - 1)) * (S - RR)).
    { field. repeat split; lra. }
    split; [|split].
    + intros Hp. unfold K, ww_K. destruct (Rleb_spec (kappa0 (S / N)) 0); [lra|]. reflexivity.
    + rewrite E2. apply Rmult_le_pos; lra.
    + rewrite E2. split; intros Q.
      * apply Rmult_integral in Q. apply TE. destruct Q; lra.
      * apply TE in Q. replace (S - RR) with 0 by lra. ring.
Qed.
Lemma ww_errors fsf gs os : Forall2 tabulates gs os ->
  (length os < 2)%nat \/ (length (concat os) <= length os)%nat -> watson_williams_test fsf gs = Err ValueError.
Proof.
  intros T H. destruct gs as [|g gs]; [reflexivity|].
  destruct (coerce_samples_tab (g :: gs) os ltac:(discriminate) T) as (cs & E & A).
  unfold watson_williams_test. rewrite E. cbn [bind].
  destruct (all_see_length _ _ _ A) as [Lc _]. rewrite Lc, (all_see_n _ _ _ A).
  destruct (Nat.ltb_spec (length os) 2); auto. destruct (Nat.leb_spec (length (concat os)) (length os)); auto. lia.
Qed.
Lemma ww_invariant fsf gs gs' os os' t : Forall2 tabulates gs os -> Forall2 tabulates gs' os' ->
  turned_groups t os os' -> watson_williams_test fsf gs' = watson_williams_test fsf gs.
Proof.
  intros T T' G. pose proof (turned_groups_length _ _ _ G) as L.
  pose proof (turned_groups_concat _ _ _ G) as C. pose proof (turned_obs_length _ _ _ C) as LC.
  destruct (le_lt_dec 2 (length os)) as [A|A]; [destruct (le_lt_dec (length (concat os)) (length os)) as [B|B]|].
  - rewrite (ww_errors fsf gs os T), (ww_errors fsf gs' os' T') by (right; lia). reflexivity.
  - rewrite (ww_run fsf gs os T A B), (ww_run fsf gs' os' T') by lia.
    assert (S : ww_stat os' = ww_stat os).
    { unfold ww_stat. rewrite L, <- LC, (turned_obs_resultant _ _ _ C).
      rewrite (turned_groups_sum resultant t os os'); auto. intros. eapply turned_obs_resultant; eauto. }
    rewrite S, L, LC. reflexivity.
  - rewrite (ww_errors fsf gs os T), (ww_errors fsf gs' os' T') by (left; lia). reflexivity.
Qed.

(** * circ_anova *)
Lemma anova_R groups : Forall (fun g => g <> []) groups ->
  map (fun g => circ_r g None * INR (length g)) groups = map resultant groups.
Proof. induction 1; simpl; auto. rewrite circ_r_resultant by auto. congruence. Qed.
Lemma concat_nonempty (groups : list (list R)) : (0 < length groups)%nat ->
  Forall (fun g => g <> []) groups -> concat groups <> [].
Proof. intros H F E. apply concat_len_ge in F. rewrite E in F. simpl in F. lia. Qed.
(** The correction factor is finite and positive. *)
Lemma anova_F_spec fcdf ccdf groups kappa f_mod : Forall (fun g => g <> []) groups -> (2 <= length groups)%nat ->
  kappa_usable groups kappa f_mod ->
  exists t kap, circ_anova fcdf ccdf groups "F-test" kappa f_mod = Ok t /\
    an_R t = map resultant groups /\ an_R_all t = resultant (concat groups) /\
    match kappa with Some x => kap = x
    | None => circ_kappa (resultant (concat groups) / INR (length (concat groups))) None = Ok kap end /\
    an_kappa t = kap /\
    (exists b w, an_SS t = Some (b, w, b + w)%R /\
       b = Rsum (map resultant groups) - resultant (concat groups) /\
       w = INR (length (concat groups)) - Rsum (map resultant groups) /\
       0 <= b /\ 0 <= w /\ (b = 0 <-> aligned groups) /\ (w = 0 <-> Forall one_direction groups)) /\
    (exists d1 d2, an_df t = DfF d1 d2 (d1 + d2) /\ d1 = (Z.of_nat (length groups) - 1)%Z /\
       d2 = (Z.of_nat (length (concat groups)) - Z.of_nat (length groups))%Z /\
       an_pval t = one_minus (fcdf (an_stat t) d1 d2)) /\
    ((length groups < length (concat groups))%nat -> ~ Forall one_direction groups ->
       exists F, an_stat t = Fin F /\
         F = F_value (if f_mod then 1 + 3 / (8 * kap) else 1) groups /\
         0 <= F /\ (F = 0 <-> aligned groups)).
Proof.
  intros NE L2 KU. pose proof (triangle groups) as TR. pose proof (sum_resultants_le groups) as SL.
  pose proof (sum_resultants_full groups NE) as SF. pose proof (triangle_eq groups) as TE.
  pose proof (concat_nonempty groups ltac:(lia) NE) as NC.
  unfold circ_anova. destruct (Nat.ltb_spec (length groups) 2); [lia|].
  rewrite anova_R by auto. rewrite circ_r_resultant by auto.
  set (N := INR (length (concat groups))) in *. set (k := INR (length groups)) in *.
  set (S := Rsum (map resultant groups)) in *. set (RR := resultant (concat groups)) in *.
  assert (HN0 : 0 < N) by (apply lt_0_INR; destruct (concat groups); [congruence|simpl; lia]).
  assert (HR : 0 <= RR) by apply resultant_nonneg.
  assert (Hk : 2 <= k) by (apply le_INR in L2; simpl in L2; unfold k; lra).
  assert (KK : exists kap, match kappa with Some x => Ok x | None => circ_kappa (RR / N) None end = Ok kap /\
             (f_mod = true -> 0 < kap) /\
             match kappa with Some x => kap = x | None => circ_kappa (RR / N) None = Ok kap end).
  { destruct kappa as [x|].
    - exists x. split; auto. split; auto. intros ->. destruct KU; [discriminate|auto].
    - exists (kappa0 (RR / N)). rewrite circ_kappa_none. split; auto. split; auto.
      intros ->. destruct KU as [KU|KU]; [discriminate|]. apply kappa0_pos. fold RR in KU.
      split; [apply Rdiv_lt_0_compat; auto|].
      apply Rmult_le_reg_r with N; [lra|]. unfold Rdiv. rewrite Rmult_assoc, Rinv_l by lra. lra. }
  destruct KK as (kap & E1 & Hkap & E2). rewrite E1. cbn [bind]. cbn [String.eqb Ascii.eqb Bool.eqb].
  set (corr := if f_mod then 1 + 3 / (8 * kap) else 1).
  assert (HC : 0 < corr).
  { unfold corr. destruct f_mod; [|lra]. specialize (Hkap eq_refl).
    assert (0 < 3 / (8 * kap)) by (apply Rdiv_lt_0_compat; lra). lra. }
  assert (Z1 : IZR (Z.of_nat (length groups) - 1) = k - 1) by (rewrite minus_IZR, <- INR_IZR_INZ; auto).
  assert (Z2 : IZR (Z.of_nat (length (concat groups)) - Z.of_nat (length groups)) = N - k)
    by (rewrite minus_IZR, <- !INR_IZR_INZ; auto).
  rewrite Z1, Z2.
  set (MS := fdiv (np_div (S - RR) (k - 1)) (np_div (N - S) (N - k))).
  assert (EF : (if f_mod then do corr0 <- (if Reqb kap 0 then match kappa with Some _ => Err ZeroDivisionError
                | None => Ok PInf end else Ok (Fin (1 + 3 / (8 * kap)))); Ok (fmul corr0 MS) else Ok MS)
               = Ok (if f_mod then fmul (Fin corr) MS else MS)).
  { unfold corr. destruct f_mod; auto. specialize (Hkap eq_refl). destruct (Reqb_spec kap 0); [lra|]. reflexivity. }
  rewrite EF. cbn [bind]. eexists. exists kap. split; [reflexivity|]. cbn.
  split; [reflexivity|]. split; [reflexivity|]. split; [exact E2|]. split; [reflexivity|]. split; [|split].
  - exists (S - RR), (N - S). repeat split; try lra.
    + f_equal. f_equal. ring.
    + intros Q. apply TE. lra.
    + intros Q. apply TE in Q. lra.
    + intros Q. apply SF. lra.
    + intros Q. apply SF in Q. lra.
  - eexists _, _. repeat split. f_equal. lia.
  - intros LN ND. assert (HN : k < N) by (apply lt_INR; auto).
    assert (S <> N) by (intros Q; apply ND, SF; auto).
    assert (EM : MS = Fin ((S - RR) / (k - 1) / ((N - S) / (N - k)))).
    { unfold MS, np_div. destruct (Reqb_spec (k - 1) 0); [lra|]. destruct (Reqb_spec (N - k) 0); [lra|].
      cbn. unfold np_div. destruct (Reqb_spec ((N - S) / (N - k)) 0) as [Q|Q]; auto.
      assert (0 < (N - S) / (N - k)) by (apply Rdiv_lt_0_compat; lra). lra. }
    exists (F_value corr groups). unfold F_value. fold N k S RR. split; [|split; [reflexivity|]].
    + rewrite EM. unfold corr. destruct f_mod; cbn; f_equal; field; repeat split; lra.
    + assert (P : 0 < corr / ((N - S) / (N - k) * (k - 1))).
      { apply Rdiv_lt_0_compat; [lra|]. apply Rmult_lt_0_compat; [apply Rdiv_lt_0_compat|]; lra. }
      replace (corr * ((S - RR) / (k - 1)) / ((N - S) / (N - k)))
        with (corr / ((N - S) / (N - k) * (k - 1)) * (S - RR)) by (field; repeat split; lra).
      split; [apply Rmult_le_pos; lra|]. split; intros Q.
      * apply Rmult_integral in Q. apply TE. destruct Q; lra.
      * apply TE in Q. replace (S - RR) with 0 by lra. ring.
Qed.
