From Verif Require Import Prelude NpModel NpProofs CircleSpec UtilsModel UtilsProofs DescModel DescProofs
  DescSpec DescApi DescApi2 Desc2Model Desc2Proofs Desc5Proofs Desc6Proofs ArcProofs HypProofs Hyp2Proofs HypGofSpec HypGofModel HypGofProofs
  HypGof3Proofs HypMultiModel HypMulti2Model HypMultiSpec HypMultiProofs HypMulti2Proofs HypMulti6Proofs.

(** * np.argmax *)
Definition first_min (l : list R) (b : nat) : Prop :=
  (b < length l)%nat /\ (forall j, (j < length l)%nat -> nth b l 0 <= nth j l 0) /\
  (forall j, (j < b)%nat -> nth b l 0 < nth j l 0).
Lemma argmin_from_spec l : forall pre best, first_min pre best ->
  first_min (pre ++ l) (argmin_from (length pre) best (nth best pre 0) l).
Proof.
  induction l as [|x l IH]; intros pre best (H1 & H2 & H3); cbn [argmin_from].
  - rewrite app_nil_r. repeat split; auto.
  - assert (P : nth (length pre) (pre ++ [x]) 0 = x) by (rewrite app_nth2, Nat.sub_diag; auto).
    assert (L : length (pre ++ [x]) = S (length pre)) by (rewrite app_length; simpl; lia).
    assert (Q : forall j, (j < length pre)%nat -> nth j (pre ++ [x]) 0 = nth j pre 0) by (intros; now apply app_nth1).
    destruct (Rltb_spec x (nth best pre 0)) as [B|B].
    + specialize (IH (pre ++ [x]) (length pre)). rewrite L, P, <- app_assoc in IH. apply IH.
      split; [lia|]. rewrite P. split.
      * intros j Hj. destruct (Nat.eq_dec j (length pre)) as [->|]; [rewrite P; lra|].
        rewrite Q by lia. specialize (H2 j ltac:(lia)). lra.
      * intros j Hj. rewrite Q by lia. specialize (H2 j ltac:(lia)). lra.
    + specialize (IH (pre ++ [x]) best). rewrite L, (Q best H1), <- app_assoc in IH. apply IH.
      split; [lia|]. rewrite (Q best H1). split.
      * intros j Hj. destruct (Nat.eq_dec j (length pre)) as [->|]; [rewrite P; lra|].
        rewrite Q by lia. apply H2. lia.
      * intros j Hj. rewrite Q by lia. now apply H3.
Qed.
Lemma argmin_spec l : l <> [] -> first_min l (argmin l).
Proof.
  destruct l as [|x l]; [congruence|]. intros _. cbn [argmin].
  apply (argmin_from_spec l [x] 0%nat). split; [simpl; lia|]. split.
  - intros j Hj. simpl in Hj. replace j with 0%nat by lia. lra.
  - lia.
Qed.
Lemma argmax_spec l : l <> [] ->
  (argmax l < length l)%nat /\ nth (argmax l) l 0 = np_max l /\
  (forall j, (j < argmax l)%nat -> nth j l 0 < np_max l).
Proof.
  intros N. unfold argmax. destruct (argmin_spec (map Ropp l)) as (H1 & H2 & H3).
  { intros E. apply map_eq_nil in E. contradiction. }
  rewrite map_length in *. set (b := argmin (map Ropp l)) in *.
  assert (M : forall j, nth j (map Ropp l) 0 = - nth j l 0).
  { intros j. rewrite <- (map_nth Ropp). now rewrite Ropp_0. }
  assert (E : nth b l 0 = np_max l).
  { symmetry. apply np_max_unique; [now apply nth_In|]. intros x Hx. destruct (In_nth _ _ 0 Hx) as (j & Hj & <-).
    specialize (H2 j Hj). rewrite !M in H2. lra. }
  split; auto. split; auto. intros j Hj. specialize (H3 j Hj). rewrite !M in H3. lra.
Qed.

Lemma le_divr a b c : 0 < c -> a * c <= b -> a <= b / c.
Proof. intros H L. apply (Rmult_le_reg_r c); auto. replace (b / c * c) with b by (field; lra). exact L. Qed.
Lemma le_divl a b c : 0 < c -> a <= b * c -> a / c <= b.
Proof. intros H L. apply (Rmult_le_reg_r c); auto. replace (a / c * c) with a by (field; lra). exact L. Qed.

(** * Change point *)
Lemma est_rho_resultant s : est_rho s = resultant s / INR (length s).
Proof. unfold est_rho, hypot, resultant. f_equal. f_equal. ring. Qed.
Lemma est_rho_scaled s : s <> [] -> est_rho s * INR (length s) = resultant s.
Proof.
  intros H. rewrite est_rho_resultant. field. apply not_0_INR. destruct s; [congruence|discriminate].
Qed.
Lemma firstn_skipn_len (alpha : list R) k : (1 <= k <= length alpha - 1)%nat ->
  length (firstn k alpha) = k /\ length (skipn k alpha) = (length alpha - k)%nat /\
  firstn k alpha <> [] /\ skipn k alpha <> [] /\ alpha <> [].
Proof.
  intros H. assert (A : length (firstn k alpha) = k) by (rewrite firstn_length; lia).
  assert (B : length (skipn k alpha) = (length alpha - k)%nat) by apply skipn_length.
  repeat split; auto; intros E; [rewrite E in A|rewrite E in B|subst alpha]; simpl in *; lia.
Qed.
Lemma cp_R_gain alpha k : (1 <= k <= length alpha - 1)%nat -> cp_R alpha k = split_gain alpha k.
Proof.
  intros H. destruct (firstn_skipn_len alpha k H) as (A & B & C & D & E).
  unfold cp_R, split_gain. rewrite <- (est_rho_scaled (firstn k alpha)), <- (est_rho_scaled (skipn k alpha)), <- (est_rho_scaled alpha) by auto.
  rewrite A, B. reflexivity.
Qed.
Lemma gain_nonneg alpha k : 0 <= split_gain alpha k.
Proof.
  unfold split_gain. pose proof (triangle [firstn k alpha; skipn k alpha]) as T. cbn [concat map] in T.
  rewrite app_nil_r, firstn_skipn, !Rsum_cons, Rsum_nil in T. lra.
Qed.
Lemma resultant_app_ge a b : resultant a - INR (length b) <= resultant (a ++ b) /\ resultant b - INR (length a) <= resultant (a ++ b).
Proof.
  assert (G : forall u v, resultant u - INR (length v) <= resultant (u ++ v)).
  { intros u v. destruct (resultant_polar u) as (t & Hc & Hs).
    assert (Pv : forall w, Rsum (map cos w) * cos t + Rsum (map sin w) * sin t <= resultant w /\
                           - resultant w <= Rsum (map cos w) * cos t + Rsum (map sin w) * sin t).
    { intros w. destruct (resultant_polar w) as (r & Wc & Ws). rewrite Wc, Ws.
      replace (resultant w * cos r * cos t + resultant w * sin r * sin t) with (resultant w * cos (r - t)) by (rewrite cos_minus; ring).
      pose proof (COS_bound (r - t)). pose proof (resultant_nonneg w). split; nra. }
    destruct (Pv (u ++ v)) as [P1 _]. destruct (Pv v) as [_ P2]. rewrite !map_app, !Rsum_app in P1. rewrite Hc, Hs in P1.
    pose proof (resultant_le v). pose proof (sin2_cos2 t) as SC. unfold Rsqr in SC.
    replace ((resultant u * cos t + Rsum (map cos v)) * cos t + (resultant u * sin t + Rsum (map sin v)) * sin t)
      with (resultant u * (sin t * sin t + cos t * cos t) + (Rsum (map cos v) * cos t + Rsum (map sin v) * sin t)) in P1 by ring.
    rewrite SC in P1. lra. }
  split; [apply G|].
  assert (E : resultant (a ++ b) = resultant (b ++ a)).
  { unfold resultant. rewrite !map_app, !Rsum_app. f_equal. ring. }
  rewrite E. apply G.
Qed.
Lemma gain_le alpha k : (k <= length alpha)%nat ->
  split_gain alpha k <= 2 * INR k /\ split_gain alpha k <= 2 * INR (length alpha - k).
Proof.
  intros H. unfold split_gain.
  assert (A : length (firstn k alpha) = k) by (rewrite firstn_length; lia).
  assert (B : length (skipn k alpha) = (length alpha - k)%nat) by apply skipn_length.
  destruct (resultant_app_ge (firstn k alpha) (skipn k alpha)) as [G1 G2]. rewrite firstn_skipn in *.
  pose proof (resultant_le (firstn k alpha)). pose proof (resultant_le (skipn k alpha)).
  rewrite A in *. rewrite B in *. lra.
Qed.
Lemma nth_Rdiff alpha j : (4 <= length alpha)%nat -> (j < length alpha)%nat ->
  nth j (map (cp_R alpha) (seq 1 (length alpha - 1)) ++ [est_rho alpha * INR (length alpha) + 0 - est_rho alpha * INR (length alpha)]) 0 =
  if Nat.eq_dec j (length alpha - 1) then 0 else split_gain alpha (S j).
Proof.
  intros L H. destruct (Nat.eq_dec j (length alpha - 1)) as [->|N].
  - rewrite app_nth2 by (rewrite map_length, seq_length; lia). rewrite map_length, seq_length, Nat.sub_diag. cbn. ring.
  - rewrite app_nth1 by (rewrite map_length, seq_length; lia).
    rewrite (nth_indep _ 0 (cp_R alpha 0)) by (rewrite map_length, seq_length; lia).
    rewrite map_nth, seq_nth by lia. rewrite cp_R_gain by lia. f_equal.
Qed.
Lemma mean_bounds l m M : l <> [] -> (forall x, In x l -> m <= x <= M) -> m <= mean l <= M.
Proof.
  intros N H. unfold mean.
  assert (L : 0 < INR (length l)) by (apply lt_0_INR; destruct l; [congruence|simpl; lia]).
  assert (B : m * INR (length l) <= Rsum l <= M * INR (length l)).
  { clear N L. induction l as [|a l IH]; [rewrite Rsum_nil; simpl; lra|].
    specialize (IH ltac:(intros; apply H; now right)). specialize (H a ltac:(now left)). cbn [length].
    rewrite Rsum_cons, S_INR. lra. }
  split; [apply le_divr|apply le_divl]; lra.
Qed.
Lemma change_R logI0 alpha : (4 <= length alpha)%nat ->
  exists t, change_point_test logI0 alpha = Ok t /\ cp_n t = length alpha /\ cp_rho t = mean_length alpha /\
    (S (cp_kr t) <= length alpha - 1)%nat /\ cp_rmax t = split_gain alpha (S (cp_kr t)) /\
    (forall k, (1 <= k <= length alpha - 1)%nat -> split_gain alpha k <= cp_rmax t) /\
    (forall k, (1 <= k <= cp_kr t)%nat -> split_gain alpha k < cp_rmax t) /\
    0 <= cp_rave t <= cp_rmax t.
Proof.
  intros L. unfold change_point_test. destruct (Nat.ltb_spec (length alpha) 4) as [|_]; [lia|].
  eexists. split; [reflexivity|]. cbn [cp_n cp_rho cp_kr cp_rmax cp_rave].
  set (D := map (cp_R alpha) (seq 1 (length alpha - 1)) ++ _).
  assert (ND : D <> []) by (unfold D; intros E; apply app_eq_nil in E; destruct E; discriminate).
  assert (LD : length D = length alpha) by (unfold D; rewrite app_length, map_length, seq_length; simpl; lia).
  destruct (argmax_spec D ND) as (A1 & A2 & A3). rewrite LD in A1.
  destruct (np_max_in D ND) as [_ MX].
  assert (V : forall j, (j < length alpha)%nat -> nth j D 0 = if Nat.eq_dec j (length alpha - 1) then 0 else split_gain alpha (S j))
    by (intros; unfold D; now apply nth_Rdiff).
  assert (V0 : nth 0 D 0 = split_gain alpha 1).
  { rewrite V by lia. destruct (Nat.eq_dec 0 (length alpha - 1)); [lia|reflexivity]. }
  assert (NL : argmax D <> (length alpha - 1)%nat).
  { intros E. pose proof (A3 0%nat ltac:(lia)) as X. rewrite V0, <- A2, (V (argmax D)) in X by lia.
    destruct (Nat.eq_dec (argmax D) (length alpha - 1)); [|lia]. pose proof (gain_nonneg alpha 1). lra. }
  split; auto. split; [rewrite est_rho_resultant; reflexivity|]. split; [lia|].
  split; [|split; [|split]].
  - rewrite <- A2, V by lia. destruct (Nat.eq_dec (argmax D) (length alpha - 1)); [lia|reflexivity].
  - intros k Hk. replace (split_gain alpha k) with (nth (k - 1) D 0).
    + apply MX, nth_In. lia.
    + rewrite V by lia. destruct (Nat.eq_dec (k - 1) (length alpha - 1)); [lia|]. f_equal. lia.
  - intros k Hk. replace (split_gain alpha k) with (nth (k - 1) D 0).
    + apply A3. lia.
    + rewrite V by lia. destruct (Nat.eq_dec (k - 1) (length alpha - 1)); [lia|]. f_equal. lia.
  - apply mean_bounds; auto. intros x Hx. split; [|now apply MX].
    destruct (In_nth _ _ 0 Hx) as (j & Hj & <-). rewrite LD in Hj. rewrite V by auto.
    destruct (Nat.eq_dec j (length alpha - 1)); [lra|apply gain_nonneg].
Qed.
Lemma change_short logI0 alpha : (length alpha < 4)%nat -> change_point_test logI0 alpha = Err ValueError.
Proof. intros H. unfold change_point_test. destruct (Nat.ltb_spec (length alpha) 4); [reflexivity|lia]. Qed.
Lemma Forall2_split {A B} (P : A -> B -> Prop) l l' k : Forall2 P l l' -> Forall2 P (firstn k l) (firstn k l') /\ Forall2 P (skipn k l) (skipn k l').
Proof.
  intros F. revert k. induction F as [|x y l l' H F IH]; intros [|k]; simpl; try (split; constructor; auto; fail).
  destruct (IH k). split; auto.
Qed.
Lemma turned_in_order t a b : Forall2 (fun x y => same_dir y (x + t)) a b -> turned_obs t a b.
Proof. intros F. exists a. split; auto. Qed.
Lemma change_turned logI0 t alpha beta : Forall2 (fun x y => same_dir y (x + t)) alpha beta ->
  change_point_test logI0 beta = change_point_test logI0 alpha.
Proof.
  intros F. pose proof (turned_obs_length _ _ _ (turned_in_order _ _ _ F)) as L.
  assert (E : forall k, est_rho (firstn k beta) = est_rho (firstn k alpha) /\ est_rho (skipn k beta) = est_rho (skipn k alpha)).
  { intros k. destruct (Forall2_split _ _ _ k F) as [F1 F2]. rewrite !est_rho_resultant.
    rewrite <- (turned_obs_length _ _ _ (turned_in_order _ _ _ F1)), <- (turned_obs_length _ _ _ (turned_in_order _ _ _ F2)).
    rewrite (turned_obs_resultant _ _ _ (turned_in_order _ _ _ F1)), (turned_obs_resultant _ _ _ (turned_in_order _ _ _ F2)). auto. }
  assert (E0 : est_rho beta = est_rho alpha).
  { destruct (E 0%nat) as [_ X]. exact X. }
  unfold change_point_test. rewrite <- L, E0.
  rewrite (map_ext (cp_R beta) (cp_R alpha)).
  - rewrite (map_ext (cp_V logI0 beta) (cp_V logI0 alpha)); [reflexivity|].
    intros k. unfold cp_V. destruct (E k) as [-> ->]. now rewrite <- L.
  - intros k. unfold cp_R. destruct (E k) as [-> ->]. now rewrite E0, <- L.
Qed.
(** The likelihood part. *)
Lemma phi_nan logI0 x : 0 <= x <= 1 -> (phi logI0 x = NaN <-> x = 1).
Proof.
  intros H. unfold phi. destruct (Rleb_spec (85/100) x) as [A|A]; cbn [andb].
  - destruct (Reqb_spec (x ^ 3 - 4 * x ^ 2 + 3 * x) 0) as [B|B].
    + split; auto. intros _. replace (x ^ 3 - 4 * x ^ 2 + 3 * x) with (x * ((x - 1) * (x - 3))) in B by ring.
      apply Rmult_integral in B. destruct B as [B|B]; [lra|]. apply Rmult_integral in B. destruct B; lra.
    + split; [discriminate|]. intros ->. exfalso. apply B. ring.
  - split; [discriminate|]. intros ->. lra.
Qed.
Lemma phi_fin logI0 x : phi logI0 x = NaN \/ exists y, phi logI0 x = Fin y.
Proof. unfold phi. destruct (_ && _); eauto. Qed.
Lemma seg_rho s : s <> [] -> 0 <= est_rho s <= 1 /\ (est_rho s = 1 <-> one_direction s).
Proof.
  intros H. assert (L : 0 < INR (length s)) by (apply lt_0_INR; destruct s; [congruence|simpl; lia]).
  rewrite est_rho_resultant. pose proof (resultant_nonneg s). pose proof (resultant_le s). split.
  - split; [apply Rdiv_ge0; auto|apply le_divl; lra].
  - rewrite <- (resultant_full s H). split; intros E.
    + replace (resultant s) with (resultant s / INR (length s) * INR (length s)) by (field; lra). rewrite E. ring.
    + rewrite E. apply Rinv_r. lra.
Qed.
Lemma cp_V_nan logI0 alpha k : (2 <= k <= length alpha - 2)%nat ->
  (cp_V logI0 alpha k = NaN \/ exists v, cp_V logI0 alpha k = Fin v) /\
  (cp_V logI0 alpha k = NaN <-> one_direction (firstn k alpha) \/ one_direction (skipn k alpha)).
Proof.
  intros H. destruct (firstn_skipn_len alpha k ltac:(lia)) as (A & B & C & D & E).
  destruct (seg_rho _ C) as [C1 C2]. destruct (seg_rho _ D) as [D1 D2].
  rewrite <- C2, <- D2. rewrite <- (phi_nan logI0 _ C1), <- (phi_nan logI0 _ D1).
  unfold cp_V.
  replace (est_rho (firstn k alpha) * INR k / INR k) with (est_rho (firstn k alpha)) by (field; apply not_0_INR; lia).
  replace (est_rho (skipn k alpha) * INR (length alpha - k) / INR (length alpha - k)) with (est_rho (skipn k alpha))
    by (field; apply not_0_INR; lia).
  destruct (phi_fin logI0 (est_rho (firstn k alpha))) as [->|(x & ->)];
  destruct (phi_fin logI0 (est_rho (skipn k alpha))) as [->|(y & ->)]; cbn; split; eauto;
  try (split; auto; fail); split; auto; try discriminate; intros [X|X]; discriminate.
Qed.
Lemma first_nan_none l i : first_nan i l = None <-> forall x, In x l -> x <> NaN.
Proof.
  revert i. induction l as [|a l IH]; intros i; cbn [first_nan]; [split; auto; easy|].
  destruct a; cbn [is_nan]; try (rewrite IH; split; [intros H x [<-|Hx]; [discriminate|auto]|intros H x Hx; apply H; now right]).
  split; [discriminate|]. intros H. exfalso. apply (H NaN); [now left|auto].
Qed.
Lemma change_T logI0 alpha t : change_point_test logI0 alpha = Ok t ->
  (cp_tmax t = NaN <-> exists k, (2 <= k <= length alpha - 2)%nat /\
                         (one_direction (firstn k alpha) \/ one_direction (skipn k alpha))) /\
  (forall v, cp_tmax t = Fin v ->
    (2 <= S (cp_kt t) <= length alpha - 2)%nat /\ cp_V logI0 alpha (S (cp_kt t)) = Fin v /\
    (forall k x, (2 <= k <= length alpha - 2)%nat -> cp_V logI0 alpha k = Fin x -> x <= v) /\
    (forall k x, (2 <= k <= cp_kt t)%nat -> cp_V logI0 alpha k = Fin x -> x < v)).
Proof.
  unfold change_point_test. destruct (Nat.ltb_spec (length alpha) 4) as [|L]; [discriminate|]. intros [= <-].
  cbn [cp_tmax cp_kt]. set (V := map (cp_V logI0 alpha) (seq 2 (length alpha - 3))).
  assert (IV : forall x, In x V <-> exists k, (2 <= k <= length alpha - 2)%nat /\ cp_V logI0 alpha k = x).
  { intros x. unfold V. rewrite in_map_iff. split.
    - intros (k & E & Hk). apply in_seq in Hk. exists k. split; [lia|auto].
    - intros (k & Hk & E). exists k. split; auto. apply in_seq. lia. }
  assert (LV : length V = (length alpha - 3)%nat) by (unfold V; now rewrite map_length, seq_length).
  unfold fmax, fargmax. destruct (first_nan 0 V) as [i|] eqn:FN.
  - split; [|discriminate]. split; auto. intros _.
    assert (X : exists x, In x V /\ x = NaN).
    { assert (G : forall l i j, first_nan i l = Some j -> In NaN l).
      { clear. induction l as [|a l IH]; cbn [first_nan]; [discriminate|]. intros i j H.
        destruct a; cbn [is_nan] in H; try (right; eapply IH; exact H). now left. }
      exists NaN. split; auto. eapply G; exact FN. }
    destruct X as (x & Hx & ->). apply IV in Hx. destruct Hx as (k & Hk & E). exists k. split; auto.
    now apply (cp_V_nan logI0 alpha k Hk).
  - rewrite first_nan_none in FN. split.
    + split; [discriminate|]. intros (k & Hk & O). exfalso. apply (FN (cp_V logI0 alpha k)); [apply IV; eauto|].
      now apply (cp_V_nan logI0 alpha k Hk).
    + intros v [= <-].
      assert (NV : map fval V <> []).
      { intros E. apply map_eq_nil in E. rewrite E in LV. simpl in LV. lia. }
      destruct (argmax_spec _ NV) as (A1 & A2 & A3). rewrite map_length, LV in A1.
      destruct (np_max_in _ NV) as [_ MX]. set (b := argmax (map fval V)) in *.
      assert (NT : forall j, (j < length alpha - 3)%nat -> nth j (map fval V) 0 = fval (cp_V logI0 alpha (j + 2)) /\
                     cp_V logI0 alpha (j + 2) = Fin (fval (cp_V logI0 alpha (j + 2)))).
      { intros j Hj. split.
        - change 0 with (fval NaN). rewrite map_nth. f_equal. unfold V.
          rewrite (nth_indep _ NaN (cp_V logI0 alpha 0)) by (rewrite map_length, seq_length; lia).
          rewrite map_nth, seq_nth by lia. f_equal. lia.
        - destruct (cp_V_nan logI0 alpha (j + 2) ltac:(lia)) as [[Z|(x & ->)] _]; [|reflexivity].
          exfalso. apply (FN (cp_V logI0 alpha (j + 2))); auto. apply IV. exists (j + 2)%nat. split; [lia|auto]. }
      replace (S (b + 1)) with (b + 2)%nat by lia. destruct (NT b A1) as [N1 N2].
      split; [lia|]. split; [rewrite N2, <- N1, A2; reflexivity|]. split.
      * intros k x Hk E. destruct (NT (k - 2)%nat ltac:(lia)) as [M1 M2]. replace (k - 2 + 2)%nat with k in * by lia.
        rewrite E in M1. cbn [fval] in M1. rewrite <- M1. apply MX, nth_In. rewrite map_length, LV. lia.
      * intros k x Hk E. destruct (NT (k - 2)%nat ltac:(lia)) as [M1 M2]. replace (k - 2 + 2)%nat with k in * by lia.
        rewrite E in M1. cbn [fval] in M1. rewrite <- M1. apply A3. lia.
Qed.
