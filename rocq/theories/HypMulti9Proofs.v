From Verif Require Import Prelude NpModel NpProofs CircleSpec UtilsModel UtilsProofs DescModel DescProofs
  DescSpec DescApi DescApi2 Desc2Model Desc2Proofs Desc5Proofs Desc6Proofs ArcProofs HypProofs HypSpec Hyp2Proofs HypGofSpec HypGofModel HypGofProofs
  HypGof3Proofs HypMultiModel HypMulti2Model HypMultiSpec HypMultiProofs HypMulti2Proofs HypMulti6Proofs HypMulti7Proofs.

(** * equal_kappa_test *)
Lemma weighted_ss_spec p : p <> [] -> Forall (fun q => 0 < fst q) p ->
  exists v, weighted_ss p = Fin v /\ 0 <= v /\ (v = 0 <-> all_equal (map snd p)).
Proof.
  intros N H. pose proof (wsum_pos p N H) as W. unfold weighted_ss, np_div.
  destruct (Reqb_spec (Rsum (map fst p)) 0) as [Z|_]; [lra|].
  eexists. split; [reflexivity|]. rewrite wss_eq by lra. split; [now apply wss_nonneg|now apply wss_zero].
Qed.
Lemma circ_r_mean g : g <> [] -> circ_r g None = mean_length g.
Proof.
  intros H. unfold mean_length. rewrite <- (circ_r_resultant g H). field. apply not_0_INR. destruct g; [congruence|discriminate].
Qed.
Lemma mean_length_range g : g <> [] -> 0 <= mean_length g <= 1 /\ (mean_length g = 1 <-> one_direction g).
Proof. intros H. unfold mean_length. rewrite <- est_rho_resultant. now apply seg_rho. Qed.
Lemma two_each_checks groups : two_each groups ->
  Nat.ltb (length groups) 2 = false /\ existsb (fun g => Nat.eqb (length g) 0) groups = false /\
  existsb (fun g => Nat.ltb (length g) 2) groups = false /\ Forall (fun g => g <> []) groups /\ groups <> [] /\ concat groups <> [].
Proof.
  intros [L F]. rewrite Forall_forall in F.
  assert (X : forall (p : list R -> bool), (forall g, In g groups -> p g = false) -> existsb p groups = false).
  { intros p Hp. destruct (existsb p groups) eqn:E; auto. apply existsb_exists in E. destruct E as (g & Hg & Eg). now rewrite Hp in Eg. }
  split; [apply Nat.ltb_ge; lia|].
  split; [apply X; intros g Hg; apply Nat.eqb_neq; specialize (F g Hg); lia|].
  split; [apply X; intros g Hg; apply Nat.ltb_ge; now apply F|].
  split; [apply Forall_forall; intros g Hg ->; specialize (F [] Hg); simpl in F; lia|].
  split; [intros ->; simpl in L; lia|].
  destruct groups as [|g gs]; [simpl in L; lia|]. destruct g as [|x g]; [specialize (F [] ltac:(now left)); simpl in F; lia|discriminate].
Qed.
Lemma kappas_ok l : exists ks, rmap (fun r => circ_kappa r None) l = Ok ks.
Proof.
  induction l as [|r l (ks & IH)]; [exists []; reflexivity|]. cbn [rmap]. rewrite circ_kappa_none. cbn [bind]. rewrite IH. cbn. eauto.
Qed.
Lemma ek_errors ccdf groups : ((length groups < 2)%nat \/ Exists (fun g => (length g < 2)%nat) groups) ->
  equal_kappa_test ccdf groups = Err ValueError.
Proof.
  intros H. unfold equal_kappa_test. destruct (Nat.ltb_spec (length groups) 2) as [|L]; auto.
  destruct (existsb (fun g => Nat.eqb (length g) 0) groups) eqn:E0; auto.
  destruct (existsb (fun g => Nat.ltb (length g) 2) groups) eqn:E1; auto.
  exfalso. destruct H as [H|H]; [lia|]. apply Exists_exists in H. destruct H as (g & Hg & Lg).
  assert (X : existsb (fun g => Nat.ltb (length g) 2) groups = true) by (apply existsb_exists; exists g; split; auto; now apply Nat.ltb_lt).
  congruence.
Qed.
Lemma all_equal_inj {A} (f g : A -> R) l : (forall a b, In a l -> In b l -> f a = f b -> g a = g b) ->
  all_equal (map f l) -> all_equal (map g l).
Proof.
  intros H E x y Hx Hy. apply in_map_iff in Hx, Hy. destruct Hx as (a & <- & Ha). destruct Hy as (b & <- & Hb).
  apply H; auto. apply E; now apply in_map.
Qed.
Lemma sqrt38 : sqrt (3/8) * sqrt (3/8) = 3/8 /\ 0 < sqrt (3/8).
Proof. split; [apply sqrt_sqrt; lra|apply sqrt_lt_R0; lra]. Qed.
(** The arcsine argument is within range iff 3 r^2 <= 2. *)
Lemma ek_arg r : 0 <= r -> (sqrt (3/8) * 2 * r <= 1 <-> 3 * r ^ 2 <= 2).
Proof.
  intros H. destruct sqrt38 as [Q P]. set (s := sqrt (3/8)) in *.
  assert (E : (s * 2 * r) ^ 2 = 3/2 * r ^ 2) by (replace ((s * 2 * r) ^ 2) with (4 * (s * s) * r ^ 2) by ring; rewrite Q; field).
  assert (N : 0 <= s * 2 * r) by nra. split; intros X; nra.
Qed.
Lemma ek_arcsin r : 0 <= r -> 3 * r ^ 2 <= 2 -> np_arcsin (sqrt (3/8) * 2 * r) = Fin (asin (sqrt (3/8) * 2 * r)).
Proof.
  intros H1 H2. apply (proj2 (ek_arg r H1)) in H2. destruct sqrt38 as [_ P]. unfold np_arcsin.
  destruct (Rleb_spec (-1) (sqrt (3/8) * 2 * r)); [|nra]. destruct (Rleb_spec (sqrt (3/8) * 2 * r) 1); [reflexivity|lra].
Qed.
Lemma ek_arcsin_nan r : 0 <= r -> 2 < 3 * r ^ 2 -> np_arcsin (sqrt (3/8) * 2 * r) = NaN.
Proof.
  intros H1 H2. unfold np_arcsin. destruct (Rleb_spec (sqrt (3/8) * 2 * r) 1) as [L|L].
  - apply (proj1 (ek_arg r H1)) in L. lra.
  - now rewrite andb_false_r.
Qed.
Lemma asin_inj x y : -1 <= x <= 1 -> -1 <= y <= 1 -> asin x = asin y -> x = y.
Proof. intros Hx Hy E. rewrite <- (sin_asin x Hx), <- (sin_asin y Hy). now rewrite E. Qed.
Lemma arcsinh_inj x y : arcsinh x = arcsinh y -> x = y.
Proof. intros E. rewrite <- (sinh_arcsinh x), <- (sinh_arcsinh y). now rewrite E. Qed.
Lemma map2_same {A B C} (h : A -> B -> C) (f : A -> B) l : map2 h l (map f l) = map (fun a => h a (f a)) l.
Proof. unfold map2. induction l; simpl; congruence. Qed.
Lemma ek_small ccdf groups : two_each groups -> mean_length (concat groups) < 45/100 ->
  exists t, equal_kappa_test ccdf groups = Ok t /\ ek_reg t = Small /\ ek_df t = (length groups - 1)%nat /\
    ek_pval t = one_minus (ccdf (ek_stat t) (length groups - 1)%nat) /\ ek_rho t = map mean_length groups /\
    (Exists (fun g => 2 < 3 * mean_length g ^ 2) groups -> ek_stat t = NaN) /\
    (Forall (fun g => 3 * mean_length g ^ 2 <= 2) groups -> Forall (fun g => (5 <= length g)%nat) groups ->
      exists v, ek_stat t = Fin v /\ 0 <= v /\ (v = 0 <-> all_equal (map mean_length groups))).
Proof.
  intros T L. destruct (two_each_checks groups T) as (C1 & C2 & C3 & NE & Ng & Nc).
  unfold equal_kappa_test. rewrite C1, C2, C3. rewrite (circ_r_mean (concat groups) Nc).
  destruct (Rltb_spec (mean_length (concat groups)) (45/100)) as [_|]; [|lra]. cbn [bind].
  destruct (kappas_ok (map (fun g => circ_r g None) groups)) as (ks & ->). cbn [bind]. rewrite circ_kappa_none. cbn [bind].
  eexists. split; [reflexivity|]. cbn [ek_reg ek_df ek_pval ek_stat ek_rho fst snd]. split; auto. split; auto. split; auto.
  rewrite Forall_forall in NE.
  split; [apply map_ext_in; intros g Hg; apply circ_r_mean, NE, Hg|].
  rewrite (map_ext_in (fun g => np_arcsin (sqrt (3 / 8) * 2 * circ_r g None)) (fun g => np_arcsin (sqrt (3/8) * 2 * mean_length g)))
    by (intros g Hg; now rewrite circ_r_mean by auto).
  split.
  - intros E. apply Exists_exists in E. destruct E as (g & Hg & E).
    assert (X : existsb is_nan (map (fun g => np_arcsin (sqrt (3/8) * 2 * mean_length g)) groups) = true).
    { apply existsb_exists. exists NaN. split; auto. apply in_map_iff. exists g. split; auto.
      apply ek_arcsin_nan; auto. apply mean_length_range; auto. }
    now rewrite X.
  - intros A S. rewrite Forall_forall in A, S.
    assert (RN : forall g, In g groups -> 0 <= mean_length g) by (intros g Hg; apply mean_length_range; auto).
    rewrite (map_ext_in _ (fun g => Fin (asin (sqrt (3/8) * 2 * mean_length g)))) by (intros g Hg; apply ek_arcsin; auto).
    assert (X : existsb is_nan (map (fun g => Fin (asin (sqrt (3/8) * 2 * mean_length g))) groups) = false).
    { clear. induction groups; simpl; auto. }
    rewrite X, map2_same. cbn [fval].
    destruct (weighted_ss_spec (map (fun g => (4 * (INR (length g) - 4) / 3, asin (sqrt (3/8) * 2 * mean_length g))) groups)) as (v & E & V1 & V2).
    + intros E. apply map_eq_nil in E. contradiction.
    + rewrite Forall_map. apply Forall_forall. intros g Hg. cbn. assert (5 <= INR (length g)).
      { replace 5 with (INR 5) by (simpl; lra). apply le_INR, S, Hg. }
      lra.
    + exists v. split; auto. split; auto. rewrite V2, map_map. cbn [snd]. destruct sqrt38 as [_ P]. split.
      * apply all_equal_inj. intros a b Ha Hb E'. apply asin_inj in E'.
        -- apply (Rmult_eq_reg_l (sqrt (3/8) * 2)); lra.
        -- specialize (RN a Ha). specialize (A a Ha). apply (proj2 (ek_arg _ RN)) in A. nra.
        -- specialize (RN b Hb). specialize (A b Hb). apply (proj2 (ek_arg _ RN)) in A. nra.
      * apply all_equal_inj. intros a b _ _ E'. now rewrite E'.
Qed.
Lemma ek_moderate ccdf groups : two_each groups -> 45/100 <= mean_length (concat groups) <= 7/10 ->
  exists t, equal_kappa_test ccdf groups = Ok t /\ ek_reg t = Moderate /\ ek_df t = (length groups - 1)%nat /\
    ek_pval t = one_minus (ccdf (ek_stat t) (length groups - 1)%nat) /\ ek_rho t = map mean_length groups /\
    (Forall (fun g => (4 <= length g)%nat) groups ->
      exists v, ek_stat t = Fin v /\ 0 <= v /\ (v = 0 <-> all_equal (map mean_length groups))).
Proof.
  intros T L. destruct (two_each_checks groups T) as (C1 & C2 & C3 & NE & Ng & Nc).
  unfold equal_kappa_test. rewrite C1, C2, C3. rewrite (circ_r_mean (concat groups) Nc).
  destruct (Rltb_spec (mean_length (concat groups)) (45/100)) as [|_]; [lra|].
  destruct (Rleb_spec (mean_length (concat groups)) (7/10)) as [_|]; [|lra]. cbn [bind].
  destruct (kappas_ok (map (fun g => circ_r g None) groups)) as (ks & ->). cbn [bind]. rewrite circ_kappa_none. cbn [bind].
  eexists. split; [reflexivity|]. cbn [ek_reg ek_df ek_pval ek_stat ek_rho fst snd]. split; auto. split; auto. split; auto.
  rewrite Forall_forall in NE.
  split; [apply map_ext_in; intros g Hg; apply circ_r_mean, NE, Hg|].
  intros S. rewrite Forall_forall in S.
  rewrite (map_ext_in _ (fun g => ((INR (length g) - 3) / (798/1000), arcsinh ((mean_length g - 1089/1000) / (258/1000)))))
    by (intros g Hg; now rewrite circ_r_mean by auto).
  destruct (weighted_ss_spec (map (fun g => ((INR (length g) - 3) / (798/1000), arcsinh ((mean_length g - 1089/1000) / (258/1000)))) groups)) as (v & E & V1 & V2).
  + intros E. apply map_eq_nil in E. contradiction.
  + rewrite Forall_map. apply Forall_forall. intros g Hg. cbn [fst]. assert (4 <= INR (length g)).
    { replace 4 with (INR 4) by (simpl; lra). apply le_INR, S, Hg. }
    lra.
  + exists v. split; auto. split; auto. rewrite V2, map_map. cbn [snd]. split.
    * apply all_equal_inj. intros a b Ha Hb E'. apply arcsinh_inj in E'. lra.
    * apply all_equal_inj. intros a b _ _ E'. now rewrite E'.
Qed.
(** Bartlett's inequality. *)
Lemma ln_le_pred x : 0 < x -> ln x <= x - 1 /\ (ln x = x - 1 <-> x = 1).
Proof.
  intros H. destruct (Req_dec x 1) as [->|N].
  - rewrite ln_1. split; [lra|]. split; auto. lra.
  - assert (L : ln x < x - 1).
    { destruct (Req_dec (ln x) 0) as [Z|Z].
      - exfalso. apply N. rewrite <- (exp_ln x H), Z. apply exp_0.
      - pose proof (exp_ineq1 (ln x) Z) as X. rewrite exp_ln in X by auto. lra. }
    split; [lra|]. split; intros; [lra|contradiction].
Qed.
Lemma bartlett {A} (nu e : A -> R) l : l <> [] -> (forall a, In a l -> 0 < nu a) -> (forall a, In a l -> 0 < e a) ->
  let V := Rsum (map nu l) in let T := Rsum (map e l) in
  0 <= V * ln (T / V) - Rsum (map (fun a => nu a * ln (e a / nu a)) l) /\
  (V * ln (T / V) - Rsum (map (fun a => nu a * ln (e a / nu a)) l) = 0 <-> all_equal (map (fun a => e a / nu a) l)).
Proof.
  intros N Hn He V T.
  assert (PV : 0 < V).
  { unfold V. destruct l as [|a l]; [congruence|]. cbn [map]. rewrite Rsum_cons. pose proof (Hn a ltac:(now left)).
    assert (0 <= Rsum (map nu l)) by (apply Rsum_map_nonneg; intros x Hx; specialize (Hn x ltac:(now right)); lra). lra. }
  assert (PT : 0 < T).
  { unfold T. destruct l as [|a l]; [congruence|]. cbn [map]. rewrite Rsum_cons. pose proof (He a ltac:(now left)).
    assert (0 <= Rsum (map e l)) by (apply Rsum_map_nonneg; intros x Hx; specialize (He x ltac:(now right)); lra). lra. }
  set (u := fun a => e a / nu a / (T / V)).
  assert (PR : 0 < T / V) by (apply Rdiv_lt_0_compat; auto).
  assert (Pu : forall a, In a l -> 0 < e a / nu a) by (intros; apply Rdiv_lt_0_compat; auto).
  assert (E : V * ln (T / V) - Rsum (map (fun a => nu a * ln (e a / nu a)) l) = Rsum (map (fun a => nu a * (u a - 1 - ln (u a))) l)).
  { rewrite (Rsum_map_ext (fun a => nu a * (u a - 1 - ln (u a)))
      (fun a => V / T * e a + ((-1 + ln (T / V)) * nu a + (-1) * (nu a * ln (e a / nu a))))).
    - rewrite !Rsum_map_plus, !Rsum_map_scal. fold T V. field. lra.
    - intros a Ha. unfold u. change (e a / nu a / (T / V)) with (e a / nu a * / (T / V)).
      rewrite (ln_mult (e a / nu a) (/ (T / V))) by (auto; apply Rinv_0_lt_compat; auto).
      rewrite ln_Rinv by auto. specialize (Hn a Ha). field. lra. }
  rewrite E.
  assert (G : forall a, In a l -> 0 <= nu a * (u a - 1 - ln (u a))).
  { intros a Ha. apply Rmult_le_pos; [specialize (Hn a Ha); lra|].
    destruct (ln_le_pred (u a)) as [X _]; [apply Rdiv_lt_0_compat; auto|lra]. }
  split; [now apply Rsum_map_nonneg|]. split.
  - intros Z. assert (U1 : forall a, In a l -> e a / nu a = T / V).
    { intros a Ha. pose proof (Rsum_map_0 (fun a => nu a * (u a - 1 - ln (u a))) l G Z a Ha) as X. cbv beta in X.
      apply Rmult_integral in X. destruct X as [X|X]; [specialize (Hn a Ha); lra|].
      destruct (ln_le_pred (u a)) as [_ Y]; [apply Rdiv_lt_0_compat; auto|].
      assert (Q : u a = 1) by (apply Y; lra). unfold u in Q.
      replace (e a / nu a) with (e a / nu a / (T / V) * (T / V)) by (field; specialize (Hn a Ha); lra). rewrite Q. ring. }
    intros x y Hx Hy. apply in_map_iff in Hx, Hy. destruct Hx as (a & <- & Ha). destruct Hy as (b & <- & Hb).
    now rewrite (U1 a Ha), (U1 b Hb).
  - intros Q. destruct l as [|a0 l0]; [congruence|]. set (l := a0 :: l0) in *. set (k := e a0 / nu a0).
    assert (K : forall a, In a l -> e a / nu a = k).
    { intros a Ha. apply Q; [now apply (in_map (fun a => e a / nu a))|apply (in_map (fun a => e a / nu a)); now left]. }
    assert (TV : T / V = k).
    { unfold T. rewrite (Rsum_map_ext e (fun a => k * nu a)).
      - rewrite Rsum_map_scal. fold V. field. lra.
      - intros a Ha. rewrite <- (K a Ha). specialize (Hn a Ha). field. lra. }
    assert (Kp : 0 < k) by (rewrite <- TV; auto).
    rewrite (Rsum_map_ext _ (fun _ => 0)); [rewrite Rsum_map_const; ring|].
    intros a Ha. unfold u. rewrite TV, (K a Ha). replace (k / k) with 1 by (field; lra). rewrite ln_1. ring.
Qed.
Lemma concat_len groups : INR (length (concat groups)) = Rsum (map (fun g : list R => INR (length g)) groups).
Proof. induction groups as [|g gs IH]; [reflexivity|]. cbn [concat map]. rewrite app_length, plus_INR, Rsum_cons, IH. reflexivity. Qed.
Lemma ek_large ccdf groups : two_each groups -> 7/10 < mean_length (concat groups) ->
  (Exists one_direction groups -> equal_kappa_test ccdf groups = Err ValueError) /\
  (Forall (fun g => ~ one_direction g) groups ->
   exists t v, equal_kappa_test ccdf groups = Ok t /\ ek_reg t = Large /\ ek_df t = (length groups - 1)%nat /\
    ek_pval t = one_minus (ccdf (ek_stat t) (length groups - 1)%nat) /\ ek_rho t = map mean_length groups /\
    ek_stat t = Fin v /\ 0 <= v /\ (v = 0 <-> all_equal (map spread groups))).
Proof.
  intros T L. destruct (two_each_checks groups T) as (C1 & C2 & C3 & NE & Ng & Nc). destruct T as [T1 T2].
  rewrite Forall_forall in NE, T2.
  unfold equal_kappa_test. rewrite C1, C2, C3. rewrite (circ_r_mean (concat groups) Nc).
  destruct (Rltb_spec (mean_length (concat groups)) (45/100)) as [|_]; [lra|].
  destruct (Rleb_spec (mean_length (concat groups)) (7/10)) as [|_]; [lra|].
  assert (RS : forall g, In g groups -> circ_r g None * INR (length g) = resultant g) by (intros g Hg; apply circ_r_resultant; auto).
  split.
  - intros E. apply Exists_exists in E. destruct E as (g & Hg & O).
    assert (X : existsb (fun g => Rleb (INR (length g) - circ_r g None * INR (length g)) 0) groups = true).
    { apply existsb_exists. exists g. split; auto. apply Rleb_true. rewrite RS by auto.
      rewrite (proj2 (resultant_full g (NE g Hg)) O). lra. }
    rewrite X. reflexivity.
  - intros O. rewrite Forall_forall in O.
    assert (RL : forall g, In g groups -> resultant g < INR (length g)).
    { intros g Hg. pose proof (resultant_le g) as [H|H]; auto. exfalso. apply (O g Hg). apply resultant_full; auto. }
    assert (X : existsb (fun g => Rleb (INR (length g) - circ_r g None * INR (length g)) 0) groups = false).
    { destruct (existsb (fun g => Rleb (INR (length g) - circ_r g None * INR (length g)) 0) groups) eqn:E; auto.
      apply existsb_exists in E. destruct E as (g & Hg & E).
      apply Rleb_true in E. rewrite RS in E by auto. specialize (RL g Hg). lra. }
    rewrite X.
    rewrite (Rsum_map_ext (fun g => circ_r g None * INR (length g)) resultant) by exact RS.
    assert (ET : INR (length (concat groups)) - Rsum (map resultant groups) = Rsum (map (fun g => INR (length g) - resultant g) groups)).
    { rewrite concat_len, <- Rsum_map_minus. reflexivity. }
    rewrite ET.
    assert (EV : INR (length (concat groups)) - INR (length groups) = Rsum (map (fun g => INR (length g) - 1) groups)).
    { rewrite concat_len, Rsum_map_minus, Rsum_map_const. ring. }
    rewrite EV.
    assert (PN : forall g, In g groups -> 0 < INR (length g) - 1).
    { intros g Hg. assert (1 < INR (length g)) by (change 1 with (INR 1); apply lt_INR; specialize (T2 g Hg); lia). lra. }
    destruct (bartlett (fun g => INR (length g) - 1) (fun g => INR (length g) - resultant g) groups Ng PN) as [B1 B2].
    { intros g Hg. specialize (RL g Hg). lra. }
    set (V := Rsum (map (fun g => INR (length g) - 1) groups)) in *.
    set (TT := Rsum (map (fun g => INR (length g) - resultant g) groups)) in *.
    assert (PT : 0 < TT).
    { unfold TT. destruct groups as [|g gs]; [congruence|]. cbn [map]. rewrite Rsum_cons. pose proof (RL g ltac:(now left)).
      assert (0 <= Rsum (map (fun g => INR (length g) - resultant g) gs)) by
        (apply Rsum_map_nonneg; intros h Hh; specialize (RL h ltac:(now right)); lra). lra. }
    destruct (Rleb_spec TT 0); [lra|].
    rewrite (Rsum_map_ext (fun g => (INR (length g) - 1) * ln ((INR (length g) - circ_r g None * INR (length g)) / (INR (length g) - 1)))
      (fun g => (INR (length g) - 1) * ln ((INR (length g) - resultant g) / (INR (length g) - 1)))) by (intros g Hg; now rewrite RS).
    cbn [bind].
    destruct (kappas_ok (map (fun g => circ_r g None) groups)) as (ks & ->). cbn [bind]. rewrite circ_kappa_none. cbn [bind].
    eexists _, _. split; [reflexivity|]. cbn [ek_reg ek_df ek_pval ek_stat ek_rho fst snd]. split; auto. split; auto. split; auto.
    split; [apply map_ext_in; intros g Hg; apply circ_r_mean, NE, Hg|]. split; [reflexivity|].
    assert (DD : 0 <= 1 / (3 * (INR (length groups) - 1)) * (Rsum (map (fun g => 1 / (INR (length g) - 1)) groups) - 1 / V)).
    { assert (2 <= INR (length groups)) by (change 2 with (INR 2); now apply le_INR).
      apply Rmult_le_pos; [apply Rlt_le, Rdiv_lt_0_compat; lra|].
      destruct groups as [|g gs]; [congruence|].
      assert (PVg : INR (length g) - 1 <= V).
      { unfold V. cbn [map]. rewrite Rsum_cons.
        assert (0 <= Rsum (map (fun g => INR (length g) - 1) gs)) by
          (apply Rsum_map_nonneg; intros h Hh; specialize (PN h ltac:(now right)); lra). lra. }
      cbn [map]. rewrite Rsum_cons.
      assert (0 <= Rsum (map (fun g => 1 / (INR (length g) - 1)) gs)).
      { apply Rsum_map_nonneg. intros h Hh. specialize (PN h ltac:(now right)). apply Rlt_le, Rdiv_lt_0_compat; lra. }
      pose proof (PN g ltac:(now left)). assert (1 / V <= 1 / (INR (length g) - 1)).
      { unfold Rdiv. rewrite !Rmult_1_l. apply Rinv_le_contravar; lra. }
      lra. }
    set (dd := 1 / (3 * (INR (length groups) - 1)) * _) in *.
    assert (DP : 0 < 1 / (1 + dd)) by (apply Rdiv_lt_0_compat; lra).
    split; [apply Rmult_le_pos; lra|].
    unfold spread. rewrite <- B2. split; intros Z.
    + apply Rmult_integral in Z. destruct Z; lra.
    + rewrite Z. ring.
Qed.
(** Two groups of two observations: the weights are negative. *)
Lemma resultant_val g c s r : Rsum (map cos g) = c -> Rsum (map sin g) = s -> 0 <= r -> c ^ 2 + s ^ 2 = r ^ 2 -> resultant g = r.
Proof. intros <- <- Hr E. unfold resultant. rewrite E. now apply sqrt_pow2. Qed.
Lemma ek_refuted ccdf : exists groups t v, two_each groups /\ equal_kappa_test ccdf groups = Ok t /\ ek_stat t = Fin v /\ v < 0.
Proof.
  exists [[0; PI / 2]; [0; PI]].
  assert (TE : two_each [[0; PI / 2]; [0; PI]]) by (split; [simpl; lia|repeat constructor]).
  assert (Q : sqrt 2 * sqrt 2 = 2) by (apply sqrt_sqrt; lra).
  assert (P2 : 0 < sqrt 2) by (apply sqrt_lt_R0; lra).
  assert (R1 : resultant [0; PI / 2] = sqrt 2).
  { apply resultant_val with 1 1; [| |lra|nra]; cbn [map]; rewrite !Rsum_cons, Rsum_nil, ?cos_0, ?sin_0, ?cos_PI2, ?sin_PI2; ring. }
  assert (R2 : resultant [0; PI] = 0).
  { apply resultant_val with 0 0; [| |lra|nra]; cbn [map]; rewrite !Rsum_cons, Rsum_nil, ?cos_0, ?sin_0, ?cos_PI, ?sin_PI; ring. }
  assert (R3 : resultant (concat [[0; PI / 2]; [0; PI]]) = sqrt 2).
  { apply resultant_val with 1 1; [| |lra|nra]; cbn [concat map app]; rewrite !Rsum_cons, Rsum_nil, ?cos_0, ?sin_0, ?cos_PI2, ?sin_PI2, ?cos_PI, ?sin_PI; ring. }
  assert (M1 : mean_length [0; PI / 2] = sqrt 2 / 2) by (unfold mean_length; rewrite R1; simpl INR; field).
  assert (M2 : mean_length [0; PI] = 0) by (unfold mean_length; rewrite R2; unfold Rdiv; ring).
  assert (M3 : mean_length (concat [[0; PI / 2]; [0; PI]]) = sqrt 2 / 4) by (unfold mean_length; rewrite R3; simpl INR; field).
  assert (S8 : sqrt (3/8) * 2 * (sqrt 2 / 2) = sqrt 3 / 2).
  { replace (sqrt (3/8) * 2 * (sqrt 2 / 2)) with (sqrt (3/8) * sqrt 2) by field.
    rewrite <- sqrt_mult by lra. replace (3/8*2) with (3 * (/2 * /2)) by field. rewrite sqrt_mult, sqrt_square by lra. reflexivity. }
  assert (A1 : asin (sqrt (3/8) * 2 * (sqrt 2 / 2)) = PI / 3).
  { rewrite S8, <- sin_PI3. apply asin_sin. pose proof PI_RGT_0. lra. }
  assert (A2 : asin (sqrt (3/8) * 2 * 0) = 0) by (rewrite Rmult_0_r; apply asin_0).
  destruct (two_each_checks _ TE) as (C1 & C2 & C3 & NE & Ng & Nc).
  unfold equal_kappa_test. rewrite C1, C2, C3, (circ_r_mean _ Nc), M3.
  destruct (Rltb_spec (sqrt 2 / 4) (45/100)) as [_|X]; [|exfalso; nra].
  destruct (kappas_ok (map (fun g => circ_r g None) [[0; PI / 2]; [0; PI]])) as (ks & Ek).
  cbn [map] in *. rewrite !circ_r_mean in * by discriminate. rewrite M1, M2 in *. cbn [bind]. rewrite Ek. cbn [bind]. rewrite circ_kappa_none. cbn [bind].
  eexists _, _. split; auto. split; [reflexivity|]. cbn [ek_stat fst]. rewrite !ek_arcsin by nra. rewrite A1, A2.
  cbn [existsb is_nan orb]. unfold map2. cbn [combine map fst snd fval length]. unfold weighted_ss. cbn [map fst snd].
  rewrite !Rsum_cons, !Rsum_nil. replace (INR 2) with 2 by (simpl; lra). unfold np_div.
  destruct (Reqb_spec (4 * (2 - 4) / 3 + (4 * (2 - 4) / 3 + 0)) 0) as [Z|_]; [lra|].
  split; [reflexivity|]. pose proof PI_RGT_0.
  replace (4 * (2 - 4) / 3 * (PI / 3) ^ 2 + (4 * (2 - 4) / 3 * 0 ^ 2 + 0) -
    (4 * (2 - 4) / 3 * (PI / 3) + (4 * (2 - 4) / 3 * 0 + 0)) ^ 2 / (4 * (2 - 4) / 3 + (4 * (2 - 4) / 3 + 0)))
    with (- (4 / 27) * (PI * PI)) by field. nra.
Qed.

(** * common_median_test *)
Lemma pearson_eq (rows : list (R * R)) : Forall (fun r => 0 < snd r) rows ->
  0 < Rsum (map fst rows) -> 0 < Rsum (map snd rows) - Rsum (map fst rows) ->
  pearson rows = Rsum (map snd rows) ^ 2 / (Rsum (map fst rows) * (Rsum (map snd rows) - Rsum (map fst rows)))
      * Rsum (map (fun r => fst r ^ 2 / snd r) rows)
    - Rsum (map snd rows) * Rsum (map fst rows) / (Rsum (map snd rows) - Rsum (map fst rows)).
Proof.
  intros H HM HN. unfold pearson. set (N := Rsum (map snd rows)) in *. set (M := Rsum (map fst rows)) in *.
  rewrite Forall_forall in H.
  rewrite (Rsum_map_ext _ (fun r => N ^ 2 / (M * (N - M)) * (fst r ^ 2 / snd r) + ((- 2 * N / (N - M)) * fst r + M / (N - M) * snd r))).
  - rewrite !Rsum_map_plus, !Rsum_map_scal. fold M N. field. lra.
  - intros r Hr. specialize (H r Hr). field. lra.
Qed.
Lemma pearson_zero (rows : list (R * R)) : Forall (fun r => 0 < snd r) rows ->
  0 < Rsum (map fst rows) -> 0 < Rsum (map snd rows) - Rsum (map fst rows) ->
  0 <= pearson rows /\ (pearson rows = 0 <-> all_equal (map (fun r => fst r / snd r) rows)).
Proof.
  intros H HM HN. unfold pearson. set (N := Rsum (map snd rows)) in *. set (M := Rsum (map fst rows)) in *.
  rewrite Forall_forall in H.
  rewrite (Rsum_map_ext _ (fun r => N ^ 2 / (M * (N - M)) * snd r * (fst r / snd r - M / N) ^ 2)).
  2: { intros r Hr. specialize (H r Hr). field. lra. }
  assert (K : 0 < N ^ 2 / (M * (N - M))) by (apply Rdiv_lt_0_compat; nra).
  assert (G : forall r, In r rows -> 0 <= N ^ 2 / (M * (N - M)) * snd r * (fst r / snd r - M / N) ^ 2).
  { intros r Hr. specialize (H r Hr). apply Rmult_le_pos; [nra|apply pow2_ge_0]. }
  split; [now apply Rsum_map_nonneg|]. split.
  - intros Z. assert (U : forall r, In r rows -> fst r / snd r = M / N).
    { intros r Hr. pose proof (Rsum_map_0 _ _ G Z r Hr) as X. cbv beta in X. specialize (H r Hr).
      apply Rmult_integral in X. destruct X as [X|X]; [nra|]. nra. }
    intros x y Hx Hy. apply in_map_iff in Hx, Hy. destruct Hx as (a & <- & Ha). destruct Hy as (b & <- & Hb).
    now rewrite (U a Ha), (U b Hb).
  - intros Q. destruct rows as [|r0 rows0]; [unfold M in HM; cbn in HM; lra|]. set (rows := r0 :: rows0) in *.
    assert (U : forall r, In r rows -> fst r = (fst r0 / snd r0) * snd r).
    { intros r Hr. pose proof (H r Hr).
      assert (X : fst r / snd r = fst r0 / snd r0).
      { apply Q; [now apply (in_map (fun r => fst r / snd r))|apply (in_map (fun r => fst r / snd r)); now left]. }
      rewrite <- X. field. lra. }
    assert (EM : M = fst r0 / snd r0 * N).
    { unfold M. rewrite (Rsum_map_ext fst (fun r => (fst r0 / snd r0) * snd r)) by exact U. rewrite Rsum_map_scal. reflexivity. }
    rewrite (Rsum_map_ext _ (fun _ => 0)); [rewrite Rsum_map_const; ring|].
    intros r Hr. pose proof (H r Hr). rewrite (U r Hr).
    pose proof (H r0 ltac:(now left)). replace (M / N) with (fst r0 / snd r0) by (rewrite EM; field; lra). field. repeat split; lra.
Qed.
Lemma cm_counts m groups ks : Forall2 (fun g k => counts (clockwise_of m) g k) groups ks ->
  ks = map (cm_neg (MOne m)) groups.
Proof.
  induction 1 as [|g k groups ks H F IH]; [reflexivity|]. cbn [map]. rewrite <- IH. f_equal.
  apply (counts_inv (clockwise_of m) (fun a => Rltb (circ_dist Center a m) 0)) in H; auto.
  intros a _. rewrite Rltb_true. apply center_neg.
Qed.
Lemma INR_nsum ks : INR (nsum ks) = Rsum (map INR ks).
Proof. induction ks as [|k ks IH]; [reflexivity|]. cbn [map]. rewrite Rsum_cons, <- IH. simpl nsum. apply plus_INR. Qed.
Lemma count_le g m : (cm_neg (MOne m) g <= length g)%nat.
Proof. unfold cm_neg, count_if. apply filter_length_le. Qed.
Lemma cm_run ccdf groups alpha m ks : 0 < alpha < 1 -> (2 <= length groups)%nat -> Forall (fun g => g <> []) groups ->
  circ_median_default (concat groups) = Ok (MOne m) -> Forall2 (fun g k => counts (clockwise_of m) g k) groups ks ->
  let rows := combine (map INR ks) (map (fun g => INR (length g)) groups) in
  let M := Rsum (map INR ks) in let N := INR (length (concat groups)) in
  (M = 0 \/ M = N -> common_median_test ccdf groups alpha = Err ValueError) /\
  (M <> 0 -> M <> N -> exists t, common_median_test ccdf groups alpha = Ok t /\ cm_stat t = pearson rows /\
     0 <= cm_stat t /\ (cm_stat t = 0 <-> all_equal (map (fun r => fst r / snd r) rows)) /\
     cm_pval t = 1 - ccdf (pearson rows) (length groups - 1)%nat /\
     cm_reject t = Rltb (cm_pval t) alpha /\ cm_median t = if cm_reject t then NaN else Fin m).
Proof.
  intros Ha L NE Md C rows M N. pose proof (cm_counts m groups ks C) as EK.
  unfold common_median_test.
  destruct (Rltb_spec 0 alpha); [|lra]. destruct (Rltb_spec alpha 1); [|lra]. cbn [andb negb].
  destruct (Nat.ltb_spec (length groups) 2); [lia|].
  assert (X : existsb (fun g => Nat.eqb (length g) 0) groups = false).
  { destruct (existsb _ groups) eqn:E; auto. apply existsb_exists in E. destruct E as (g & Hg & E).
    apply Nat.eqb_eq in E. rewrite Forall_forall in NE. specialize (NE g Hg). destruct g; [congruence|discriminate]. }
  rewrite X, Md. cbn [bind]. rewrite <- EK, INR_nsum. fold M N.
  split.
  - intros [Z|Z]; rewrite Z.
    + destruct (Reqb_spec 0 0); [reflexivity|lra].
    + destruct (Reqb_spec N 0); [reflexivity|]. destruct (Reqb_spec N N); [|lra]. reflexivity.
  - intros N0 NN. destruct (Reqb_spec M 0); [lra|]. destruct (Reqb_spec M N); [lra|]. cbn [orb].
    assert (RF : map fst rows = map INR ks /\ map snd rows = map (fun g => INR (length g)) groups /\
                 map (fun r => fst r ^ 2 / snd r) rows = map (fun g => INR (cm_neg (MOne m) g) ^ 2 / INR (length g)) groups).
    { unfold rows. rewrite EK. clear. induction groups as [|g gs (I1 & I2 & I3)]; [auto|]. cbn [map combine].
      rewrite I1, I2, I3. auto. }
    destruct RF as (F1 & F2 & F3).
    assert (SN : Rsum (map snd rows) = N) by (rewrite F2; unfold N; now rewrite concat_len).
    assert (SM : Rsum (map fst rows) = M) by (rewrite F1; reflexivity).
    assert (M0 : 0 <= M).
    { apply Rsum_map_nonneg. intros k _. apply pos_INR. }
    assert (MN : M <= N).
    { unfold M, N. rewrite EK, map_map, concat_len. apply Rsum_map_le. intros g _. apply le_INR, count_le. }
    assert (PS : Forall (fun r => 0 < snd r) rows).
    { assert (Q : Forall (fun x => 0 < x) (map snd rows)).
      { rewrite F2, Forall_map. eapply Forall_impl; [|exact NE]. cbn. intros g Hg. apply lt_0_INR. destruct g; [congruence|simpl; lia]. }
      rewrite Forall_map in Q. exact Q. }
    assert (E : N ^ 2 / (M * (N - M)) * Rsum (map (fun g => INR (cm_neg (MOne m) g) ^ 2 / INR (length g)) groups) - N * M / (N - M) = pearson rows).
    { rewrite pearson_eq; rewrite ?SM, ?SN, ?F3; auto; lra. }
    rewrite E. destruct (pearson_zero rows PS) as [Z1 Z2]; [rewrite SM; lra|rewrite SM, SN; lra|].
    eexists. split; [reflexivity|]. cbn [cm_stat cm_pval cm_reject cm_median]. repeat split; auto; apply Z2.
Qed.
Lemma cm_errors ccdf groups alpha : (~ (0 < alpha < 1) \/ (length groups < 2)%nat \/ Exists (fun g => g = []) groups) ->
  common_median_test ccdf groups alpha = Err ValueError.
Proof.
  intros H. unfold common_median_test. destruct (Rltb_spec 0 alpha) as [A|A]; cbn [andb]; auto.
  destruct (Rltb_spec alpha 1) as [B|B]; cbn [negb]; auto.
  destruct (Nat.ltb_spec (length groups) 2) as [C|C]; auto.
  destruct H as [H|[H|H]]; [exfalso; apply H; lra|lia|].
  apply Exists_exists in H. destruct H as (g & Hg & ->).
  assert (X : existsb (fun g : list R => Nat.eqb (length g) 0) groups = true) by (apply existsb_exists; exists []; split; auto).
  now rewrite X.
Qed.
Lemma cm_nan_median ccdf groups alpha : circ_median_default (concat groups) = Ok MNaN -> common_median_test ccdf groups alpha = Err ValueError.
Proof.
  intros Md. unfold common_median_test. destruct (negb _); auto. destruct (Nat.ltb _ 2); auto. destruct (existsb _ groups); auto.
  rewrite Md. cbn [bind]. assert (Z : nsum (map (cm_neg MNaN) groups) = 0%nat) by (clear; induction groups; simpl; auto).
  rewrite Z. simpl INR. destruct (Reqb_spec 0 0); [reflexivity|lra].
Qed.
