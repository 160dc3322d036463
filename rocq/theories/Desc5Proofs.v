(** C23-C25, C78: median confidence interval, kappa, quantiles. *)
From Coq Require Import Sorting.Sorted.
From Verif Require Import Prelude NpModel NpProofs CircleSpec Desc2Spec UtilsModel UtilsProofs
  DescModel DescProofs DescSpec DescApi DescApi2 Desc2Model Desc2Proofs ArcProofs Desc4Proofs.

(** * kappa *)
Lemma kappa0_low r r' : 0 <= r -> r <= r' -> r' < 53/100 -> kappa0 r <= kappa0 r'.
Proof.
  intros H0 H H1. unfold kappa0. destruct (Rltb_spec r (53/100)); [|lra].
  destruct (Rltb_spec r' (53/100)); [|lra].
  assert (r ^ 3 <= r' ^ 3) by (apply pow_incr; lra).
  assert (r ^ 5 <= r' ^ 5) by (apply pow_incr; lra). lra.
Qed.
Lemma kappa0_mid r r' : 53/100 <= r -> r <= r' -> r' < 85/100 -> kappa0 r <= kappa0 r'.
Proof.
  intros H0 H H1. unfold kappa0. destruct (Rltb_spec r (53/100)); [lra|].
  destruct (Rltb_spec r' (53/100)); [lra|]. destruct (Rltb_spec r (85/100)); [|lra].
  destruct (Rltb_spec r' (85/100)); [|lra].
  assert (/ (1 - r) <= / (1 - r')) by (apply Rinv_le_contravar; lra). unfold Rdiv. lra.
Qed.
Lemma kappa0_step r r' : 0 <= r -> r < 53/100 -> 53/100 <= r' -> r' < 85/100 -> kappa0 r <= kappa0 r'.
Proof.
  intros H0 H H1 H2. apply Rle_trans with (1244/1000).
  - unfold kappa0. destruct (Rltb_spec r (53/100)); [|lra].
    assert (r ^ 3 <= (53/100) ^ 3) by (apply pow_incr; lra).
    assert (r ^ 5 <= (53/100) ^ 5) by (apply pow_incr; lra). simpl in *. lra.
  - apply Rle_trans with (kappa0 (53/100)); [|apply kappa0_mid; lra].
    unfold kappa0. destruct (Rltb_spec (53/100) (53/100)); [lra|].
    destruct (Rltb_spec (53/100) (85/100)); [|lra]. lra.
Qed.
Lemma nom_pos r : 0 < r < 1 -> 0 < r ^ 3 - 4 * r ^ 2 + 3 * r.
Proof.
  intros H. replace (r ^ 3 - 4 * r ^ 2 + 3 * r) with (r * (1 - r) * (3 - r)) by ring.
  apply Rmult_lt_0_compat; [apply Rmult_lt_0_compat|]; lra.
Qed.
Lemma kappa0_high r r' : 85/100 <= r -> r <= r' -> r' < 1 -> kappa0 r <= kappa0 r'.
Proof.
  intros H0 H H1. unfold kappa0. destruct (Rltb_spec r (53/100)); [lra|].
  destruct (Rltb_spec r' (53/100)); [lra|]. destruct (Rltb_spec r (85/100)); [lra|].
  destruct (Rltb_spec r' (85/100)); [lra|].
  pose proof (nom_pos r ltac:(lra)). pose proof (nom_pos r' ltac:(lra)).
  destruct (Reqb_spec (r ^ 3 - 4 * r ^ 2 + 3 * r) 0); [lra|].
  destruct (Reqb_spec (r' ^ 3 - 4 * r' ^ 2 + 3 * r') 0); [lra|].
  unfold Rdiv. rewrite !Rmult_1_l. apply Rinv_le_contravar; auto.
  (* the denominator decreases on [0.85, 1) *)
  assert (E : r ^ 3 - 4 * r ^ 2 + 3 * r - (r' ^ 3 - 4 * r' ^ 2 + 3 * r') =
              (r' - r) * (4 * (r + r') - 3 - (r * r + r * r' + r' * r'))) by ring.
  assert (0 <= (r' - r) * (4 * (r + r') - 3 - (r * r + r * r' + r' * r'))); [|lra].
  apply Rmult_le_pos; [lra|]. assert (r * r <= 1) by nra. assert (r * r' <= 1) by nra.
  assert (r' * r' <= 1) by nra. lra.
Qed.
Lemma kappa_monotone_parts r r' : 0 <= r <= r' ->
  (r' < 85/100 \/ (85/100 <= r /\ r' < 1)) -> 0 <= kappa0 r <= kappa0 r'.
Proof.
  intros H C. assert (P : 0 <= kappa0 r).
  { destruct (Rlt_dec r (85/100)) as [L|L].
    - apply Rle_trans with (kappa0 0).
      + unfold kappa0. destruct (Rltb_spec 0 (53/100)); lra.
      + destruct (Rlt_dec r (53/100)); [apply kappa0_low; lra|apply kappa0_step; lra].
    - apply Rle_trans with (kappa0 (85/100)); [|apply kappa0_high; lra].
      unfold kappa0. destruct (Rltb_spec (85/100) (53/100)); [lra|].
      destruct (Rltb_spec (85/100) (85/100)); [lra|].
      destruct (Reqb_spec ((85/100) ^ 3 - 4 * (85/100) ^ 2 + 3 * (85/100)) 0).
      + left. apply Rinv_0_lt_compat, pow_lt; lra.
      + left. apply Rmult_lt_0_compat; [lra|]. apply Rinv_0_lt_compat, nom_pos; lra. }
  split; [exact P|]. destruct C as [C|[C1 C2]]; [|apply kappa0_high; lra].
  destruct (Rlt_dec r (53/100)); destruct (Rlt_dec r' (53/100)).
  - apply kappa0_low; lra. - apply kappa0_step; lra. - lra. - apply kappa0_mid; lra.
Qed.
Lemma circ_kappa_none r : circ_kappa r None = Ok (kappa0 r).
Proof. reflexivity. Qed.
Lemma circ_kappa_monotone r r' : 0 <= r <= r' -> (r' < 85/100 \/ (85/100 <= r /\ r' < 1)) ->
  exists k k', circ_kappa r None = Ok k /\ circ_kappa r' None = Ok k' /\ 0 <= k <= k'.
Proof. intros H C. exists (kappa0 r), (kappa0 r'). repeat split; apply (kappa_monotone_parts r r'); auto. Qed.
Lemma circ_kappa_large_n r n : 15 < n -> circ_kappa r (Some n) = circ_kappa r None.
Proof. intros H. unfold circ_kappa. destruct (Rleb_spec n 15); [lra|reflexivity]. Qed.
Lemma circ_kappa_nonneg r n k : 0 <= r < 1 -> 1 <= n -> circ_kappa r (Some n) = Ok k -> 0 <= k.
Proof.
  intros Hr Hn. assert (P : 0 <= kappa0 r).
  { destruct (Rlt_dec r (85/100)); [apply (kappa_monotone_parts r r); lra|].
    apply (kappa_monotone_parts r r); lra. }
  unfold circ_kappa. destruct (Rleb n 15 && Rltb r (7/10))%bool.
  - destruct (Rltb (kappa0 r) 2).
    + destruct (Reqb (n * kappa0 r) 0); [discriminate|]. intros E. injection E as <-. apply Rmax_r.
    + intros E. assert (Ek : (n - 1) ^ 3 * kappa0 r / (n ^ 3 + n) = k) by congruence.
      rewrite <- Ek. apply Rmult_le_pos.
      * apply Rmult_le_pos; [apply pow_le; lra|exact P].
      * left. apply Rinv_0_lt_compat. pose proof (pow_lt n 3 ltac:(lra)). lra.
  - intros E. injection E as <-. exact P.
Qed.
Lemma circ_kappa_errors r n e : circ_kappa r n = Err e -> 0 <= r < 1 ->
  e = ZeroDivisionError /\ exists m, n = Some m /\ m <= 15 /\ (m = 0 \/ r = 0).
Proof.
  intros H Hr. unfold circ_kappa in H. destruct n as [n|]; [|discriminate].
  destruct (Rleb_spec n 15) as [L|]; [|discriminate]. cbn [andb] in H.
  destruct (Rltb_spec r (7/10)) as [R7|]; [|discriminate].
  destruct (Rltb_spec (kappa0 r) 2); [|discriminate].
  destruct (Reqb_spec (n * kappa0 r) 0) as [Z|]; [|discriminate].
  split; [congruence|]. exists n. split; [reflexivity|]. split; [exact L|].
  apply Rmult_integral in Z. destruct Z as [Z|Z]; [auto|right].
  destruct (Req_dec r 0) as [|N]; [auto|exfalso].
  assert (0 < kappa0 r); [|lra].
  assert (Q : kappa0 (Rmin r (1/2)) <= kappa0 r).
  { apply kappa_monotone_parts; [|left; lra]. pose proof (Rmin_l r (1/2)). split; [apply Rmin_glb; lra|auto]. }
  eapply Rlt_le_trans; [|exact Q]. unfold kappa0. pose proof (Rmin_r r (1/2)).
  assert (0 < Rmin r (1/2)) by (apply Rmin_glb_lt; lra).
  destruct (Rltb_spec (Rmin r (1/2)) (53/100)); [|lra].
  pose proof (pow_lt (Rmin r (1/2)) 3 H1). pose proof (pow_lt (Rmin r (1/2)) 5 H1). lra.
Qed.
Lemma kap85 : 1 / ((85/100) ^ 3 - 4 * (85/100) ^ 2 + 3 * (85/100)) = 1000000 / 274125.
Proof. simpl. field. Qed.
Lemma kappa_not_monotone :
  (exists r r' k k', 0 <= r /\ r < r' /\ r' < 1 /\ circ_kappa r None = Ok k /\
     circ_kappa r' None = Ok k' /\ k' < k) /\
  (forall r, 1/2 <= r < 1 -> exists k k1, circ_kappa r None = Ok k /\ circ_kappa 1 None = Ok k1 /\ k1 < k).
Proof.
  split.
  - exists (849999/1000000), (85/100), (kappa0 (849999/1000000)), (kappa0 (85/100)).
    repeat split; try lra. unfold kappa0.
    destruct (Rltb_spec (85/100) (53/100)); [lra|]. destruct (Rltb_spec (85/100) (85/100)); [lra|].
    destruct (Rltb_spec (849999/1000000) (53/100)); [lra|].
    destruct (Rltb_spec (849999/1000000) (85/100)); [|lra].
    pose proof (nom_pos (85/100) ltac:(lra)).
    destruct (Reqb_spec ((85/100) ^ 3 - 4 * (85/100) ^ 2 + 3 * (85/100)) 0); [lra|].
    rewrite kap85. replace ((43/100) / (1 - 849999/1000000)) with (430000 / 150001) by field. lra.
  - intros r Hr. exists (kappa0 r), (kappa0 1). repeat split.
    assert (E : kappa0 1 = / 10 ^ 16).
    { unfold kappa0. destruct (Rltb_spec 1 (53/100)); [lra|]. destruct (Rltb_spec 1 (85/100)); [lra|].
      destruct (Reqb_spec (1 ^ 3 - 4 * 1 ^ 2 + 3 * 1) 0) as [_|N]; [reflexivity|exfalso; apply N; ring]. }
    rewrite E. apply Rlt_le_trans with 1.
    + rewrite <- Rinv_1. apply Rinv_lt_contravar; [rewrite Rmult_1_l; apply pow_lt; lra|].
      apply Rlt_pow_R1; [lra|lia].
    + destruct (Rlt_dec r (85/100)).
      * apply Rle_trans with (kappa0 (1/2)); [|apply kappa_monotone_parts; lra].
        unfold kappa0. destruct (Rltb_spec (1/2) (53/100)); [simpl; lra|lra].
      * apply Rle_trans with (kappa0 (85/100)); [|apply kappa_monotone_parts; lra].
        unfold kappa0. destruct (Rltb_spec (85/100) (53/100)); [lra|].
        destruct (Rltb_spec (85/100) (85/100)); [lra|].
        pose proof (nom_pos (85/100) ltac:(lra)).
        destruct (Reqb_spec ((85/100) ^ 3 - 4 * (85/100) ^ 2 + 3 * (85/100)) 0); [lra|].
        rewrite kap85. lra.
Qed.

(** * Quantiles *)
Lemma unroll_spec m a : offset_from m a (unroll m a).
Proof.
  unfold unroll. pose proof PI_pos. pose proof (pymod_range (a - m) (2 * PI) ltac:(lra)) as Rg.
  pose proof (pymod_same_dir (a - m)) as D.
  destruct (Rltb_spec PI (pymod (a - m) (2 * PI))); (split; [lra|]); auto.
  destruct D as (k & E). exists (k - 1)%Z. rewrite minus_IZR. lra.
Qed.
Lemma offset_unique m a d d' : offset_from m a d -> offset_from m a d' -> d = d'.
Proof.
  intros [H1 H2] [H3 H4]. apply (same_dir_unique_r (- PI)); try lra.
  eapply same_dir_trans; [exact H2|apply same_dir_sym, H4].
Qed.
Lemma unroll_dir m m' a a' t : same_dir m' (m + t) -> same_dir a' (a + t) -> unroll m' a' = unroll m a.
Proof.
  intros D E. apply (offset_unique m a); [|apply unroll_spec].
  destruct (unroll_spec m' a') as [H1 H2]. split; [exact H1|].
  eapply same_dir_trans; [exact H2|].
  replace (a - m) with (a + t - (m + t)) by ring. apply same_dir_sub; auto.
Qed.
Definition qidx (s : list R) (p : R) : nat := Z.to_nat (Rfloor (p * (INR (length s) - 1))).
Lemma quantile_between s p linear : StronglySorted Rle s -> s <> [] -> 0 <= p <= 1 ->
  (qidx s p < length s)%nat /\
  nth (qidx s p) s 0 <= quantile_sorted s p linear <= nth (Nat.min (S (qidx s p)) (length s - 1)) s 0.
Proof.
  intros S Hne Hp. unfold quantile_sorted. fold (qidx s p).
  assert (Hn : (0 < length s)%nat) by (destruct s; simpl; [congruence|lia]).
  assert (N1 : 1 <= INR (length s)) by (apply (le_INR 1); lia).
  set (v := p * (INR (length s) - 1)). assert (V : 0 <= v <= INR (length s) - 1) by (unfold v; nra).
  pose proof (Rfloor_spec v) as F.
  assert (F0 : (0 <= Rfloor v)%Z) by (rewrite <- (Rfloor_IZR 0); apply Rfloor_mono; lra).
  assert (Q : (qidx s p < length s)%nat).
  { unfold qidx. fold v. apply INR_lt. rewrite INR_IZR_INZ, Z2Nat.id by auto. lra. }
  split; [exact Q|].
  assert (M : nth (qidx s p) s 0 <= nth (Nat.min (Datatypes.S (qidx s p)) (length s - 1)) s 0).
  { apply sorted_nth; auto. lia. }
  set (g := if linear then v - IZR (Rfloor v) else if Reqb (v - IZR (Rfloor v)) 0 then 0 else / 2).
  assert (G : 0 <= g <= 1).
  { unfold g. destruct linear; [lra|]. destruct (Reqb _ 0); lra. }
  nra.
Qed.
Lemma quantile_mono s p p' linear : StronglySorted Rle s -> s <> [] -> 0 <= p <= p' -> p' <= 1 ->
  quantile_sorted s p linear <= quantile_sorted s p' linear.
Proof.
  intros S Hne Hp Hp'. assert (Hn : (0 < length s)%nat) by (destruct s; simpl; [congruence|lia]).
  assert (N1 : 1 <= INR (length s)) by (apply (le_INR 1); lia).
  assert (V : p * (INR (length s) - 1) <= p' * (INR (length s) - 1)) by (apply Rmult_le_compat_r; lra).
  pose proof (Rfloor_mono _ _ V) as FM.
  destruct (quantile_between s p linear S Hne ltac:(lra)) as [Q1 [B1 B2]].
  destruct (quantile_between s p' linear S Hne ltac:(lra)) as [Q2 [B3 B4]].
  destruct (Z.eq_dec (Rfloor (p * (INR (length s) - 1))) (Rfloor (p' * (INR (length s) - 1)))) as [E|N].
  - unfold quantile_sorted. rewrite E.
    set (k := Z.to_nat (Rfloor (p' * (INR (length s) - 1)))).
    assert (M : nth k s 0 <= nth (Nat.min (Datatypes.S k) (length s - 1)) s 0).
    { apply sorted_nth; auto. unfold qidx in Q2. fold k in Q2. lia. }
    apply Rplus_le_compat_l, Rmult_le_compat_r; [lra|].
    destruct linear; [lra|].
    pose proof (Rfloor_spec (p * (INR (length s) - 1))) as F. rewrite E in F.
    destruct (Reqb_spec (p * (INR (length s) - 1) - IZR (Rfloor (p' * (INR (length s) - 1)))) 0);
      destruct (Reqb_spec (p' * (INR (length s) - 1) - IZR (Rfloor (p' * (INR (length s) - 1)))) 0); lra.
  - eapply Rle_trans; [exact B2|]. eapply Rle_trans; [|exact B3].
    apply sorted_nth; auto. unfold qidx in *.
    assert (0 <= Rfloor (p * (INR (length s) - 1)))%Z.
    { rewrite <- (Rfloor_IZR 0). apply Rfloor_mono. simpl. nra. }
    lia.
Qed.
Lemma median_default_form alpha m : circ_median_default alpha = Ok m ->
  m = MNaN \/ exists a, m = MOne a.
Proof.
  unfold circ_median_default, circ_median.
  destruct (isclose12 _ 1).
  - destruct (nth_err alpha 0); cbn; intros E; [|discriminate]. injection E as <-. eauto.
  - destruct (negb _).
    + destruct (circ_median_grouped _ _) as [m0|]; cbn; [|discriminate]. intros E. injection E as <-.
      unfold average. destruct m0; cbn; auto; destruct (circ_mean _ None); cbn; eauto.
    + cbn. destruct (circ_median_mean_deviation _) as [m0|]; cbn; [|discriminate]. intros E. injection E as <-.
      unfold average. destruct m0; cbn; auto; destruct (circ_mean _ None); cbn; eauto.
Qed.
Definition rolled (med : R) (alpha : list R) : list R := nsort (map (unroll med) alpha).
Lemma circ_quantile_eq alpha med p linear : circ_median_default alpha = Ok (MOne med) ->
  0 <= p <= 1 ->
  circ_quantile alpha p linear =
  Ok (Fin (pymod (quantile_sorted (rolled med alpha) p linear + med) (2 * PI))).
Proof.
  intros E Hp. unfold circ_quantile. rewrite E. cbn [bind].
  destruct (Rltb_spec p 0); [lra|]. destruct (Rltb_spec 1 p); [lra|]. reflexivity.
Qed.
Lemma rolled_sorted med alpha : StronglySorted Rle (rolled med alpha).
Proof. apply sort_sorted. Qed.
Lemma rolled_nonempty med alpha : alpha <> [] -> rolled med alpha <> [].
Proof.
  intros H E. apply H. assert (L : length (rolled med alpha) = 0%nat) by (rewrite E; reflexivity).
  unfold rolled in L. rewrite sort_length, map_length in L. now apply length_zero_iff_nil.
Qed.
Lemma rolled_in med alpha x : In x (rolled med alpha) <-> exists a, In a alpha /\ x = unroll med a.
Proof.
  unfold rolled. rewrite sort_in, in_map_iff. split; intros (a & H1 & H2); exists a; auto.
Qed.
Lemma quantile_offset alpha med p linear : alpha <> [] -> 0 <= p <= 1 ->
  - PI < quantile_sorted (rolled med alpha) p linear <= PI.
Proof.
  intros Hn Hp.
  destruct (quantile_between (rolled med alpha) p linear (rolled_sorted _ _) (rolled_nonempty _ _ Hn) Hp)
    as [Q [B1 B2]].
  assert (R1 : forall i, (i < length (rolled med alpha))%nat -> - PI < nth i (rolled med alpha) 0 <= PI).
  { intros i Hi. pose proof (nth_In _ 0 Hi) as I. apply rolled_in in I.
    destruct I as (a & _ & ->). apply unroll_spec. }
  pose proof (R1 _ Q). pose proof (R1 (Nat.min (S (qidx (rolled med alpha) p)) (length (rolled med alpha) - 1)) ltac:(lia)).
  lra.
Qed.
Lemma offset_quantile alpha med p linear : alpha <> [] -> 0 <= p <= 1 ->
  offset_from med (pymod (quantile_sorted (rolled med alpha) p linear + med) (2 * PI))
    (quantile_sorted (rolled med alpha) p linear).
Proof.
  intros Hn Hp. split; [apply quantile_offset; auto|].
  destruct (pymod_same_dir (quantile_sorted (rolled med alpha) p linear + med)) as (k & E).
  rewrite E. exists (- k)%Z. rewrite opp_IZR. lra.
Qed.
Lemma quantile_ends s linear : StronglySorted Rle s -> s <> [] ->
  quantile_sorted s 0 linear = nth 0 s 0 /\ quantile_sorted s 1 linear = nth (length s - 1) s 0.
Proof.
  intros S Hne. assert (Hn : (0 < length s)%nat) by (destruct s; simpl; [congruence|lia]).
  unfold quantile_sorted. split.
  - rewrite Rmult_0_l. rewrite (Rfloor_IZR 0). replace (0 - 0) with 0 by ring.
    destruct (Reqb_spec 0 0); [|lra]. destruct linear; rewrite Rmult_0_l, Rplus_0_r; reflexivity.
  - rewrite Rmult_1_l.
    assert (E : INR (length s) - 1 = IZR (Z.of_nat (length s - 1))).
    { rewrite <- INR_IZR_INZ, minus_INR by lia. reflexivity. }
    rewrite E, Rfloor_IZR, Nat2Z.id. unfold Rminus at 1 2. rewrite Rplus_opp_r.
    destruct (Reqb_spec 0 0); [|lra]. destruct linear; rewrite Rmult_0_l, Rplus_0_r; reflexivity.
Qed.
Lemma sorted_ends s : StronglySorted Rle s -> s <> [] -> forall x, In x s ->
  nth 0 s 0 <= x <= nth (length s - 1) s 0.
Proof.
  intros S Hne x Hx. destruct (In_nth _ _ 0 Hx) as (i & Hi & <-).
  split; apply sorted_nth; auto; lia.
Qed.
Lemma circ_quantile_spec alpha med p linear : alpha <> [] ->
  circ_median_default alpha = Ok (MOne med) -> 0 <= p <= 1 ->
  exists q d, circ_quantile alpha p linear = Ok (Fin q) /\ 0 <= q < 2 * PI /\ offset_from med q d /\
    (p = 0 -> exists a, In a alpha /\ offset_from med a d /\
       forall b db, In b alpha -> offset_from med b db -> d <= db) /\
    (p = 1 -> exists a, In a alpha /\ offset_from med a d /\
       forall b db, In b alpha -> offset_from med b db -> db <= d).
Proof.
  intros Hn Em Hp. pose proof PI2_pos.
  pose proof (rolled_nonempty med alpha Hn) as Rn. pose proof (rolled_sorted med alpha) as Rs.
  assert (Hl : (0 < length (rolled med alpha))%nat) by (destruct (rolled med alpha); simpl; [congruence|lia]).
  eexists _, (quantile_sorted (rolled med alpha) p linear).
  split; [apply (circ_quantile_eq _ _ _ _ Em Hp)|]. split; [apply pymod_range; auto|].
  split; [apply offset_quantile; auto|].
  destruct (quantile_ends (rolled med alpha) linear Rs Rn) as [Q0 Q1].
  assert (U : forall b db, In b alpha -> offset_from med b db -> In db (rolled med alpha)).
  { intros b db Hb O. apply rolled_in. exists b. split; auto. apply (offset_unique med b); auto. apply unroll_spec. }
  split; intros ->.
  - rewrite Q0. assert (I : In (nth 0 (rolled med alpha) 0) (rolled med alpha)) by (apply nth_In; auto).
    pose proof I as I'. apply rolled_in in I'. destruct I' as (a & Ha & Ea). exists a. split; auto.
    split; [rewrite Ea; apply unroll_spec|]. intros b db Hb O. apply sorted_ends; auto. eapply U; eauto.
  - rewrite Q1. assert (I : In (nth (length (rolled med alpha) - 1) (rolled med alpha) 0) (rolled med alpha))
      by (apply nth_In; lia).
    pose proof I as I'. apply rolled_in in I'. destruct I' as (a & Ha & Ea). exists a. split; auto.
    split; [rewrite Ea; apply unroll_spec|]. intros b db Hb O. apply sorted_ends; auto. eapply U; eauto.
Qed.
Lemma circ_quantile_mono alpha med p p' linear q q' : alpha <> [] ->
  circ_median_default alpha = Ok (MOne med) -> 0 <= p <= p' -> p' <= 1 ->
  circ_quantile alpha p linear = Ok (Fin q) -> circ_quantile alpha p' linear = Ok (Fin q') ->
  exists d d', offset_from med q d /\ offset_from med q' d' /\ d <= d'.
Proof.
  intros Hn Em Hp Hp' E E'. rewrite (circ_quantile_eq alpha med) in E, E' by (auto; lra).
  injection E as <-. injection E' as <-. eexists _, _.
  split; [apply offset_quantile; auto; lra|]. split; [apply offset_quantile; auto; lra|].
  apply quantile_mono; auto using rolled_sorted, rolled_nonempty.
Qed.
Lemma circ_quantile_other alpha p linear : alpha <> [] ->
  (circ_median_default alpha = Ok MNaN -> circ_quantile alpha p linear = Ok NaN) /\
  (forall med, circ_median_default alpha = Ok (MOne med) -> ~ (0 <= p <= 1) ->
     circ_quantile alpha p linear = Err ValueError).
Proof.
  intros Hn. split.
  - intros E. unfold circ_quantile. rewrite E. reflexivity.
  - intros med E Hp. unfold circ_quantile. rewrite E. cbn [bind].
    destruct (Rltb_spec p 0); [reflexivity|]. destruct (Rltb_spec 1 p); [reflexivity|]. exfalso. apply Hp. lra.
Qed.
Lemma circ_quantile_rot alpha t p linear : alpha <> [] -> 0 <= p <= 1 ->
  (circ_quantile alpha p linear = Ok NaN -> circ_quantile (map (fun a => a + t) alpha) p linear = Ok NaN) /\
  (forall q, circ_quantile alpha p linear = Ok (Fin q) ->
     exists q', circ_quantile (map (fun a => a + t) alpha) p linear = Ok (Fin q') /\ same_dir q' (q + t)).
Proof.
  intros Hn Hp.
  destruct (circ_median_rot alpha t "deviation"%string "all"%string Hn ltac:(simpl; auto) ltac:(simpl; auto) true)
    as (m & m' & E & E' & D).
  fold (circ_median_default alpha) in E. fold (circ_median_default (map (fun a => a + t) alpha)) in E'.
  destruct (median_default_form _ _ E) as [->|[med ->]].
  - destruct m'; simpl in D; try tauto.
    destruct (circ_quantile_other alpha p linear Hn) as [H1 _].
    destruct (circ_quantile_other (map (fun a => a + t) alpha) p linear ltac:(destruct alpha; simpl; congruence)) as [H2 _].
    rewrite (H1 E), (H2 E'). split; auto. intros q Q. discriminate.
  - destruct m' as [|med'|]; simpl in D; try tauto.
    rewrite (circ_quantile_eq alpha med) by auto.
    rewrite (circ_quantile_eq (map (fun a => a + t) alpha) med') by auto.
    split; [discriminate|]. intros q Q. injection Q as <-. eexists. split; [reflexivity|].
    assert (R1 : rolled med' (map (fun a => a + t) alpha) = rolled med alpha).
    { unfold rolled. rewrite map_map. f_equal. apply map_ext. intros a. apply (unroll_dir med med' a (a + t) t); auto.
      apply same_dir_refl. }
    rewrite R1. eapply same_dir_trans; [apply pymod_same_dir|].
    set (Q := quantile_sorted (rolled med alpha) p linear).
    eapply same_dir_trans; [apply same_dir_add; [apply same_dir_refl|exact D]|].
    replace (Q + (med + t)) with (Q + med + t) by ring.
    apply same_dir_add; [apply same_dir_sym, pymod_same_dir|apply same_dir_refl].
Qed.

(** * Median confidence interval *)
Lemma below_perm x l l' : Permutation l l' -> below x l = below x l'.
Proof. induction 1; simpl; lia. Qed.
Lemma below_le x l : (below x l <= length l)%nat.
Proof. induction l; simpl; [lia|]. destruct (Rltb _ _); lia. Qed.
Lemma below_none x l : (forall y, In y l -> round5 x <= round5 y) -> below x l = 0%nat.
Proof.
  induction l as [|y l IH]; simpl; intros H; [reflexivity|].
  rewrite IH by auto. destruct (Rltb_spec (round5 y) (round5 x)); [|reflexivity].
  specialize (H y (or_introl eq_refl)). lra.
Qed.
Lemma last_below_sorted x l : StronglySorted Rle l -> forall i acc,
  last_below i (round5 x) (map round5 l) acc =
  if Nat.eqb (below x l) 0 then acc else Some (i + Z.of_nat (below x l) - 1)%Z.
Proof.
  induction l as [|y l IH]; intros S i acc; [reflexivity|].
  inversion S as [|? ? S' F]; subst. cbn [map last_below below].
  destruct (Rltb_spec (round5 y) (round5 x)) as [L|L].
  - rewrite IH by auto. cbn [Nat.add Nat.eqb].
    destruct (Nat.eqb_spec (below x l) 0) as [->|N]; f_equal; lia.
  - assert (B : below x l = 0%nat).
    { apply below_none. intros z Hz. rewrite Forall_forall in F. specialize (F z Hz).
      apply round5_mono in F. lra. }
    rewrite IH by auto. rewrite B. reflexivity.
Qed.
Lemma existsb_round x l : existsb (fun y => Reqb y (round5 x)) (map round5 l) = true <->
  exists y, In y l /\ round5 y = round5 x.
Proof.
  rewrite existsb_exists. split.
  - intros (y & Hy & E). apply in_map_iff in Hy. destruct Hy as (z & <- & Hz). apply Reqb_true in E. eauto.
  - intros (y & Hy & E). exists (round5 y). split; [apply in_map; auto|]. now apply Reqb_true.
Qed.
Lemma offset_bounds n z : (15 < n)%Z -> 0 <= z <= sqrt (IZR n) ->
  (1 <= 1 + Rfloor (/ 2 * sqrt (IZR n) * z))%Z /\ (2 * Rfloor (/ 2 * sqrt (IZR n) * z) <= n)%Z.
Proof.
  intros Hn Hz. assert (P : 0 <= IZR n) by (apply IZR_le; lia).
  pose proof (sqrt_pos (IZR n)) as SP. pose proof (sqrt_sqrt (IZR n) P) as SS.
  set (x := / 2 * sqrt (IZR n) * z).
  assert (X0 : 0 <= x) by (unfold x; apply Rmult_le_pos; [apply Rmult_le_pos; lra|lra]).
  assert (X1 : 2 * x <= IZR n) by (unfold x; nra).
  pose proof (Rfloor_spec x). split.
  - assert (0 <= Rfloor x)%Z; [|lia]. rewrite <- (Rfloor_IZR 0). apply Rfloor_mono, X0.
  - apply le_IZR. rewrite mult_IZR. lra.
Qed.
Lemma py_index_ok l i : (- Z.of_nat (length l) <= i < Z.of_nat (length l))%Z ->
  exists x, py_index l i = Ok x /\ In x l.
Proof.
  intros H. unfold py_index.
  destruct (Z.leb_spec 0 i); destruct (Z.ltb_spec i (Z.of_nat (length l))); cbn [andb]; try lia.
  - eexists. split; [reflexivity|]. apply nth_In. lia.
  - destruct (Z.leb_spec (- Z.of_nat (length l)) i); destruct (Z.ltb_spec i 0); cbn [andb]; try lia.
    eexists. split; [reflexivity|]. apply nth_In. lia.
Qed.
Lemma py_index_err l i : (Z.of_nat (length l) <= i)%Z -> py_index l i = Err IndexError.
Proof.
  intros H. unfold py_index.
  destruct (Z.leb_spec 0 i); destruct (Z.ltb_spec i (Z.of_nat (length l))); cbn [andb]; try lia.
  - destruct (Z.leb_spec (- Z.of_nat (length l)) i); destruct (Z.ltb_spec i 0); cbn [andb]; try lia.
    reflexivity.
Qed.
Lemma is_within_flip m lb ub : is_within_circular_range m lb ub = false -> ~ same_dir lb ub ->
  is_within_circular_range m ub lb = true.
Proof.
  unfold is_within_circular_range. rewrite same_dir_pymod.
  set (V := pymod m (2 * PI)). set (L := pymod lb (2 * PI)). set (U := pymod ub (2 * PI)).
  intros E N.
  destruct (Rleb_spec L U); destruct (Rleb_spec U L); destruct (Rleb_spec L V);
    destruct (Rleb_spec V U); destruct (Rleb_spec U V); destruct (Rleb_spec V L);
    simpl in *; try reflexivity; try discriminate; exfalso; lra.
Qed.
Lemma orient_contains m lb ub lo up : orient m lb ub = (lo, up) ->
  (~ same_dir lb ub -> on_ccw_arc m lo up) /\ ((lo = lb /\ up = ub) \/ (lo = ub /\ up = lb)).
Proof.
  unfold orient. destruct (is_within_circular_range m lb ub) eqn:E; intros H; injection H as <- <-.
  - split; [intros _; apply is_within_ccw, E|auto].
  - split; [|auto]. intros N. apply is_within_ccw, is_within_flip; auto.
Qed.
Lemma median_ci_index_eq alpha median z tie : ties_median alpha median tie ->
  (0 < length alpha)%nat ->
  median_ci_indices alpha median z =
  let n := Z.of_nat (length alpha) in
  let off := (1 + Rfloor (/ 2 * sqrt (IZR n) * z))%Z in
  let im := (if Nat.eqb (below median alpha) 0 then n - 1 else Z.of_nat (below median alpha) - 1)%Z in
  let lb := (im - off + 1)%Z in
  let ub := upper_index alpha median z tie in
  ((if Z.ltb lb 0 then n + lb else lb)%Z, (if Z.ltb n ub then ub - n else ub)%Z).
Proof.
  intros T Hn. unfold median_ci_indices. cbv zeta.
  rewrite last_below_sorted by apply sort_sorted.
  rewrite (below_perm median (nsort alpha) alpha) by (apply Permutation_sym, sort_perm).
  assert (B : existsb (fun x => Reqb x (round5 median)) (map round5 (nsort alpha)) = tie).
  { apply bool_eq_iff. rewrite existsb_round. unfold ties_median in T. rewrite T.
    split; intros (y & Hy & E); exists y; split; auto; apply sort_in; auto. }
  rewrite B. unfold upper_index.
  set (n := Z.of_nat (length alpha)).
  set (off := (1 + Rfloor (/ 2 * sqrt (IZR n) * z))%Z).
  destruct (Nat.eqb_spec (below median alpha) 0) as [E|E].
  - f_equal. destruct tie; [|rewrite Z.add_0_r]; reflexivity.
  - replace (0 + Z.of_nat (below median alpha) - 1)%Z with (Z.of_nat (below median alpha) - 1)%Z by lia.
    f_equal. destruct tie; [|rewrite Z.add_0_r]; reflexivity.
Qed.
(** For a critical value of ordinary size: IndexError exactly when the upper index
    hits n; otherwise an interval between two observations that contains the median. *)
Lemma median_ci_large alpha median z tie : (15 < length alpha)%nat ->
  0 <= z <= sqrt (IZR (Z.of_nat (length alpha))) -> ties_median alpha median tie ->
  (upper_index alpha median z tie = Z.of_nat (length alpha) ->
     circ_median_ci alpha median z = Err IndexError) /\
  (upper_index alpha median z tie <> Z.of_nat (length alpha) ->
     exists lo up, circ_median_ci alpha median z = Ok (Some (lo, up)) /\
       (exists a, In a alpha /\ lo = angmod0 a) /\ (exists b, In b alpha /\ up = angmod0 b) /\
       (lo <> up -> on_ccw_arc median lo up)).
Proof.
  intros Hn Hz T. unfold circ_median_ci.
  destruct (Nat.ltb_spec 15 (length alpha)); [|lia]. unfold circ_median_ci_large.
  rewrite (median_ci_index_eq alpha median z tie T) by lia. cbv zeta.
  set (n := Z.of_nat (length alpha)) in *.
  destruct (offset_bounds n z ltac:(lia) Hz) as [O1 O2].
  pose proof (below_le median alpha) as BL.
  set (k := Rfloor (/ 2 * sqrt (IZR n) * z)) in *.
  set (im := (if Nat.eqb (below median alpha) 0 then n - 1 else Z.of_nat (below median alpha) - 1)%Z).
  assert (IM : (0 <= im <= n - 1)%Z).
  { unfold im. destruct (Nat.eqb_spec (below median alpha) 0); lia. }
  assert (UB : upper_index alpha median z tie = (im + (1 + k) + (if tie then 1 else 0))%Z) by reflexivity.
  assert (U2 : (1 <= upper_index alpha median z tie <= n - 1 + (1 + k) + 1)%Z) by (rewrite UB; destruct tie; lia).
  set (u := upper_index alpha median z tie) in *. clearbody u im.
  set (il := (if Z.ltb (im - (1 + k) + 1) 0 then n + (im - (1 + k) + 1) else im - (1 + k) + 1)%Z).
  destruct (py_index_ok (nsort alpha) il) as (x & Ex & Ix).
  { rewrite sort_length. fold n. unfold il. destruct (Z.ltb_spec (im - (1 + k) + 1) 0); lia. }
  rewrite Ex. cbn [bind]. split.
  - intros E. destruct (Z.ltb_spec n u); [lia|]. rewrite py_index_err by (rewrite sort_length; fold n; lia). reflexivity.
  - intros E.
    destruct (py_index_ok (nsort alpha) (if Z.ltb n u then u - n else u)%Z) as (y & Ey & Iy).
    { rewrite sort_length. fold n. destruct (Z.ltb_spec n u); lia. }
    rewrite Ey. cbn [bind]. destruct (orient median x y) as [lo up] eqn:EO.
    destruct (orient_contains _ _ _ _ _ EO) as [C1 C2]. cbn [bind].
    rewrite sort_in in Ix, Iy.
    exists (angmod0 lo), (angmod0 up). split; [reflexivity|].
    assert (Mem : In lo alpha /\ In up alpha) by (destruct C2 as [[-> ->]|[-> ->]]; auto).
    split; [exists lo; split; [tauto|reflexivity]|]. split; [exists up; split; [tauto|reflexivity]|].
    intros NE. apply (ccw_dir median median lo (angmod0 lo) up (angmod0 up)).
    + apply same_dir_refl. + apply same_dir_sym, angmod0_same_dir. + apply same_dir_sym, angmod0_same_dir.
    + apply C1. intros D. apply NE. apply angmod0_eq_iff.
      destruct C2 as [[-> ->]|[-> ->]]; [exact D|apply same_dir_sym, D].
Qed.
