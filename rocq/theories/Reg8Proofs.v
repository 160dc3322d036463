(** Circular-circular regression: the p-values in terms of the fits of this order and the next. *)
From Verif Require Import Prelude NpModel UtilsModel NpProofs RegModel CircleSpec RegSpec RegProofs Reg2Proofs Reg3Proofs Reg4Proofs Reg5Proofs Reg6Proofs Reg7Proofs.

Lemma inverse_of inv pinv n A : right_inv inv -> shaped n n A -> (forall y, ~ null_vector n A y) ->
  forall i j, (i < n)%nat -> (j < n)%nat -> sumn n (fun k => ent A i k * ent (safe_inverse inv pinv A) k j) = delta i j.
Proof.
  intros H S Hn i j Hi Hj. specialize (H n A S). unfold safe_inverse. destruct (inv A) as [B|]; [|destruct H as [y Hy]; elim (Hn y Hy)].
  destruct H as [_ H]. exact (H i j Hi Hj).
Qed.

Lemma drop_rss lstsq inv pinv p o g theta rows : right_lstsq lstsq -> right_inv inv -> length theta = length rows -> rows <> [] -> independent (cc_labels p (S o)) rows ->
  let n := length rows in
  let f := fun o => mv (design p o rows) (lstsq (design p o rows) (map g theta)) in
  let r := vsub (map g theta) (f o) in
  let N := cc_N inv pinv n (1 + 2 * (p * o)) (2 * p) (design p o rows) (map (cc_wrow p o) rows) in
  dot r r = trig_rss (cc_labels p o) g (combine theta rows) (lstsq (design p o rows) (map g theta)) /\
  dot (vec_of n (fun j => Rsum (vec_of n (fun i => nth i r 0 * ent N i j)))) r =
  trig_rss (cc_labels p o) g (combine theta rows) (lstsq (design p o rows) (map g theta))
  - trig_rss (cc_labels p (S o)) g (combine theta rows) (lstsq (design p (S o) rows) (map g theta)).
Proof.
  intros Hl Hinv El Hr Hind n f r N.
  set (m := (1 + 2 * (p * o))%nat). set (q := (2 * p)%nat). set (X := ent (design p o rows)). set (W := ent (map (cc_wrow p o) rows)).
  destruct (cc_orth lstsq p o g theta rows Hl El Hr) as [Lb Ob]. destruct (cc_orth lstsq p (S o) g theta rows Hl El Hr) as [Lb' Ob'].
  set (b := lstsq (design p o rows) (map g theta)) in *. set (b' := lstsq (design p (S o) rows) (map g theta)) in *.
  assert (Lr : length r = n) by (unfold r, vsub; rewrite map2_length; rewrite map_length; [exact El|unfold f; rewrite mv_length, design_length; exact El]).
  set (rf := fun i => g (nth i theta 0) - trig_poly (cc_labels p o) b (nth i rows [])).
  assert (Er : forall i, (i < n)%nat -> nth i r 0 = rf i).
  { intros i Hi. unfold r, vsub. rewrite (map2_nth _ _ _ i (g 0) 0).
    - rewrite (map_nth g theta 0). unfold f. rewrite fit_nth by exact Hi. reflexivity.
    - rewrite map_length. unfold f. rewrite mv_length, design_length. exact El.
    - rewrite map_length. unfold n in Hi. lia. }
  assert (R1 : dot r r = sumn n (fun i => rf i ^ 2)).
  { rewrite dot_inner, (inner_sum n r r Lr). apply sumn_ext. intros i Hi. rewrite (Er i Hi). ring. }
  assert (R2 : trig_rss (cc_labels p o) g (combine theta rows) b = sumn n (fun i => rf i ^ 2)) by (apply trig_rss_sumn; exact El).
  split; [now rewrite R2|]. rewrite R2.
  assert (TX : forall j, (j < m)%nat -> Tu X n rf j = 0).
  { intros j Hj. etransitivity; [|exact (Ob (vec_of m (fun k => if Nat.eqb j k then 1 else 0)) (vec_of_length _ _))]. unfold Tu. apply sumn_ext. intros i Hi.
    rewrite <- (xmat_ap p o rows _ i Hi (vec_of_length _ _)). fold m X. unfold Ap.
    rewrite (sumn_ext m _ (fun k => (if Nat.eqb j k then 1 else 0) * X i k)) by (intros k Hk; rewrite nth_vec_of by exact Hk; ring).
    rewrite (sumn_delta m j (fun k => X i k) Hj). unfold rf. ring. }
  set (Bm := safe_inverse inv pinv (XX (design p o rows) n m)).
  set (Km := safe_inverse inv pinv (HH (design p o rows) (map (cc_wrow p o) rows) Bm n m q)).
  assert (HB : forall j l, (j < m)%nat -> (l < m)%nat -> Ap (fun j a => sumn n (fun i => X i j * X i a)) m (fun a => ent Bm a l) j = delta j l).
  { intros j l Hj Hl'. rewrite <- (inverse_of inv pinv m _ Hinv (XX_shaped _ n m) (fun y => XX_regular p o rows y Hind) j l Hj Hl').
    apply sumn_ext. intros k Hk. rewrite (XX_ent _ n m j k Hj Hk). reflexivity. }
  destruct (drop_quad X W (ent Bm) (ent Km) n m q rf HB) as (v & z & D1 & D2 & D3).
  { intros k l Hk Hl'. rewrite <- (inverse_of inv pinv q _ Hinv (HH_shaped _ _ Bm n m q) (fun y => HH_regular p o rows Bm y Hind HB) k l Hk Hl').
    apply sumn_ext. intros a Ha. rewrite (HH_ent _ _ Bm n m q k a Hk Ha). reflexivity. }
  { exact TX. }
  cbv beta zeta in D1, D2, D3. set (w := fun i => Ap W q v i - Ap X m z i).
  change (forall j, (j < m)%nat -> Tu X n w j = 0) in D1. change (forall k, (k < q)%nat -> Tu W n (fun i => rf i - w i) k = 0) in D2.
  change (sumn n (fun i => (rf i - w i) ^ 2) = sumn n (fun i => rf i ^ 2) - sumn n (fun j => sumn n (fun i => rf i * sumn q (fun l => sumn q (fun j0 => W i j0 * ent Km j0 l) * W j l)) * rf j)) in D3.
  assert (Q : dot (vec_of n (fun j => Rsum (vec_of n (fun i => nth i r 0 * ent N i j)))) r
     = sumn n (fun j => sumn n (fun i => rf i * sumn q (fun l => sumn q (fun j0 => W i j0 * ent Km j0 l) * W j l)) * rf j)).
  { rewrite dot_inner, inner_vec_of. apply sumn_ext. intros j Hj. rewrite (Er j Hj). f_equal. apply sumn_ext. intros i Hi. rewrite (Er i Hi). f_equal.
    unfold N. apply (cc_N_ent inv pinv n m q _ _ i j Hi Hj). }
  rewrite Q. clear Q.
  enough (E : trig_rss (cc_labels p (S o)) g (combine theta rows) b' = sumn n (fun i => (rf i - w i) ^ 2)) by (rewrite E, D3; ring).
  rewrite trig_rss_sumn by exact El. apply sumn_ext. intros i Hi. f_equal. unfold rf.
  enough (E : trig_poly (cc_labels p (S o)) b' (nth i rows []) = trig_poly (cc_labels p o) b (nth i rows []) + w i) by (rewrite E; ring).
  (* the fit of order o + 1 is the fit of order o plus w *)
  destruct (poly_join p o (lc b (vec_of m z) (-1)) (vec_of q v)) as (d & Ld & Ed & _); [rewrite lc_length; exact Lb|apply vec_of_length|].
  assert (Ew : forall i, (i < n)%nat -> trig_poly (cc_labels p (S o)) d (nth i rows []) = trig_poly (cc_labels p o) b (nth i rows []) + w i).
  { clear i Hi. intros i Hi. rewrite Ed, trig_poly_lc by (rewrite vec_of_length; exact Lb). unfold w.
    assert (E1 : inner (cc_wrow p o (nth i rows [])) (vec_of q v) = Ap W q v i).
    { etransitivity; [symmetry; exact (wmat_ap p o rows (vec_of q v) i Hi (vec_of_length _ _))|]. apply Ap_ext. intros j Hj. apply nth_vec_of. exact Hj. }
    assert (E2 : trig_poly (cc_labels p o) (vec_of m z) (nth i rows []) = Ap X m z i).
    { etransitivity; [symmetry; exact (xmat_ap p o rows (vec_of m z) i Hi (vec_of_length _ _))|]. apply Ap_ext. intros j Hj. apply nth_vec_of. exact Hj. }
    rewrite E1, E2. ring. }
  rewrite <- (Ew i Hi).
  assert (Orth : forall c, length c = (1 + 2 * (p * S o))%nat -> sumn n (fun i => (g (nth i theta 0) - trig_poly (cc_labels p (S o)) d (nth i rows [])) * trig_poly (cc_labels p (S o)) c (nth i rows [])) = 0).
  { intros c Lc. destruct (poly_split p o c Lc) as (c1 & u & Lc1 & Lu & Ec).
    rewrite (sumn_ext n _ (fun i => (rf i - w i) * Ap X m (fun j => nth j c1 0) i + (rf i - w i) * Ap W q (fun j => nth j u 0) i)).
    - rewrite sumn_plus, <- !adj. rewrite (sumn_ext m _ (fun _ => 0)), (sumn_ext q _ (fun _ => 0)).
      + unfold sumn. rewrite !Rsum_map_const. ring.
      + intros k Hk. rewrite (D2 k Hk). ring.
      + intros j Hj. rewrite Tu_minus, (TX j Hj), (D1 j Hj). ring.
    - intros k Hk. rewrite (Ew k Hk), Ec. unfold rf. rewrite <- (xmat_ap p o rows c1 k Hk Lc1). fold m X.
      assert (E1 : inner (cc_wrow p o (nth k rows [])) u = Ap W q (fun j => nth j u 0) k) by (symmetry; exact (wmat_ap p o rows u k Hk Lu)).
      rewrite E1. ring. }
  apply (proj_unique n (fun i => g (nth i theta 0)) (fun i => trig_poly (cc_labels p (S o)) b' (nth i rows [])) (fun i => trig_poly (cc_labels p (S o)) d (nth i rows []))); [| |exact Hi].
  - etransitivity; [|exact (Ob' (lc b' d (-1)) ltac:(rewrite lc_length; exact Lb'))]. apply sumn_ext. intros k Hk. rewrite trig_poly_lc by congruence. ring.
  - etransitivity; [|exact (Orth (lc b' d (-1)) ltac:(rewrite lc_length; exact Lb'))]. apply sumn_ext. intros k Hk. rewrite trig_poly_lc by congruence. ring.
Qed.

Lemma cc_total lstsq inv pinv chi2 theta p rows order level : (1 <= order)%Z -> 0 < level < 1 -> cc_data theta p rows ->
  exists c, CCRegression lstsq inv pinv chi2 None None (Some (map Fin theta)) (Some (X2 p (map (map Fin) rows))) order level = Ok c.
Proof.
  intros Ho Hl (El & Hr & Hp). rewrite cc_arrays by exact Hp. destruct (Z.ltb_spec order 1); [lia|].
  destruct (Rltb_spec 0 level); [|lra]. destruct (Rltb_spec level 1); [|lra]. cbn [andb negb].
  unfold cc_fit. rewrite !map_length, El, Nat.eqb_refl. cbn [negb]. eexists. reflexivity.
Qed.
Lemma cc_test lstsq inv pinv chi2 theta p rows order level c c' :
  right_lstsq lstsq -> right_inv inv -> cc_data theta p rows -> (0 < p)%nat ->
  CCRegression lstsq inv pinv chi2 None None (Some (map Fin theta)) (Some (X2 p (map (map Fin) rows))) order level = Ok c ->
  CCRegression lstsq inv pinv chi2 None None (Some (map Fin theta)) (Some (X2 p (map (map Fin) rows))) (order + 1) level = Ok c' ->
  independent (cc_lab c') rows ->
  let T := fun g b b' => let rss := trig_rss (cc_lab c) g (combine theta rows) b in
    INR (Nat.max (length theta - (2 * Z.to_nat order + 1)) 1) * (rss - trig_rss (cc_lab c') g (combine theta rows) b') / Rmax rss (/ 10 ^ 12) in
  cc_p c = Some (1 - chi2 (T cos (cc_cos c) (cc_cos c')) (2 * p)%nat, 1 - chi2 (T sin (cc_sin c) (cc_sin c')) (2 * p)%nat) /\
  (0 <= T cos (cc_cos c) (cc_cos c') <= INR (Nat.max (length theta - (2 * Z.to_nat order + 1)) 1)) /\
  (0 <= T sin (cc_sin c) (cc_sin c') <= INR (Nat.max (length theta - (2 * Z.to_nat order + 1)) 1)).
Proof.
  intros Hl Hinv D Hp0 E E' Hind T. pose proof D as (El & Hr & Hp).
  destruct (cc_inv _ _ _ _ _ _ _ _ _ _ Hp E) as (Ho & _ & _ & Ec & Es & Eb & _ & _ & _ & Ep & _).
  destruct (cc_inv _ _ _ _ _ _ _ _ _ _ Hp E') as (_ & _ & _ & Ec' & Es' & Eb' & _).
  replace (Z.to_nat (order + 1)) with (S (Z.to_nat order)) in * by lia. set (o := Z.to_nat order) in *. rewrite Eb' in Hind.
  assert (Hs : small = / 10 ^ 12) by (unfold small; field).
  assert (Hq : Nat.eqb (length rows) 0 || Nat.eqb p 0 = false).
  { destruct (Nat.eqb_spec (length rows) 0); [destruct rows; [congruence|discriminate]|]. destruct (Nat.eqb_spec p 0); [lia|reflexivity]. }
  rewrite Hq in Ep. cbv zeta in Ep.
  assert (G : forall g, cc_T (cc_N inv pinv (length rows) (1 + 2 * (p * o)) (2 * p) (design p o rows) (map (cc_wrow p o) rows)) (length rows) o
       (vsub (map g theta) (mv (design p o rows) (lstsq (design p o rows) (map g theta)))) = T g (lstsq (design p o rows) (map g theta)) (lstsq (design p (S o) rows) (map g theta))).
  { intros g. destruct (drop_rss lstsq inv pinv p o g theta rows Hl Hinv El Hr Hind) as [R1 R2]. unfold cc_T, T. rewrite R1, R2, El, Eb, Eb', Hs. reflexivity. }
  assert (B : forall g, 0 <= T g (lstsq (design p o rows) (map g theta)) (lstsq (design p (S o) rows) (map g theta)) <= INR (Nat.max (length theta - (2 * o + 1)) 1)).
  { intros g. unfold T. rewrite Eb, Eb'. set (b := lstsq (design p o rows) (map g theta)). set (b' := lstsq (design p (S o) rows) (map g theta)).
    destruct (cc_orth lstsq p o g theta rows Hl El Hr) as [Lb _]. destruct (cc_orth lstsq p (S o) g theta rows Hl El Hr) as [Lb' _]. fold b in Lb. fold b' in Lb'.
    destruct (spans_mono p o (S o) b ltac:(lia) Lb) as (b1 & Lb1 & Hb1).
    assert (M := cc_min lstsq p (S o) g theta rows b1 Hl El Hr ltac:(fold b'; congruence)). fold b' in M.
    assert (E1 : trig_rss (cc_labels p (S o)) g (combine theta rows) b1 = trig_rss (cc_labels p o) g (combine theta rows) b) by (apply Rsum_map_ext; intros; now rewrite Hb1).
    rewrite E1 in M. assert (0 <= trig_rss (cc_labels p (S o)) g (combine theta rows) b') by (apply Rsum_map_nonneg; intros; apply pow2_ge_0).
    set (u := trig_rss (cc_labels p o) g (combine theta rows) b) in *. set (u' := trig_rss (cc_labels p (S o)) g (combine theta rows) b') in *.
    assert (Hm : 0 < Rmax u (/ 10 ^ 12)) by (eapply Rlt_le_trans; [|apply Rmax_r]; apply Rinv_0_lt_compat; lra).
    pose proof (Rmax_l u (/ 10 ^ 12)). assert (HA : 0 <= INR (Nat.max (length theta - (2 * o + 1)) 1)) by apply pos_INR.
    set (A := INR (Nat.max (length theta - (2 * o + 1)) 1)) in *. split.
    - apply Rmult_le_pos; [apply Rmult_le_pos; lra|]. left. now apply Rinv_0_lt_compat.
    - apply (Rmult_le_reg_r (Rmax u (/ 10 ^ 12))); [exact Hm|]. unfold Rdiv. rewrite Rmult_assoc, Rinv_l, Rmult_1_r by lra. apply Rmult_le_compat_l; lra. }
  rewrite Ec, Es, Ec', Es'. split; [|split; apply B]. rewrite Ep. unfold fitc, fits. rewrite !G. reflexivity.
Qed.

(** The residual sum of squares from a solution of the normal equations. *)
Lemma rss_at lstsq p o g theta rows d : right_lstsq lstsq -> length theta = length rows -> rows <> [] -> length d = (1 + 2 * (p * o))%nat ->
  (forall c, length c = (1 + 2 * (p * o))%nat -> Rsum (map (fun e => (g (fst e) - trig_poly (cc_labels p o) d (snd e)) * trig_poly (cc_labels p o) c (snd e)) (combine theta rows)) = 0) ->
  trig_rss (cc_labels p o) g (combine theta rows) (lstsq (design p o rows) (map g theta)) = trig_rss (cc_labels p o) g (combine theta rows) d.
Proof.
  intros Hl El Hr Ld Od. destruct (cc_orth lstsq p o g theta rows Hl El Hr) as [Lb Ob]. set (b := lstsq (design p o rows) (map g theta)) in *.
  rewrite !trig_rss_sumn by exact El. apply sumn_ext. intros i Hi. f_equal. f_equal.
  apply (proj_unique (length rows) (fun i => g (nth i theta 0)) (fun i => trig_poly (cc_labels p o) b (nth i rows [])) (fun i => trig_poly (cc_labels p o) d (nth i rows []))); [| |exact Hi].
  - etransitivity; [|exact (Ob (lc b d (-1)) ltac:(rewrite lc_length; exact Lb))]. apply sumn_ext. intros k Hk. rewrite trig_poly_lc by congruence. ring.
  - etransitivity; [|exact (Od (lc b d (-1)) ltac:(rewrite lc_length; exact Lb))].
    rewrite (obs_sum theta rows (fun t x => (g t - trig_poly (cc_labels p o) d x) * trig_poly (cc_labels p o) (lc b d (-1)) x) El).
    apply sumn_ext. intros k Hk. rewrite trig_poly_lc by congruence. ring.
Qed.
