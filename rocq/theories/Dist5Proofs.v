(** Proofs about the quantile function of wrapcauchy. *)
From Verif Require Import Prelude NpModel NpProofs CircleSpec IntSpec IntProofs DistModel DistSpec DistProofs Dist2Proofs Dist4Proofs.

Lemma tiny15 : 0 < / 10 ^ 15 < / 1000.
Proof. split; [apply Rinv_0_lt_compat; lra|apply Rinv_lt_contravar; lra]. Qed.

Lemma abs_le_inv a b : Rabs a <= b -> - b <= a <= b.
Proof. intros H. pose proof (Rle_abs a). pose proof (Rle_abs (- a)) as K. rewrite Rabs_Ropp in K. lra. Qed.

Lemma wc_H_inv rho s : 0 <= rho < 1 -> 0 < s < 1 ->
  let A := (1 + rho) / (1 - rho) in
  let phi := 2 * atan (tan (PI * (s - 1 / 2)) / A) in
  - PI < phi < PI /\ 1 / 2 + wcF rho phi = s.
Proof.
  intros H Hs A phi. pose proof PI_pos as Hp.
  assert (HA : 0 < A) by (apply Rdiv_lt_0_compat; lra).
  set (al := PI * (s - 1 / 2)) in *.
  assert (Ha : - PI / 2 < al < PI / 2) by (unfold al; split; nra).
  set (b := atan (tan al / A)) in *.
  assert (Hb : - PI / 2 < b < PI / 2) by (apply atan_bound).
  assert (Hphi : - PI < phi < PI) by (unfold phi; fold b; lra).
  split; [exact Hphi|].
  rewrite <- wc_H_F by lra. fold A. unfold wc_H.
  replace (1 / 2 * phi) with b by (unfold phi; fold b; field).
  assert (Cb : 0 < cos b) by (apply cos_gt_0; lra).
  assert (Ca : 0 < cos al) by (apply cos_gt_0; lra).
  assert (E : arctan2 (A * sin b) (cos b) = al).
  { assert (Et : tan b = tan al / A) by (unfold b; apply tan_atan).
    assert (Es : A * sin b = cos b / cos al * sin al).
    { unfold tan in Et. apply (Rmult_eq_reg_r (/ cos b / A)).
      - replace (A * sin b * (/ cos b / A)) with (sin b / cos b) by (field; lra). rewrite Et. field. lra.
      - apply Rgt_not_eq. apply Rdiv_lt_0_compat; [apply Rinv_0_lt_compat; lra|lra]. }
    assert (Eu : same_dir (arctan2 (A * sin b) (cos b)) al).
    { apply (arctan2_unique (cos b / cos al)).
      - apply Rdiv_lt_0_compat; lra.
      - field. lra.
      - exact Es. }
    destruct Eu as [k Hk]. pose proof (arctan2_range (A * sin b) (cos b)) as Ra.
    assert (L : -1 < IZR k) by (apply (Rmult_lt_reg_l (2 * PI)); lra).
    assert (U : IZR k < 1) by (apply (Rmult_lt_reg_l (2 * PI)); lra).
    apply lt_IZR in L. apply lt_IZR in U. assert (k = 0)%Z as K by lia. rewrite K in Hk. lra. }
  rewrite E. unfold al. field. lra.
Qed.

Lemma pymod_1 x : 0 <= pymod x 1 < 1 /\ exists k : Z, x = pymod x 1 + IZR k.
Proof.
  split; [apply pymod_range; lra|]. destruct (pymod_cong x 1) as [k Hk]. exists k. lra.
Qed.
Lemma int_zero (z : Z) : -1 < IZR z < 1 -> z = 0%Z.
Proof. intros [L U]. apply lt_IZR in L. apply lt_IZR in U. lia. Qed.

(** Up to the clipping of the quantile level the code inverts the distribution function. *)
Lemma wc_ppf_level mu rho q : 0 <= rho < 1 -> / 10 ^ 15 < rho -> 0 < q < 1 ->
  0 <= wc_ppf mu rho q < 2 * PI /\
  exists e, Rabs e <= / 10 ^ 15 /\ (exists k : Z, wcI mu rho (wc_ppf mu rho q) = q + e + IZR k) /\
    (let s := pymod (1 / 2 + wcF rho (- mu) + q) 1 in / 10 ^ 15 <= s <= 1 - / 10 ^ 15 -> e = 0).
Proof.
  intros H Hr Hq. pose proof PI2_pos as Hp2. pose proof PI_pos as Hp. pose proof tiny15 as T.
  unfold wc_ppf.
  destruct (Rleb_spec q 0); [lra|]. destruct (Rleb_spec 1 q); [lra|]. destruct (Rleb_spec rho (/ 10 ^ 15)); [lra|].
  cbv zeta. set (mv := pymod mu (2 * PI)).
  split; [apply pymod_range; exact Hp2|].
  destruct (centre_spec (- mv)) as [Rc [kc Ec]].
  rewrite wc_H_F by assumption.
  set (w := 1 / 2 + wcF rho (centre (- mv)) + q).
  destruct (pymod_1 w) as [Rs [ks Es]]. set (s := pymod w 1) in *.
  set (s' := clip s (/ 10 ^ 15) (1 - / 10 ^ 15)).
  assert (Rs' : 0 < s' < 1).
  { pose proof (clip_range s (/ 10 ^ 15) (1 - / 10 ^ 15) ltac:(lra)) as K. fold s' in K. lra. }
  destruct (wc_H_inv rho s' H Rs') as [Rphi Ephi]. cbv zeta in Rphi, Ephi.
  set (phi := 2 * atan (tan (PI * (s' - 1 / 2)) / ((1 + rho) / (1 - rho)))) in *.
  destruct (pymod_cong mu (2 * PI)) as [km Ekm]. fold mv in Ekm.
  assert (Emu : mu = mv + 2 * PI * IZR km) by lra.
  destruct (pymod_cong (mv + phi) (2 * PI)) as [kx Ekx].
  set (x := pymod (mv + phi) (2 * PI)) in *.
  assert (Ex : x - mu = phi + 2 * PI * IZR (- kx - km)).
  { rewrite minus_IZR, opp_IZR. lra. }
  assert (Em : - mu = centre (- mv) + 2 * PI * IZR (kc - km)).
  { rewrite minus_IZR. lra. }
  exists (s' - s). split.
  { apply Rabs_le. unfold s', clip.
    destruct (Rle_dec s (/ 10 ^ 15)).
    - rewrite Rmax_right by lra. rewrite Rmin_left by lra. lra.
    - rewrite Rmax_left by lra. destruct (Rle_dec s (1 - / 10 ^ 15)).
      + rewrite Rmin_left by lra. lra.
      + rewrite Rmin_right by lra. lra. }
  split.
  - exists ((- kx - km) - (kc - km) - ks)%Z.
    unfold wcI. rewrite Ex, Em, !wcF_turns, !minus_IZR. unfold w in Es. lra.
  - intros Hs. rewrite Em in Hs. rewrite wcF_turns in Hs.
    replace (1 / 2 + (wcF rho (centre (- mv)) + IZR (kc - km)) + q) with (w + 1 * IZR (kc - km)) in Hs by (unfold w; ring).
    rewrite pymod_add in Hs by lra. fold s in Hs. unfold s'. rewrite clip_in by exact Hs. ring.
Qed.

Lemma atan_le z : 0 <= z -> 0 <= atan z <= z.
Proof.
  intros Hz. split.
  - rewrite <- atan_0. destruct Hz as [Hz| <-]; [left; apply atan_increasing; exact Hz|right; reflexivity].
  - assert (K : 0 - atan 0 <= z - atan z).
    { apply (mono_of_dlim (fun x => x - atan x) (fun x => 1 - / (1 + x ^ 2)) 0 z); try lra.
      - intros x _. apply dlim_minus; [apply dlim_id|]. apply derivable_pt_lim_atan.
      - intros x _. pose proof (pow2_ge_0 x). assert (/ (1 + x ^ 2) <= / 1) by (apply Rinv_le_contravar; lra).
        rewrite Rinv_1 in *. lra. }
    rewrite atan_0 in K. lra.
Qed.
Lemma atan_abs z : Rabs (atan z) <= Rabs z.
Proof.
  destruct (Rle_dec 0 z) as [Hz|Hz].
  - pose proof (atan_le z Hz). rewrite !Rabs_right by lra. lra.
  - pose proof (atan_le (- z) ltac:(lra)) as K. rewrite atan_opp in K. rewrite !Rabs_left1 by lra. lra.
Qed.

Lemma wcF_near rho t : 0 <= rho <= / 10 ^ 15 -> Rabs (wcF rho t - t / (2 * PI)) <= / 10 ^ 15 / 2.
Proof.
  intros H. pose proof PI_gt3 as P3. pose proof tiny15 as T.
  unfold wcF. replace (t / (2 * PI) + atan (rho * sin t / (1 - rho * cos t)) / PI - t / (2 * PI))
    with (atan (rho * sin t / (1 - rho * cos t)) * / PI) by (unfold Rdiv; ring).
  rewrite Rabs_mult. rewrite (Rabs_right (/ PI)) by (apply Rle_ge, Rlt_le, Rinv_0_lt_compat; lra).
  pose proof (atan_abs (rho * sin t / (1 - rho * cos t))) as K.
  assert (Hc : 1 - / 1000 <= 1 - rho * cos t) by (pose proof (COS_bound t); nra).
  assert (K2 : Rabs (rho * sin t / (1 - rho * cos t)) <= / 10 ^ 15 * (4 / 3)).
  { unfold Rdiv at 1. rewrite !Rabs_mult. rewrite (Rabs_right rho) by lra.
    rewrite (Rabs_right (/ (1 - rho * cos t))) by (apply Rle_ge, Rlt_le, Rinv_0_lt_compat; lra).
    assert (Rabs (sin t) <= 1) by (apply Rabs_le; pose proof (SIN_bound t); lra).
    assert (/ (1 - rho * cos t) <= 4 / 3).
    { replace (4 / 3) with (/ (3 / 4)) by field. apply Rinv_le_contravar; lra. }
    pose proof (Rabs_pos (sin t)).
    apply Rmult_le_compat; [apply Rmult_le_pos; lra|apply Rlt_le, Rinv_0_lt_compat; lra| |lra].
    replace (/ 10 ^ 15) with (/ 10 ^ 15 * 1) by ring. apply Rmult_le_compat; lra. }
  assert (Ip : / PI <= 3 / 8 ).
  { replace (3 / 8) with (/ (8 / 3)) by field. apply Rinv_le_contravar; lra. }
  pose proof (Rabs_pos (atan (rho * sin t / (1 - rho * cos t)))).
  apply Rle_trans with (/ 10 ^ 15 * (4 / 3) * (3 / 8)).
  - apply Rmult_le_compat; [lra|apply Rlt_le, Rinv_0_lt_compat; lra|lra|lra].
  - lra.
Qed.

(** The quantile function inverts the exact distribution function to 1e-15. *)
Lemma wc_ppf_inverse mu rho q : 0 <= rho < 1 -> / 10 ^ 15 < q < 1 - / 10 ^ 15 ->
  0 <= wc_ppf mu rho q < 2 * PI /\ Rabs (wcI mu rho (wc_ppf mu rho q) - q) <= / 10 ^ 15.
Proof.
  intros H Hq. pose proof PI2_pos as Hp2. pose proof PI_pos as Hp. pose proof tiny15 as T.
  destruct (Rle_dec rho (/ 10 ^ 15)) as [Hr|Hr].
  - unfold wc_ppf.
    destruct (Rleb_spec q 0); [lra|]. destruct (Rleb_spec 1 q); [lra|]. destruct (Rleb_spec rho (/ 10 ^ 15)); [|lra].
    rewrite pymod_small by (split; nra). split; [split; nra|].
    pose proof (wcF_near rho (2 * PI * q - mu) ltac:(lra)) as K1.
    pose proof (wcF_near rho (- mu) ltac:(lra)) as K2.
    unfold wcI.
    apply Rabs_le. apply abs_le_inv in K1. apply abs_le_inv in K2.
    assert (E : (2 * PI * q - mu) / (2 * PI) = q + - mu / (2 * PI)) by (field; lra).
    rewrite E in K1. lra.
  - destruct (wc_ppf_level mu rho q H ltac:(lra) ltac:(lra)) as [Rx [e [He [[k Ek] _]]]].
    split; [exact Rx|]. pose proof (wcI_range mu rho _ H Rx) as RI.
    apply abs_le_inv in He.
    assert (k = 0)%Z as -> by (apply int_zero; lra).
    apply Rabs_le. lra.
Qed.

(** ... exactly when the level is not clipped. *)
Lemma wc_ppf_exact mu rho q : 0 <= rho < 1 -> / 10 ^ 15 < rho -> 0 < q < 1 ->
  / 10 ^ 15 <= pymod (1 / 2 + wcF rho (- mu) + q) 1 <= 1 - / 10 ^ 15 ->
  wcI mu rho (wc_ppf mu rho q) = q.
Proof.
  intros H Hr Hq Hs. destruct (wc_ppf_level mu rho q H Hr Hq) as [Rx [e [He [[k Ek] Z]]]].
  rewrite (Z Hs) in Ek. pose proof (wcI_range mu rho _ H Rx) as RI.
  assert (k = 0)%Z as -> by (apply int_zero; lra). lra.
Qed.
Lemma wcI_inj mu rho x y : 0 <= rho < 1 -> wcI mu rho x = wcI mu rho y -> x = y.
Proof.
  intros H E. destruct (Rtotal_order x y) as [L|[L|L]]; [|exact L|].
  - pose proof (wcI_lt mu rho x y H L). lra.
  - pose proof (wcI_lt mu rho y x H L). lra.
Qed.
Lemma wc_ppf_exact2 mu rho x : 0 <= rho < 1 -> / 10 ^ 15 < rho -> 0 < x < 2 * PI ->
  / 10 ^ 15 <= pymod (1 / 2 + wcF rho (x - mu)) 1 <= 1 - / 10 ^ 15 ->
  wc_ppf mu rho (wcI mu rho x) = x.
Proof.
  intros H Hr Hx Hs. apply (wcI_inj mu rho); [exact H|]. apply wc_ppf_exact; try assumption.
  - pose proof (wcI_lt mu rho 0 x H ltac:(lra)). pose proof (wcI_lt mu rho x (2 * PI) H ltac:(lra)).
    rewrite wcI_0 in *. rewrite wcI_2pi in *. lra.
  - unfold wcI. replace (1 / 2 + wcF rho (- mu) + (wcF rho (x - mu) - wcF rho (- mu))) with (1 / 2 + wcF rho (x - mu)) by ring.
    exact Hs.
Qed.

(** The round trip through the public functions. *)
Lemma wc_roundtrip mu rho q : wc_ok mu rho = true -> ftiny <= rho <= 1 - / 10 ^ 15 ->
  / 10 ^ 15 < q < 1 - 2 / 10 ^ 12 ->
  exists x, public_ppf (wc_ok mu rho) (wc_ppf mu rho) q = Fin x /\ 0 <= x < 2 * PI /\
    (x <= 2 * PI - 9 / 100000 ->
     exists v, public_cdf (wc_ok mu rho) (wc_cdf mu rho) x = Fin v /\ Rabs (v - q) <= / 10 ^ 15).
Proof.
  intros Hok Hr Hq. pose proof (wc_ok_spec _ _ Hok) as [Hm H]. rewrite Hok.
  pose proof tiny15 as T. pose proof PI_gt3 as P3. pose proof PI_4 as P4.
  assert (T12 : 0 < / 10 ^ 12) by (apply Rinv_0_lt_compat; lra).
  assert (T12' : / 10 ^ 15 < / 10 ^ 12) by (apply Rinv_lt_contravar; lra).
  destruct (wc_ppf_inverse mu rho q H ltac:(lra)) as [Rx E].
  exists (wc_ppf mu rho q). unfold public_ppf. cbn [negb].
  destruct (Rltb_spec 0 q); [|lra]. destruct (Rltb_spec q 1); [|lra]. cbn [andb].
  split; [reflexivity|]. split; [exact Rx|]. intros Hx.
  set (x := wc_ppf mu rho q) in *. apply abs_le_inv in E.
  rewrite public_cdf_fin. eexists. split; [reflexivity|].
  unfold pub_F. rewrite wrap_in by lra. destruct (Rleb_spec (2 * PI) x); [lra|].
  assert (x <> 0) as Nx.
  { intros Z. rewrite Z, wcI_0 in E. lra. }
  destruct (Rltb_spec 0 x); [|lra].
  rewrite wc_cdf_exact; try assumption.
  - apply Rabs_le. lra.
  - destruct (close_2pi x) eqn:C; [|reflexivity]. apply close_2pi_spec in C; lra.
  - lra.
Qed.

Lemma wc_roundtrip_fails : exists mu rho q x,
  wc_ok mu rho = true /\ 0 < q < 1 /\
  public_ppf (wc_ok mu rho) (wc_ppf mu rho) q = Fin x /\
  public_cdf (wc_ok mu rho) (wc_cdf mu rho) x = Fin (q + 1 / 4).
Proof.
  pose proof PI_gt3 as P3. pose proof PI_4 as P4. pose proof tiny15 as T.
  set (rho := 1 - / 100000). exists 0, rho, (3 / 4).
  set (b := atan ((1 - rho) / (1 + rho))).
  assert (Hb : 0 < b <= / 100000).
  { assert (Z : 0 < (1 - rho) / (1 + rho) <= / 100000).
    { unfold rho. split; [apply Rdiv_lt_0_compat; lra|]. apply (Rmult_le_reg_r (1 + (1 - / 100000))); [lra|].
      unfold Rdiv. rewrite Rmult_assoc, Rinv_l by lra. lra. }
    pose proof (atan_le ((1 - rho) / (1 + rho)) ltac:(lra)). unfold b. split; [|lra].
    rewrite <- atan_0. apply atan_increasing. lra. }
  exists (2 * PI - 2 * b).
  assert (Hok : wc_ok 0 rho = true).
  { unfold wc_ok, rho. repeat (apply andb_true_intro; split); try (apply Rleb_true); try (apply Rltb_true); lra. }
  split; [exact Hok|]. rewrite Hok. split; [lra|].
  assert (H : 0 <= rho < 1) by (unfold rho; lra).
  split.
  - unfold public_ppf. cbn [negb]. destruct (Rltb_spec 0 (3 / 4)); [|lra]. destruct (Rltb_spec (3 / 4) 1); [|lra].
    cbn [andb]. f_equal. unfold wc_ppf.
    destruct (Rleb_spec (3 / 4) 0); [lra|]. destruct (Rleb_spec 1 (3 / 4)); [lra|].
    destruct (Rleb_spec rho (/ 10 ^ 15)); [unfold rho in *; lra|]. cbv zeta.
    rewrite (pymod_small 0) by lra.
    assert (C : centre (- 0) = 0) by (unfold centre; rewrite pymod_small; lra). rewrite C.
    rewrite wc_H_F by lra.
    assert (W : wcF rho 0 = 0).
    { unfold wcF. rewrite sin_0. replace (rho * 0 / (1 - rho * cos 0)) with 0 by (unfold Rdiv; ring). rewrite atan_0. unfold Rdiv. ring. }
    rewrite W. replace (1 / 2 + 0 + 3 / 4) with (1 / 4 + 1 * IZR 1) by field. rewrite (pymod_add (1 / 4)) by lra. rewrite (pymod_small (1 / 4)) by lra.
    rewrite clip_in by lra. replace (PI * (1 / 4 - 1 / 2)) with (- (PI / 4)) by field.
    rewrite tan_neg, tan_PI4.
    replace (- (1) / ((1 + rho) / (1 - rho))) with (- ((1 - rho) / (1 + rho))) by (field; unfold rho; lra).
    rewrite atan_opp. fold b. replace (0 + 2 * - b) with (2 * PI - 2 * b + 2 * PI * IZR (-1)) by ring.
    rewrite pymod_add by lra. apply pymod_small. lra.
  - rewrite public_cdf_fin. f_equal. unfold pub_F. rewrite wrap_in by lra.
    destruct (Rleb_spec (2 * PI) (2 * PI - 2 * b)); [lra|]. destruct (Rltb_spec 0 (2 * PI - 2 * b)); [|lra].
    rewrite wc_cdf_window by lra. field.
Qed.
