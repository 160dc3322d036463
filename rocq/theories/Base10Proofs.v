From Verif Require Import Prelude NpModel NpProofs CircleSpec UtilsModel UtilsProofs DescModel DescProofs
  DescSpec DescApi DescApi2 Desc2Model Desc2Proofs Desc2Spec ArcProofs Desc3Proofs Desc4Proofs Desc5Proofs Desc6Proofs Desc7Proofs Desc8Proofs Desc2Ex HypModel HypProofs
  BaseModel BaseSpec BaseProofs Base2Proofs Base3Proofs Base4Proofs Base5Proofs.
Open Scope R_scope.

(** * C169: the bootstrap interval does not turn with the data *)
Lemma nsort_repeat a n : nsort (repeat a n) = repeat a n.
Proof.
  induction n; [reflexivity|]. cbn [repeat nsort]. rewrite IHn. destruct n; [reflexivity|]. cbn [repeat insert].
  destruct (Rleb_spec a a); [reflexivity|lra].
Qed.
Lemma nth_repeat_in (a d : R) n i : (i < n)%nat -> nth i (repeat a n) d = a.
Proof. revert i. induction n; intros i H; [lia|]. destruct i; [reflexivity|]. cbn. apply IHn. lia. Qed.
Lemma hdi_const a n ci : 0 <= a < 2 * PI -> 0 < ci < 1 -> compute_hdi (repeat a (S n)) ci = Ok (a, a).
Proof.
  intros Ha Hc. pose proof PI_RGT_0. unfold compute_hdi.
  destruct (Rltb_spec 0 ci); [|lra]. destruct (Rltb_spec ci 1); [|lra]. cbn [andb negb].
  rewrite repeat_map, angmod0_id, nsort_repeat by lra. rewrite repeat_length. cbv zeta.
  set (win := Nat.min _ _). assert (W : (1 <= win <= S n)%nat) by (unfold win; lia).
  cbn [repeat]. fold (repeat a n). change (a :: repeat a n) with (repeat a (S n)). rewrite repeat_map.
  set (ext := (repeat a (S n) ++ repeat (a + 2 * PI) (S n))%list).
  assert (X : forall i, (i < 2 * S n)%nat -> nth i ext 0 = a \/ nth i ext 0 = a + 2 * PI).
  { intros i Hi. unfold ext. destruct (Nat.lt_ge_cases i (S n)).
    - left. rewrite app_nth1 by (rewrite repeat_length; lia). now apply nth_repeat_in.
    - right. rewrite app_nth2 by (rewrite repeat_length; lia). rewrite repeat_length. apply nth_repeat_in. lia. }
  assert (F : forall l, Forall (fun i => (i < S n)%nat) l -> fold_left (hdi_step (repeat a (S n)) ext win) l (Some 0, (a, a)) = (Some 0, (a, a))).
  { induction 1 as [|i t Hi Ht IH]; [reflexivity|]. cbn [fold_left]. unfold hdi_step at 2. cbv zeta. cbn [fst].
    rewrite (nth_repeat_in a 0 (S n) i Hi). destruct (X (i + win - 1)%nat) as [-> | ->]; [lia| |];
    (match goal with |- context [Rltb ?y 0] => destruct (Rltb_spec y 0); [lra|] end; exact IH). }
  assert (F0 : hdi_step (repeat a (S n)) ext win (None, (a, a)) 0 = (Some 0, (a, a))).
  { unfold hdi_step. cbv zeta. cbn [fst]. rewrite (nth_repeat_in a 0 (S n) 0) by lia. unfold ext. rewrite app_nth1 by (rewrite repeat_length; lia).
    rewrite nth_repeat_in by lia. replace (a - a) with 0 by ring. reflexivity. }
  cbn [seq fold_left]. rewrite F0, F.
  - cbn [snd fst]. rewrite angmod0_id by lra. reflexivity.
  - apply Forall_forall. intros i Hi. apply in_seq in Hi. lia.
Qed.
Lemma map_res_const {A B} (f : A -> res B) a b n : f a = Ok b -> map_res f (repeat a n) = Ok (repeat b n).
Proof. intros E. induction n; [reflexivity|]. cbn [repeat map_res]. rewrite E. cbn [bind]. rewrite IHn. reflexivity. Qed.
Lemma boot_const alpha row n a : alpha <> [] -> exp (- (INR (length alpha) * circ_r alpha None ^ 2)) <= 5/100 -> 0 <= a < 2 * PI ->
  circ_mean_resample (moments_of alpha) (boot_v0 (moments_of alpha)) row = Ok a ->
  ci_bootstrap alpha (repeat row (S n)) (95/100) = Ok (a, a).
Proof.
  intros Hn Hp Ha E. unfold ci_bootstrap. destruct alpha as [|x t]; [congruence|]. set (al := x :: t) in *.
  destruct (Rltb_spec (5/100) (exp (- (INR (length al) * circ_r al None ^ 2)))); [lra|].
  rewrite (map_res_const _ _ _ (S n) E). cbn [bind]. rewrite hdi_const by lra. cbn [bind fst snd].
  destruct (match circ_mean _ _ with Fin _ => _ | _ => _ end); reflexivity.
Qed.
Lemma mean_repeat z n : mean (repeat z (S n)) = z.
Proof.
  unfold mean. rewrite repeat_length. assert (E : Rsum (repeat z (S n)) = INR (S n) * z).
  { generalize (S n). induction n0; [cbn; ring|]. cbn [repeat]. rewrite Rsum_cons, IHn0, S_INR. ring. }
  rewrite E. field. apply not_0_INR. lia.
Qed.
Lemma moments_repeat a n : moments_of (repeat a (S n)) = {| mo_z1 := cos a; mo_z2 := sin a; mo_u11 := 0; mo_u22 := 0; mo_u12 := 0 |}.
Proof.
  unfold moments_of. rewrite !repeat_map, !mean_repeat. f_equal; ring.
Qed.
Definition K0 : R := / sqrt (/ 10 ^ 15).
Lemma K0_big : 10 <= K0.
Proof.
  assert (P : 0 < sqrt (/ 10 ^ 15)) by (apply sqrt_lt_R0, Rinv_0_lt_compat, pow_lt; lra).
  assert (Q : sqrt (/ 10 ^ 15) <= / 10).
  { rewrite <- (sqrt_square (/ 10)) by lra. apply sqrt_le_1_alt. replace (/ 10 * / 10) with (/ 10 ^ 2) by lra.
    apply Rinv_le_contravar; [lra|]. apply Rle_pow; [lra|lia]. }
  unfold K0. replace 10 with (/ / 10) at 1 by (apply Rinv_inv). now apply Rinv_le_contravar.
Qed.
Lemma wB_zero z1 z2 : boot_wB {| mo_z1 := z1; mo_z2 := z2; mo_u11 := 0; mo_u22 := 0; mo_u12 := 0 |} = (K0, 0, K0).
Proof.
  unfold boot_wB, beta_of, form1, form2. cbn [mo_u11 mo_u22 mo_u12]. rewrite isclose_0, Rabs_R0.
  destruct (Rleb_spec 0 (/ 100000000)) as [|L]; [|assert (0 < / 100000000) by (apply Rinv_0_lt_compat; lra); lra].
  replace (0 ^ 2 * 0 + 2 * 0 * 0 + 0) with 0 by ring. replace (0 - 2 * 0 * 0 + 0 ^ 2 * 0) with 0 by ring.
  replace (1 + 0 ^ 2) with 1 by ring. rewrite sqrt_1.
  assert (P : 0 < / 10 ^ 15) by (apply Rinv_0_lt_compat, pow_lt; lra).
  rewrite Rmax_right by lra. unfold from_axes. replace (1 / sqrt (/ 10 ^ 15)) with K0 by (unfold K0, Rdiv; ring).
  replace (0 ^ 2) with 0 by ring. f_equal; [f_equal|]; field.
Qed.
(** The direction of a resample with all observations at a. *)
Lemma resample_diag m0 v1 v2 a n : let c := mo_z1 m0 + v1 * K0 * (cos a - mo_z1 m0) in
  let s := mo_z2 m0 + v2 * K0 * (sin a - mo_z2 m0) in 1 <= hypot c s ->
  exists d, circ_mean_resample m0 (v1, 0, v2) (repeat a (S n)) = Ok d /\ 0 <= d < 2 * PI /\
    c = hypot c s * cos d /\ s = hypot c s * sin d.
Proof.
  cbv zeta. set (c := mo_z1 m0 + _). set (s := mo_z2 m0 + _). intros H.
  unfold circ_mean_resample. rewrite moments_repeat, wB_zero. cbn [mo_z1 mo_z2]. cbv zeta.
  replace (mo_z1 m0 + ((v1 * K0 + 0 * 0) * (cos a - mo_z1 m0) + (v1 * 0 + 0 * K0) * (sin a - mo_z2 m0))) with c by (unfold c; ring).
  replace (mo_z2 m0 + ((0 * K0 + v2 * 0) * (cos a - mo_z1 m0) + (0 * 0 + v2 * K0) * (sin a - mo_z2 m0))) with s by (unfold s; ring).
  set (h := hypot c s) in *. rewrite isclose_0, Rabs_pos_eq by lra.
  destruct (Rleb_spec h (/ 100000000)) as [L|_]; [exfalso; assert (/ 100000000 < 1) by (rewrite <- Rinv_1; apply Rinv_lt_contravar; lra); lra|].
  eexists. split; [reflexivity|]. split; [apply angmod0_range|].
  rewrite (same_dir_cos _ _ (angmod0_same_dir _)), (same_dir_sin _ _ (angmod0_same_dir _)).
  assert (E : h * h = c * c + s * s) by (unfold h, hypot; apply sqrt_sqrt; nra).
  assert (N1 : (c / h) * (c / h) + (s / h) * (s / h) = 1) by (replace 1 with (h * h / (h * h)) by (field; lra); rewrite E at 1; field; lra).
  destruct (arctan2_polar (s / h) (c / h)) as (A1 & A2).
  { destruct (Req_dec (c / h) 0) as [Z|]; [|auto]. right. intros Z'. rewrite Z, Z' in N1. lra. }
  rewrite N1, sqrt_1, Rmult_1_l in A1, A2. rewrite <- A1, <- A2. split; field; lra.
Qed.
Definition boot_sample : list R := (repeat 0%R 6 ++ [PI / 2; 3 * PI / 2])%list.
Lemma boot_moments : moments_of boot_sample = {| mo_z1 := 3/4; mo_z2 := 0; mo_u11 := 3/16; mo_u22 := 1/4; mo_u12 := 0 |}.
Proof.
  assert (S3 : sin (3 * PI / 2) = -1 /\ cos (3 * PI / 2) = 0).
  { replace (3 * PI / 2) with (3 * (PI / 2)) by field. split; [apply sin_3PI2|apply cos_3PI2]. }
  assert (Z1 : mean (map cos boot_sample) = 3/4).
  { unfold mean, boot_sample. cbn [repeat app map length]. rewrite !Rsum_cons, Rsum_nil, cos_0, cos_PI2, (proj2 S3). cbn [INR]. lra. }
  assert (Z2 : mean (map sin boot_sample) = 0).
  { unfold mean, boot_sample. cbn [repeat app map length]. rewrite !Rsum_cons, Rsum_nil, sin_0, sin_PI2, (proj1 S3). cbn [INR]. lra. }
  unfold moments_of. rewrite Z1, Z2. unfold mean, boot_sample. cbn [repeat app map length]. rewrite !Rsum_cons, !Rsum_nil, cos_0, sin_0, cos_PI2, sin_PI2, (proj1 S3), (proj2 S3).
  cbn [INR]. f_equal; lra.
Qed.
Definition h2 : R := 1 / sqrt 2.
Lemma h2_sq : h2 * h2 = 1/2.
Proof. unfold h2. replace (1 / sqrt 2 * (1 / sqrt 2)) with (1 / (sqrt 2 * sqrt 2)) by (field; apply Rgt_not_eq, sqrt_lt_R0; lra). rewrite sqrt_sqrt; lra. Qed.
Lemma boot_moments_turned : moments_of (map (fun a => a + PI / 4) boot_sample) =
  {| mo_z1 := 3/4 * h2; mo_z2 := 3/4 * h2; mo_u11 := 7/32; mo_u22 := 7/32; mo_u12 := -1/32 |}.
Proof.
  pose proof h2_sq as Q.
  assert (C0 : cos (0 + PI / 4) = h2 /\ sin (0 + PI / 4) = h2) by (rewrite Rplus_0_l, cos_PI4, sin_PI4; auto).
  assert (C1 : cos (PI / 2 + PI / 4) = - h2 /\ sin (PI / 2 + PI / 4) = h2).
  { rewrite cos_plus, sin_plus, cos_PI2, sin_PI2, cos_PI4, sin_PI4. unfold h2. split; ring. }
  assert (C3 : cos (3 * PI / 2 + PI / 4) = h2 /\ sin (3 * PI / 2 + PI / 4) = - h2).
  { replace (3 * PI / 2) with (3 * (PI / 2)) by field. rewrite cos_plus, sin_plus, cos_3PI2, sin_3PI2, cos_PI4, sin_PI4. unfold h2. split; ring. }
  destruct C0 as (c0 & s0), C1 as (c1 & s1), C3 as (c3 & s3).
  unfold moments_of, mean, boot_sample. cbn [repeat app map length]. rewrite !Rsum_cons, !Rsum_nil, c0, s0, c1, s1, c3, s3. cbn [INR].
  f_equal; try lra; nra.
Qed.
Lemma boot_r : circ_r boot_sample None = 3/4.
Proof.
  unfold circ_r. cbn [weights]. destruct (ones_sums boot_sample) as (E1 & E2 & E3).
  pose proof boot_moments as M. unfold moments_of, mean in M. pose proof (f_equal mo_z1 M) as M1. pose proof (f_equal mo_z2 M) as M2. cbn [mo_z1 mo_z2] in M1, M2.
  rewrite !map_length in M1, M2. change (length boot_sample) with 8%nat in *. cbn [INR] in M1, M2.
  rewrite circ_r_s_eq by (rewrite E3; cbn; lra). unfold Rlen. rewrite E1, E2, E3.
  replace (Rsum (map cos boot_sample)) with 6 by lra. replace (Rsum (map sin boot_sample)) with 0 by lra.
  replace (6 * 6 + 0 * 0) with (6 * 6) by ring. rewrite sqrt_square by lra. cbn [INR]. lra.
Qed.

Lemma boot_p : exp (- (INR (length boot_sample) * circ_r boot_sample None ^ 2)) <= 5/100.
Proof.
  rewrite boot_r. change (length boot_sample) with 8%nat. replace (INR 8) with 8 by (cbn; lra).
  replace (- (8 * (3/4) ^ 2)) with (- (9/2)) by field. rewrite exp_Ropp.
  assert (E2 : 3 <= exp 2) by (pose proof (exp_ineq1 2 ltac:(lra)); lra).
  assert (E4 : 9 <= exp 4) by (replace 4 with (2 + 2) by lra; rewrite exp_plus; nra).
  assert (E1 : 1 + 1/2 < exp (1/2)) by (apply exp_ineq1; lra).
  assert (E6 : 9/4 <= exp 1) by (replace 1 with (1/2 + 1/2) by lra; rewrite exp_plus; nra).
  assert (E7 : 25 <= exp 4).
  { replace 4 with (1 + 1 + (1 + 1)) by lra. rewrite !exp_plus.
    assert (81/16 <= exp 1 * exp 1) by nra. nra. }
  assert (20 <= exp (9/2)) by (replace (9/2) with (4 + 1/2) by lra; rewrite exp_plus; nra).
  replace (5/100) with (/ 20) by lra. apply Rinv_le_contravar; lra.
Qed.
Lemma v0_diag z1 z2 u11 u22 : 0 <= u11 -> 0 <= u22 ->
  boot_v0 {| mo_z1 := z1; mo_z2 := z2; mo_u11 := u11; mo_u22 := u22; mo_u12 := 0 |} = (sqrt u11, 0, sqrt u22).
Proof.
  intros H1 H2. unfold boot_v0, beta_of, form1, form2. cbn [mo_u11 mo_u22 mo_u12]. rewrite isclose_0, Rabs_R0.
  destruct (Rleb_spec 0 (/ 100000000)) as [|L]; [|assert (0 < / 100000000) by (apply Rinv_0_lt_compat; lra); lra].
  replace (0 ^ 2 * u11 + 2 * 0 * 0 + u22) with u22 by ring. replace (u11 - 2 * 0 * 0 + 0 ^ 2 * u22) with u11 by ring.
  replace (1 + 0 ^ 2) with 1 by ring. rewrite sqrt_1, !Rmax_left by lra. unfold from_axes. replace (0 ^ 2) with 0 by ring.
  f_equal; [f_equal|]; field.
Qed.
Lemma v0_turned z1 z2 : boot_v0 {| mo_z1 := z1; mo_z2 := z2; mo_u11 := 7/32; mo_u22 := 7/32; mo_u12 := -1/32 |} = (sqrt (7/32), 0, sqrt (7/32)).
Proof.
  assert (B : beta_of {| mo_z1 := z1; mo_z2 := z2; mo_u11 := 7/32; mo_u22 := 7/32; mo_u12 := -1/32 |} = 0).
  { unfold beta_of. cbn [mo_u11 mo_u22 mo_u12]. destruct (isclose (-1/32) 0); [reflexivity|].
    replace (7/32 - 7/32) with 0 by ring. cbv zeta. replace (0 ^ 2 / (4 * (-1/32) ^ 2 + 1)) with 0 by (unfold Rdiv; ring). rewrite sqrt_0. unfold Rdiv. ring. }
  unfold boot_v0. rewrite B. unfold form1, form2. cbn [mo_u11 mo_u22 mo_u12].
  replace (0 ^ 2 * (7/32) + 2 * 0 * (-1/32) + 7/32) with (7/32) by ring. replace (7/32 - 2 * 0 * (-1/32) + 0 ^ 2 * (7/32)) with (7/32) by ring.
  replace (1 + 0 ^ 2) with 1 by ring. rewrite sqrt_1, !Rmax_left by lra. unfold from_axes. replace (0 ^ 2) with 0 by ring.
  f_equal; [f_equal|]; field.
Qed.
Lemma hypot_ge_abs x y : Rabs x <= hypot x y /\ Rabs y <= hypot x y.
Proof.
  unfold hypot. split; rewrite <- sqrt_Rsqr_abs; apply sqrt_le_1_alt; unfold Rsqr; nra.
Qed.
(** Every one of the B resamples consists of the observation at a quarter turn. *)
Lemma boot_not_turned n : exists d d',
  ci_bootstrap boot_sample (repeat (repeat (PI / 2) 8) (S n)) (95/100) = Ok (d, d) /\
  ci_bootstrap (map (fun a => a + PI / 4) boot_sample) (map (map (fun a => a + PI / 4)) (repeat (repeat (PI / 2) 8) (S n))) (95/100) = Ok (d', d') /\
  0 <= d < 2 * PI /\ 0 <= d' < 2 * PI /\ ~ same_dir d' (d + PI / 4).
Proof.
  pose proof K0_big as HK. pose proof h2_sq as Hh. pose proof PI_RGT_0 as P0.
  assert (Hh0 : 0 < h2) by (unfold h2, Rdiv; rewrite Rmult_1_l; apply Rinv_0_lt_compat, sqrt_lt_R0; lra).
  assert (Hh1 : 7/10 < h2 < 71/100) by nra.
  set (q := sqrt (7/32)). assert (Q0 : 0 <= q) by apply sqrt_pos. assert (Q2 : q * q = 7/32) by (apply sqrt_sqrt; lra).
  assert (Q1 : 46/100 < q < 47/100) by nra.
  set (p := sqrt (3/16)). assert (P1 : 0 <= p) by apply sqrt_pos. assert (P2 : p * p = 3/16) by (apply sqrt_sqrt; lra).
  assert (P3 : 43/100 < p < 434/1000) by nra.
  assert (S4 : sqrt (1/4) = 1/2) by (replace (1/4) with (1/2 * (1/2)) by lra; apply sqrt_square; lra).
  assert (C1 : cos (PI / 2 + PI / 4) = - h2 /\ sin (PI / 2 + PI / 4) = h2).
  { rewrite cos_plus, sin_plus, cos_PI2, sin_PI2, cos_PI4, sin_PI4. unfold h2. split; ring. }
  pose proof (resample_diag (moments_of boot_sample) p (1/2) (PI / 2) 7) as D. rewrite boot_moments in D. cbn [mo_z1 mo_z2] in D. rewrite cos_PI2, sin_PI2 in D.
  cbv zeta in D. set (c1 := 3/4 + p * K0 * (0 - 3/4)) in *. set (s1 := 0 + 1/2 * K0 * (1 - 0)) in *.
  destruct D as (d & D1 & D2 & D3 & D4).
  { destruct (hypot_ge_abs c1 s1) as (_ & L). rewrite Rabs_pos_eq in L by (unfold s1; lra). unfold s1 in L at 1. lra. }
  pose proof (resample_diag (moments_of (map (fun a => a + PI / 4) boot_sample)) q q (PI / 2 + PI / 4) 7) as D. rewrite boot_moments_turned in D. cbn [mo_z1 mo_z2] in D. rewrite (proj1 C1), (proj2 C1) in D.
  cbv zeta in D. set (c2 := 3/4 * h2 + q * K0 * (- h2 - 3/4 * h2)) in *. set (s2 := 3/4 * h2 + q * K0 * (h2 - 3/4 * h2)) in *.
  assert (Kq : 0 < K0 * q) by nra.
  destruct D as (d' & E1 & E2 & E3 & E4).
  { destruct (hypot_ge_abs c2 s2) as (_ & L). assert (1 <= s2) by (unfold s2; nra). rewrite Rabs_pos_eq in L; lra. }
  exists d, d'. split; [|split; [|split; [exact D2|split; [exact E2|]]]].
  - apply boot_const; [discriminate|exact boot_p|exact D2|]. rewrite boot_moments, v0_diag, S4 by lra. exact D1.
  - rewrite repeat_map. rewrite (repeat_map (fun a => a + PI / 4)).
    apply boot_const; [discriminate| |exact E2|].
    + rewrite map_length, api_rot; [exact boot_p|]. split; [discriminate|exact I].
    + rewrite boot_moments_turned, v0_turned. exact E1.
  - intros S. pose proof (same_dir_cos _ _ S) as Sc. pose proof (same_dir_sin _ _ S) as Ss.
    rewrite cos_plus, cos_PI4, sin_PI4 in Sc. rewrite sin_plus, cos_PI4, sin_PI4 in Ss. fold h2 in Sc, Ss.
    set (H1 := hypot c1 s1) in *. set (H2 := hypot c2 s2) in *.
    assert (X : s2 * (c1 - s1) = c2 * (c1 + s1)).
    { rewrite E3, E4, Sc, Ss. rewrite D3, D4 at 1. rewrite D3, D4 at 1. ring. }
    assert (Y : s2 * (c1 - s1) - c2 * (c1 + s1) = h2 * K0 * (3/2 * q - 3/4 + q * K0 * (3/4 - 3/2 * p))) by (unfold s2, c2, c1, s1; field).
    assert (0 < q * K0 * (3/4 - 3/2 * p) - 3/4 + 3/2 * q).
    { assert (46/10 <= q * K0) by nra. nra. }
    assert (0 < h2 * K0) by nra.
    assert (0 < h2 * K0 * (3/2 * q - 3/4 + q * K0 * (3/4 - 3/2 * p))) by (apply Rmult_lt_0_compat; lra). lra.
Qed.
(** The reported interval contains the mean of the bootstrap directions. *)
Lemma boot_contains alpha draws ci samples lo up m :
  map_res (circ_mean_resample (moments_of alpha) (boot_v0 (moments_of alpha))) draws = Ok samples ->
  ci_bootstrap alpha draws ci = Ok (lo, up) -> circ_mean samples None = Fin m -> ~ same_dir lo up -> on_ccw_arc m lo up.
Proof.
  intros Es E Em Hd. unfold ci_bootstrap in E. destruct alpha as [|x t]; [discriminate|].
  destruct (Rltb _ _); [discriminate|]. rewrite Es in E. cbn [bind] in E.
  destruct (compute_hdi samples ci) as [[l u]|] eqn:Eh; [|discriminate]. cbn [bind fst snd] in E. rewrite Em in E.
  destruct (is_within_circular_range m l u) eqn:W; injection E as <- <-.
  - now apply is_within_ccw.
  - apply is_within_ccw. apply is_within_flip; [exact W|]. intros D. apply Hd. now apply same_dir_sym.
Qed.
