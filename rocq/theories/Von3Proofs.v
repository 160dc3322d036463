(** Accuracy of the von Mises distribution function. *)
From Verif Require Import Prelude NpModel NpProofs CircleSpec IntSpec IntProofs DistModel DistSpec DistProofs Dist2Proofs Dist4Proofs Dist5Proofs
  Dist6Proofs Dist7Proofs Dist8Proofs KjProofs Kj2Proofs VonModel VonSpec VonProofs Von2Proofs.

(** ** Integrals under shifts *)
Lemma int_shift_to f m a b v : a <= b -> (forall x, continuity_pt f x) -> integral f (a - m) (b - m) v -> integral (fun x => f (x - m)) a b v.
Proof.
  intros L C Hv. destruct (primitive_exists f (a - m) (b - m)) as [Q HQ]; [lra|auto|].
  assert (I2 : integral f (a - m) (b - m) (Q (b - m) - Q (a - m))) by (apply ftc; [lra|auto|exact HQ]).
  rewrite (integral_unique _ _ _ _ _ Hv I2). apply (ftc _ (fun x => Q (x - m))); [exact L|intros; apply continuity_shift; apply C|].
  intros x Hx. eapply dlim_eq; [|apply (dlim_comp Q (fun x => x - m)); [apply dlim_affine_c|apply HQ; lra]]. ring.
Qed.
Lemma int_turns f (z : Z) a b v : a <= b -> (forall x, continuity_pt f x) -> (forall x, f (x + 2 * PI * IZR z) = f x) ->
  integral f (a + 2 * PI * IZR z) (b + 2 * PI * IZR z) v -> integral f a b v.
Proof.
  intros L C P Hv. apply (integral_ext (fun x => f (x - - (2 * PI * IZR z)))); [exact L|intros x _; rewrite <- (P x); f_equal; ring|].
  apply int_shift_to; [exact L|exact C|]. replace (a - - (2 * PI * IZR z)) with (a + 2 * PI * IZR z) by ring. replace (b - - (2 * PI * IZR z)) with (b + 2 * PI * IZR z) by ring. exact Hv.
Qed.
Lemma int_turn f c v : (forall x, continuity_pt f x) -> (forall x (z : Z), f (x + 2 * PI * IZR z) = f x) ->
  integral f 0 (2 * PI) v -> integral f c (c + 2 * PI) v.
Proof.
  intros C P Hv. pose proof PI2_pos as Hp. pose proof (pymod_range (- c) (2 * PI) Hp) as M. destruct (pymod_cong (- c) (2 * PI)) as [z Hz].
  set (m := pymod (- c) (2 * PI)) in *.
  apply (int_turns f z); [lra|exact C|intros; apply P|].
  replace (c + 2 * PI * IZR z) with (0 - m) by lra. replace (c + 2 * PI + 2 * PI * IZR z) with (2 * PI - m) by lra.
  assert (S : integral (fun x => f (x - m)) 0 (2 * PI) v).
  { apply integral_shift; [lra|exact C|intros x; replace (x + 2 * PI) with (x + 2 * PI * IZR 1) by ring; apply P|exact Hv]. }
  destruct (continuous_integral f (0 - m) (2 * PI - m)) as [w W]; [lra|intros; apply C|].
  rewrite (integral_unique _ _ _ _ _ S (int_shift_to f m 0 (2 * PI) w ltac:(lra) C W)). exact W.
Qed.
Lemma vE_turns k x (z : Z) : vE k (x + 2 * PI * IZR z) = vE k x.
Proof. unfold vE. rewrite cos_turns. reflexivity. Qed.

(** ** The loop *)
Definition vc (iv : nat -> R -> R) (k : R) (n : nat) : R := iv n k / (iv 0%nat k * INR n).
Lemma von_loop_some iv k phi base : forall fuel n s sb a b, von_loop iv k phi base fuel n s sb = Some (a, b) ->
  exists j, (j < fuel)%nat /\ Rabs (vc iv k (n + j)) < / 10 ^ 12 /\
    a = s + Rsum (map (fun m => vc iv k m * sin (INR m * phi)) (seq n (S j))) /\
    b = sb + Rsum (map (fun m => vc iv k m * sin (INR m * base)) (seq n (S j))).
Proof.
  induction fuel as [|fuel IH]; intros n s sb a b E; [discriminate|]. cbn [von_loop] in E. fold (vc iv k n) in E.
  destruct (Rltb _ _ && Rltb (Rabs (vc iv k n)) _) eqn:Ec.
  - injection E as <- <-. exists O. rewrite Nat.add_0_r. apply andb_prop in Ec as [_ Ec]. apply Rltb_true in Ec.
    split; [lia|]. split; [exact Ec|]. cbn [seq map]. unfold Rsum. cbn [fold_right]. split; ring.
  - apply IH in E as (j & Hj & Hc & Ea & Eb). exists (S j). replace (n + S j)%nat with (S n + j)%nat by lia.
    split; [lia|]. split; [exact Hc|]. rewrite Ea, Eb.
    change (seq n (S (S j))) with (n :: seq (S n) (S j)). cbn [map]. unfold Rsum at 2 4. cbn [fold_right]. split; unfold Rsum; ring.
Qed.
Lemma von_loop_conv iv k phi base : forall fuel n s sb N, (n <= N < n + fuel)%nat -> Rabs (vc iv k N) < / 10 ^ 12 ->
  von_loop iv k phi base fuel n s sb <> None.
Proof.
  induction fuel as [|fuel IH]; intros n s sb N HN Hc; [lia|]. cbn [von_loop]. fold (vc iv k n).
  destruct (Rltb _ _ && Rltb (Rabs (vc iv k n)) _) eqn:Ec; [discriminate|].
  destruct (Nat.eq_dec n N) as [->|Hn]; [|apply (IH (S n) _ _ N); [lia|exact Hc]].
  exfalso. rewrite andb_false_iff in Ec. destruct Ec as [Ec|Ec]; apply Rltb_false in Ec; [|lra].
  assert (Rabs (vc iv k N * sin (INR N * phi)) <= Rabs (vc iv k N)); [|lra].
  rewrite Rabs_mult. pose proof (SIN_bound (INR N * phi)). assert (Rabs (sin (INR N * phi)) <= 1) by (apply Rabs_le; lra).
  pose proof (Rabs_pos (vc iv k N)). pose proof (Rabs_pos (sin (INR N * phi))). nra.
Qed.
Lemma vc_pos iv k n : is_iv iv -> 0 < k -> (1 <= n)%nat -> 0 < vc iv k n.
Proof.
  intros H Hk Hn. apply Rdiv_lt_0_compat; [apply iv_pos; assumption|]. apply Rmult_lt_0_compat; [apply i0_pos; exact H|apply lt_0_INR; lia].
Qed.
Lemma von_converges iv k phi base : is_iv iv -> 0 < k <= 460 -> von_loop iv k phi base 500 1 0 0 <> None.
Proof.
  intros H Hk. pose proof (i0_pos iv k H) as I0. apply (von_loop_conv iv k phi base 500 1 0 0 500); [lia|].
  rewrite Rabs_right by (left; apply vc_pos; [exact H|lra|lia]). unfold vc.
  assert (I5 : INR 500 = 500) by (rewrite INR_IZR_INZ; reflexivity). rewrite I5.
  assert (R4 : vr iv k 460 <= 1 / 2).
  { pose proof (vr_lt iv k 460 H ltac:(lra)) as B. assert (E : INR 461 = 461) by (rewrite INR_IZR_INZ; reflexivity). rewrite E in B. lra. }
  pose proof (vr_pos iv k 460 H ltac:(lra)) as R0.
  pose proof (iv_geom iv k 460 40 H ltac:(lra)) as G. replace (460 + 40)%nat with 500%nat in G by reflexivity.
  assert (I46 : iv 460%nat k <= iv 0%nat k) by (pose proof (iv_abs iv 460 k H); pose proof (Rle_abs (iv 460%nat k)); lra).
  pose proof (iv_pos iv 460 k H ltac:(lra)) as P46.
  assert (P40 : vr iv k 460 ^ 40 <= / 2 ^ 40).
  { replace (/ 2 ^ 40) with ((1 / 2) ^ 40) by (replace (1 / 2) with (/ 2) by lra; rewrite pow_inv by lra; reflexivity). apply pow_incr. lra. }
  assert (B : iv 500%nat k <= iv 0%nat k * / 2 ^ 40).
  { eapply Rle_trans; [exact G|]. apply Rmult_le_compat; [lra|apply pow_le; lra|exact I46|exact P40]. }
  apply Rmult_lt_reg_r with (iv 0%nat k * 500); [lra|].
  replace (iv 500%nat k / (iv 0%nat k * 500) * (iv 0%nat k * 500)) with (iv 500%nat k) by (field; lra).
  assert (/ 2 ^ 40 < / 10 ^ 12 * 500) by lra. nra.
Qed.
(** When the loop stops, the ratio of consecutive terms is at most 24/25. *)
Lemma stop_ratio iv k N : is_iv iv -> 0 < k -> (1 <= N <= 500)%nat -> vc iv k N < / 10 ^ 12 -> vr iv k N <= 24 / 25.
Proof.
  intros H Hk HN Hc. destruct (Rle_dec (vr iv k N) (24 / 25)) as [L|L]; [exact L|exfalso].
  pose proof (iv_geom_below iv k N H Hk) as G. pose proof (i0_pos iv k H) as I0.
  assert (PN : 0 < INR N) by (apply lt_0_INR; lia).
  assert (N5 : INR N <= 500) by (replace 500 with (INR 500) by (rewrite INR_IZR_INZ; reflexivity); apply le_INR; lia).
  assert (A : (24 / 25) ^ 500 <= vr iv k N ^ N).
  { eapply Rle_trans; [|apply (pow_incr (24 / 25)); lra].
    replace 500%nat with (N + (500 - N))%nat by lia. rewrite pow_add. pose proof (pow_le (24 / 25) N ltac:(lra)).
    assert (0 <= (24 / 25) ^ (500 - N) <= 1) by (split; [apply pow_le; lra|rewrite <- (pow1 (500 - N)); apply pow_incr; lra]). nra. }
  assert (B : / 10 ^ 12 * 500 <= (24 / 25) ^ 500).
  { replace 500%nat with (20 * 25)%nat by reflexivity. rewrite pow_mult.
    apply Rle_trans with ((44 / 100) ^ 25); [lra|]. apply pow_incr. lra. }
  assert (C : iv N k < / 10 ^ 12 * (iv 0%nat k * INR N)).
  { unfold vc in Hc. apply (Rmult_lt_compat_r (iv 0%nat k * INR N)) in Hc; [|nra].
    replace (iv N k / (iv 0%nat k * INR N) * (iv 0%nat k * INR N)) with (iv N k) in Hc by (field; lra). exact Hc. }
  assert (iv 0%nat k * (/ 10 ^ 12 * 500) <= iv 0%nat k * vr iv k N ^ N) by (apply Rmult_le_compat_l; lra).
  assert (/ 10 ^ 12 * (iv 0%nat k * INR N) <= iv 0%nat k * (/ 10 ^ 12 * 500)).
  { replace (/ 10 ^ 12 * (iv 0%nat k * INR N)) with (iv 0%nat k * (/ 10 ^ 12 * INR N)) by ring.
    apply Rmult_le_compat_l; [lra|]. apply Rmult_le_compat_l; lra. }
  lra.
Qed.
Lemma raw_vA iv k N t : is_iv iv ->
  t / (2 * PI) + 1 / PI * Rsum (map (fun m => vc iv k m * sin (INR m * t)) (seq 1 N)) = vA iv k N t / (2 * PI * iv 0%nat k).
Proof.
  intros H. pose proof (i0_pos iv k H) as I0. pose proof PI_pos.
  assert (E : Rsum (map (fun m => vc iv k m * sin (INR m * t)) (seq 1 N)) = / iv 0%nat k * Rsum (map (fun n => iv n k / INR n * sin (INR n * t)) (seq 1 N))).
  { rewrite <- Rsum_scal_map. apply Rsum_ext_map. intros m Hm. apply in_seq in Hm. unfold vc.
    assert (INR m <> 0) by (apply not_0_INR; lia). field. split; [assumption|lra]. }
  rewrite E. unfold vA. field. split; lra.
Qed.
Lemma clip_near a v e : 0 <= v <= 1 -> Rabs (a - v) <= e -> Rabs (clip a 0 1 - v) <= e.
Proof.
  intros Hv Ha. apply abs_le_inv in Ha. unfold clip, Rmin, Rmax. apply Rabs_le.
  destruct (Rle_dec a 0); destruct (Rle_dec _ 1); lra.
Qed.
Lemma vE_le k t : 0 < k -> vE k t <= exp k.
Proof.
  intros Hk. unfold vE. pose proof (COS_bound t). assert (L : k * cos t <= k) by nra.
  destruct L as [L|L]; [left; apply exp_increasing; exact L|rewrite L; right; reflexivity].
Qed.
Lemma von_pdf_shift iv mu k x : von_pdf iv mu k x = / (2 * PI * iv 0%nat k) * vE k (x - mu).
Proof. unfold von_pdf, vE, Rdiv. ring. Qed.
(** The distribution function through the primitive of exp(k cos). *)
Lemma von_int iv mu k a b w : is_iv iv -> a <= b -> integral (vE k) (a - mu) (b - mu) w ->
  integral (von_pdf iv mu k) a b (w / (2 * PI * iv 0%nat k)).
Proof.
  intros H L W. apply (integral_ext (fun x => / (2 * PI * iv 0%nat k) * vE k (x - mu))); [exact L|intros; symmetry; apply von_pdf_shift|].
  eapply integral_val; [|apply integral_scal; [exact L|apply int_shift_to; [exact L|apply vE_cont|exact W]]]. unfold Rdiv. ring.
Qed.
Lemma vE_int_pos k a b w : a <= b -> integral (vE k) a b w -> 0 <= w.
Proof.
  intros L W. apply (integral_le (fun _ => 0) (vE k) a b) with (v := 0 * (b - a)) in W; [lra|exact L| |apply integral_const].
  intros; left; apply vE_pos.
Qed.
Lemma von_cdf_acc iv num mu k x v : is_iv iv -> von_ok mu k = true -> 0 < x < 2 * PI -> close_2pi x = false -> / 10 ^ 9 <= k ->
  (460 < k -> Rabs (num x mu k - v) <= / 10 ^ 10) ->
  integral (von_pdf iv mu k) 0 x v -> Rabs (von_cdf iv num mu k x - v) <= / 10 ^ 10.
Proof.
  intros H Hok Hx Hcl Hk Hnum Hv. unfold von_ok in Hok. rewrite !andb_true_iff, !Rleb_true, Rltb_true in Hok. destruct Hok as [[Hm0 Hm1] Hk0].
  pose proof PI_gt3 as P3. pose proof (i0_pos iv k H) as I0.
  unfold von_cdf. rewrite (proj2 (Rltb_false k _)) by lra. cbv zeta. fold (centre (x - mu)) (centre (- mu)). rewrite Hcl.
  destruct (centre_spec (x - mu)) as [Rp [zp Ep]]. destruct (centre_spec (- mu)) as [Rb [zb Eb]].
  set (phi := centre (x - mu)) in *. set (base := centre (- mu)) in *.
  destruct (von_loop iv k phi base 500 1 0 0) as [[sum sumb]|] eqn:El.
  2:{ destruct (Rlt_dec 460 k) as [K|K]; [apply Hnum; exact K|]. exfalso. revert El. apply von_converges; [exact H|lra]. }
  apply von_loop_some in El as (j & Hj & Hc & Es & Esb). rewrite Rplus_0_l in Es, Esb.
  replace (1 + j)%nat with (S j) in Hc by lia. set (N := S j) in *.
  rewrite Rabs_right in Hc by (left; apply vc_pos; [exact H|exact Hk0|lia]).
  pose proof (stop_ratio iv k N H Hk0 ltac:(lia) Hc) as Hr.
  set (raw := 1 / 2 + phi / (2 * PI) + 1 / PI * sum). set (b := 1 / 2 + base / (2 * PI) + 1 / PI * sumb).
  assert (Er : raw = 1 / 2 + vA iv k N phi / (2 * PI * iv 0%nat k)) by (unfold raw; rewrite Es, Rplus_assoc; unfold N; rewrite raw_vA by exact H; reflexivity).
  assert (Ebb : b = 1 / 2 + vA iv k N base / (2 * PI * iv 0%nat k)) by (unfold b; rewrite Esb, Rplus_assoc; unfold N; rewrite raw_vA by exact H; reflexivity).
  assert (P2 : 0 < 2 * PI * iv 0%nat k) by nra.
  assert (NN : INR N <> 0) by (apply not_0_INR; lia).
  assert (Acc : forall lo hi w, - PI <= lo -> lo <= hi -> hi < PI -> integral (vE k) lo hi w ->
            Rabs ((vA iv k N hi - vA iv k N lo) / (2 * PI * iv 0%nat k) - w / (2 * PI * iv 0%nat k)) <= / 10 ^ 10).
  { intros lo hi w L1 L2 L3 W. pose proof (vA_err iv k N (24 / 25) lo hi w H Hk0 ltac:(lia) Hr ltac:(lra) ltac:(lra) L2 ltac:(lra) W) as B.
    replace ((vA iv k N hi - vA iv k N lo) / (2 * PI * iv 0%nat k) - w / (2 * PI * iv 0%nat k))
      with ((vA iv k N hi - vA iv k N lo - w) / (2 * PI * iv 0%nat k)) by (field; lra).
    unfold Rdiv at 1. rewrite Rabs_mult, Rabs_inv, (Rabs_right (2 * PI * iv 0%nat k)) by lra.
    apply Rmult_le_reg_r with (2 * PI * iv 0%nat k); [exact P2|]. rewrite Rmult_assoc, Rinv_l, Rmult_1_r by lra.
    eapply Rle_trans; [exact B|].
    replace (iv N k / INR N) with (vc iv k N * iv 0%nat k) by (unfold vc; field; split; lra).
    assert (0 < vc iv k N) by (apply vc_pos; [exact H|exact Hk0|lia]).
    apply Rle_trans with (/ 10 ^ 12 * iv 0%nat k * 96); [|nra]. nra. }
  assert (Range : forall lo hi w, - PI <= lo -> lo <= hi -> hi < PI -> integral (vE k) lo hi w -> 0 <= w / (2 * PI * iv 0%nat k) <= 1).
  { intros lo hi w L1 L2 L3 W. pose proof (vE_int_pos k lo hi w L2 W) as W0.
    destruct (continuous_integral (vE k) hi (lo + 2 * PI)) as [w' W']; [lra|intros; apply vE_cont|].
    pose proof (vE_int_pos k hi (lo + 2 * PI) w' ltac:(lra) W') as W0'.
    pose proof (integral_unique _ _ _ _ _ (integral_split _ _ _ _ _ _ W W') (int_turn (vE k) lo _ (vE_cont k) (vE_turns k) (i0_int iv k H))) as E.
    split; [apply Rmult_le_pos; [exact W0|left; apply Rinv_0_lt_compat; exact P2]|].
    apply Rmult_le_reg_r with (2 * PI * iv 0%nat k); [exact P2|]. unfold Rdiv. rewrite Rmult_assoc, Rinv_l by lra. lra. }
  destruct (Rleb base phi) eqn:Eo.
  - apply Rleb_true in Eo. destruct (continuous_integral (vE k) base phi) as [w W]; [exact Eo|intros; apply vE_cont|].
    assert (Ez : zp = zb).
    { assert (A : 2 * PI * IZR (zp - zb) = x - (phi - base)) by (rewrite minus_IZR; lra).
      destruct (Z.eq_dec (zp - zb) 0) as [Z0|Z0]; [lia|exfalso]. destruct (Z_lt_le_dec (zp - zb) 0) as [Z1|Z1].
      - assert (IZR (zp - zb) <= -1) by (apply IZR_le; lia). nra.
      - assert (1 <= IZR (zp - zb)) by (apply IZR_le; lia). nra. }
    assert (Ev : v = w / (2 * PI * iv 0%nat k)).
    { eapply integral_unique; [exact Hv|]. apply von_int; [exact H|lra|]. replace (0 - mu) with (- mu) by ring. rewrite Ep, Eb, Ez.
      apply (int_turns _ (- zb)); [lra|apply vE_cont|intros; apply vE_turns|].
      rewrite opp_IZR. replace (base + 2 * PI * IZR zb + 2 * PI * - IZR zb) with base by ring. replace (phi + 2 * PI * IZR zb + 2 * PI * - IZR zb) with phi by ring. exact W. }
    pose proof (Range base phi w ltac:(lra) Eo ltac:(lra) W) as Rg. rewrite <- Ev in Rg.
    pose proof (Acc base phi w ltac:(lra) Eo ltac:(lra) W) as B. rewrite <- Ev in B.
    apply clip_near; [exact Rg|]. apply clip_near; [exact Rg|]. rewrite Er, Ebb.
    replace (1 / 2 + vA iv k N phi / (2 * PI * iv 0%nat k) - (1 / 2 + vA iv k N base / (2 * PI * iv 0%nat k)))
      with ((vA iv k N phi - vA iv k N base) / (2 * PI * iv 0%nat k)) by (field; lra). exact B.
  - apply Rleb_false in Eo. destruct (continuous_integral (vE k) phi base) as [w W]; [lra|intros; apply vE_cont|].
    destruct (continuous_integral (vE k) base (phi + 2 * PI)) as [w' W']; [lra|intros; apply vE_cont|].
    assert (Ez : zp = (zb + 1)%Z).
    { assert (A : 2 * PI * IZR (zp - zb - 1) = x - (phi - base) - 2 * PI) by (rewrite !minus_IZR; lra).
      destruct (Z.eq_dec (zp - zb - 1) 0) as [Z0|Z0]; [lia|exfalso]. destruct (Z_lt_le_dec (zp - zb - 1) 0) as [Z1|Z1].
      - assert (IZR (zp - zb - 1) <= -1) by (apply IZR_le; lia). nra.
      - assert (1 <= IZR (zp - zb - 1)) by (apply IZR_le; lia). nra. }
    assert (Ev : v = w' / (2 * PI * iv 0%nat k)).
    { eapply integral_unique; [exact Hv|]. apply von_int; [exact H|lra|]. replace (0 - mu) with (- mu) by ring. rewrite Ep, Eb, Ez, plus_IZR.
      apply (int_turns _ (- zb)); [lra|apply vE_cont|intros; apply vE_turns|].
      rewrite opp_IZR. replace (base + 2 * PI * IZR zb + 2 * PI * - IZR zb) with base by ring. replace (phi + 2 * PI * (IZR zb + 1) + 2 * PI * - IZR zb) with (phi + 2 * PI) by ring. exact W'. }
    pose proof (integral_unique _ _ _ _ _ (integral_split _ _ _ _ _ _ W W') (int_turn (vE k) phi _ (vE_cont k) (vE_turns k) (i0_int iv k H))) as E.
    pose proof (Range phi base w ltac:(lra) ltac:(lra) ltac:(lra) W) as Rg.
    pose proof (Acc phi base w ltac:(lra) ltac:(lra) ltac:(lra) W) as B.
    assert (Ev2 : v = 1 - w / (2 * PI * iv 0%nat k)) by (rewrite Ev; replace w' with (2 * PI * iv 0%nat k - w) by lra; field; lra).
    set (q := w / (2 * PI * iv 0%nat k)) in *.
    apply clip_near; [lra|]. replace (1 - clip (b - raw) 0 1 - v) with (- (clip (b - raw) 0 1 - q)) by lra. rewrite Rabs_Ropp.
    apply clip_near; [exact Rg|]. rewrite Er, Ebb.
    replace (1 / 2 + vA iv k N base / (2 * PI * iv 0%nat k) - (1 / 2 + vA iv k N phi / (2 * PI * iv 0%nat k)))
      with ((vA iv k N base - vA iv k N phi) / (2 * PI * iv 0%nat k)) by (field; lra). exact B.
Qed.
