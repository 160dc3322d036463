(** wrapstable: rotations and reflections, the wrapped Cauchy and wrapped normal cases. *)
From Verif Require Import Prelude NpModel NpProofs UtilsModel UtilsProofs DescModel DescProofs CircleSpec IntSpec IntProofs DistModel DistSpec DistProofs Dist2Proofs Dist4Proofs Dist5Proofs
  Dist6Proofs Dist7Proofs Dist8Proofs KjProofs Kj2Proofs Kj6Proofs Kj7Proofs Von5Proofs Von6Proofs WnModel WnProofs GaussProofs Wn3Proofs WsModel WsSpec WsProofs Ws2Proofs Ws3Proofs.

(** ** Rotations and reflections *)
Lemma ws_mu_rot d a b g t p : ws_mu (d + t) a b g p = ws_mu d a b g p + t * INR p.
Proof. unfold ws_mu. destruct (Rleb _ _); ring. Qed.
Lemma ws_mu_ref d a b g p : ws_mu (- d) a (- b) g p = - ws_mu d a b g p.
Proof. unfold ws_mu. destruct (Rleb _ _); ring. Qed.
Lemma ws_pdf_rot d a b g t x : ws_pdf (d + t) a b g (x + t) = ws_pdf d a b g x.
Proof. unfold ws_pdf. do 3 f_equal. apply Rsum_ext_map. intros p _. rewrite ws_mu_rot. do 2 f_equal. ring. Qed.
Lemma ws_pdf_ref d a b g x : ws_pdf (- d) a (- b) g (- x) = ws_pdf d a b g x.
Proof. unfold ws_pdf. do 3 f_equal. apply Rsum_ext_map. intros p _. rewrite ws_mu_ref, <- cos_neg. do 2 f_equal. ring. Qed.
Lemma ws_pdf_turns d a b g x k : ws_pdf d a b g (x + 2 * PI * IZR k) = ws_pdf d a b g x.
Proof.
  unfold ws_pdf. do 3 f_equal. apply Rsum_ext_map. intros p _. f_equal.
  replace (INR p * (x + 2 * PI * IZR k) - ws_mu d a b g p) with (INR p * x - ws_mu d a b g p + 2 * PI * IZR (Z.of_nat p * k)) by (rewrite mult_IZR, <- INR_IZR_INZ; ring).
  apply NpProofs.cos_turns.
Qed.
Lemma ws_pub d a b g x : ws_ok d a b g = true -> public_pdf (ws_ok d a b g) (ws_pdf d a b g) x = Fin (ws_pdf d a b g x).
Proof. intros ->. rewrite public_pdf_fin. destruct (wrap_same x) as [k ->]. rewrite ws_pdf_turns. reflexivity. Qed.
Lemma ws_public_rot d a b g t x : ws_ok d a b g = true -> ws_ok (d + t) a b g = true ->
  public_pdf (ws_ok (d + t) a b g) (ws_pdf (d + t) a b g) (x + t) = public_pdf (ws_ok d a b g) (ws_pdf d a b g) x.
Proof. intros H1 H2. rewrite !ws_pub by assumption. rewrite ws_pdf_rot. reflexivity. Qed.
Lemma ws_public_ref d a b g x : ws_ok d a b g = true ->
  public_pdf (ws_ok (2 * PI - d) a (- b) g) (ws_pdf (2 * PI - d) a (- b) g) (- x) = public_pdf (ws_ok d a b g) (ws_pdf d a b g) x.
Proof.
  intros H. destruct (ws_ok_spec _ _ _ _ H) as (H1 & H2 & H3 & H4). rewrite !ws_pub; [|exact H|apply ws_ok_intro; lra].
  rewrite <- (ws_pdf_ref d), <- (ws_pdf_rot (- d) a (- b) g (2 * PI) (- x)). replace (- d + 2 * PI) with (2 * PI - d) by ring.
  replace (- x + 2 * PI) with (- x + 2 * PI * IZR 1) by ring. rewrite ws_pdf_turns. reflexivity.
Qed.
Lemma ws_linear_rot d a b g t V W : ws_linear (d + t) a b g V W = ws_linear d a b g V W + t.
Proof. unfold ws_linear. cbv zeta. destruct (Rltb _ _); ring. Qed.
Lemma ws_linear_ref d a b g V W : ws_linear (- d) a (- b) g (- V) W = - ws_linear d a b g V W.
Proof.
  unfold ws_linear. cbv zeta. destruct (Rltb _ _).
  - set (tt := tan (1 / 2 * PI * a)). replace (- b * tt) with (- (b * tt)) by ring. rewrite atan_opp. set (t0 := atan (b * tt)).
    replace (a * (- V + - t0 / a)) with (- (a * (V + t0 / a))) by (unfold Rdiv; ring). rewrite sin_neg.
    replace (- V - - (a * (V + t0 / a))) with (- (V - a * (V + t0 / a))) by ring. rewrite !cos_neg.
    replace ((- (b * tt)) ^ 2) with ((b * tt) ^ 2) by ring. unfold Rdiv. ring.
  - rewrite tan_neg, cos_neg. replace (- b * - V) with (b * V) by ring. ring.
Qed.
Lemma ws_rvs_rot d a b g t V W : ws_rvs (d + t) a b g V W = pymod (ws_rvs d a b g V W + t) (2 * PI).
Proof.
  unfold ws_rvs. rewrite ws_linear_rot. apply same_dir_pymod. destruct (pymod_same_dir (ws_linear d a b g V W)) as [k H]. exists (- k)%Z. rewrite H, opp_IZR. ring.
Qed.
Lemma ws_rvs_ref d a b g V W : ws_rvs (2 * PI - d) a (- b) g (- V) W = pymod (- ws_rvs d a b g V W) (2 * PI).
Proof.
  unfold ws_rvs. replace (2 * PI - d) with (- d + 2 * PI) by ring. rewrite ws_linear_rot, ws_linear_ref. apply same_dir_pymod.
  destruct (pymod_same_dir (ws_linear d a b g V W)) as [k H]. exists (k + 1)%Z. rewrite H, plus_IZR. ring.
Qed.

(** ** The wrapped Cauchy case *)
Lemma poisson_finite r t P : (1 + 2 * Rsum (map (fun p => r ^ p * cos (INR p * t)) (seq 1 P))) * (1 + r ^ 2 - 2 * r * cos t)
  = 1 - r ^ 2 - 2 * r ^ (P + 1) * cos (INR P * t + t) + 2 * r ^ (P + 2) * cos (INR P * t).
Proof.
  induction P as [|P IH].
  - cbn [seq map INR]. change (Rsum []) with 0. rewrite Rmult_0_l, Rplus_0_l, cos_0. simpl. ring.
  - rewrite seq_S, map_app, Rsum_app. cbn [map]. replace (Rsum [r ^ (1 + P) * cos (INR (1 + P) * t)]) with (r ^ (P + 1) * cos (INR P * t + t)).
    2:{ change (1 + P)%nat with (S P). rewrite S_INR. replace ((INR P + 1) * t) with (INR P * t + t) by ring. replace (P + 1)%nat with (S P) by lia. cbn. ring. }
    set (z := Rsum (map _ (seq 1 P))) in *.
    replace ((1 + 2 * (z + r ^ (P + 1) * cos (INR P * t + t))) * (1 + r ^ 2 - 2 * r * cos t))
      with ((1 + 2 * z) * (1 + r ^ 2 - 2 * r * cos t) + 2 * r ^ (P + 1) * cos (INR P * t + t) * (1 + r ^ 2 - 2 * r * cos t)) by ring.
    rewrite IH. rewrite S_INR. replace ((INR P + 1) * t + t) with (INR P * t + t + t) by ring. replace ((INR P + 1) * t) with (INR P * t + t) by ring.
    replace (S P + 1)%nat with (P + 2)%nat by lia. replace (S P + 2)%nat with (P + 3)%nat by lia. rewrite !pow_add.
    set (A := INR P * t + t). assert (EA : cos (INR P * t) = cos A * cos t + sin A * sin t).
    { rewrite <- cos_minus. f_equal. unfold A. ring. }
    rewrite EA, (cos_plus A t). simpl. ring.
Qed.
Lemma poisson_tail r t P : 0 < r < 1 ->
  Rabs ((1 + 2 * Rsum (map (fun p => r ^ p * cos (INR p * t)) (seq 1 P))) / (2 * PI) - (1 - r ^ 2) / (2 * PI * (1 + r ^ 2 - 2 * r * cos t))) <= r ^ (P + 1) / (PI * (1 - r)).
Proof.
  intros Hr. pose proof PI_gt3 as P3. pose proof (COS_bound t) as [C1 C2]. set (D := 1 + r ^ 2 - 2 * r * cos t).
  assert (HD : (1 - r) ^ 2 <= D) by (unfold D; nra). assert (D0 : 0 < D) by nra.
  pose proof (poisson_finite r t P) as E. fold D in E. set (z := Rsum _) in *. set (A := INR P * t) in *.
  replace ((1 + 2 * z) / (2 * PI) - (1 - r ^ 2) / (2 * PI * D)) with (((1 + 2 * z) * D - (1 - r ^ 2)) / (2 * PI * D)) by (field; lra).
  rewrite E. replace (1 - r ^ 2 - 2 * r ^ (P + 1) * cos (A + t) + 2 * r ^ (P + 2) * cos A - (1 - r ^ 2)) with (2 * r ^ (P + 1) * (r * cos A - cos (A + t))) by (rewrite !pow_add; ring).
  set (B := r * cos A - cos (A + t)).
  assert (HB : B ^ 2 <= D).
  { unfold B. rewrite cos_plus. replace (r * cos A - (cos A * cos t - sin A * sin t)) with ((r - cos t) * cos A + sin t * sin A) by ring.
    pose proof (sin2_cos2 A) as Q1. pose proof (sin2_cos2 t) as Q2. unfold Rsqr in *. 
    assert (ED : D = (r - cos t) ^ 2 + sin t ^ 2) by (unfold D; nra). rewrite ED.
    pose proof (pow2_ge_0 ((r - cos t) * sin A - sin t * cos A)) as Q3.
    replace ((r - cos t) ^ 2 + sin t ^ 2) with (((r - cos t) ^ 2 + sin t ^ 2) * (sin A * sin A + cos A * cos A)) by (rewrite Q1; ring). nra. }
  assert (R0 : 0 < r ^ (P + 1)) by (apply pow_lt; lra). set (q := r ^ (P + 1)) in *.
  assert (Sb : Rabs B * (1 - r) <= D).
  { assert (0 < sqrt D) by (apply sqrt_lt_R0; exact D0). assert (S2 : sqrt D * sqrt D = D) by (apply sqrt_sqrt; lra).
    assert (1 - r <= sqrt D). { apply Rsqr_incr_0; unfold Rsqr; [|lra|lra]. rewrite S2. replace ((1 - r) * (1 - r)) with ((1 - r) ^ 2) by ring. exact HD. }
    assert (Rabs B <= sqrt D). { apply Rsqr_incr_0; unfold Rsqr; [|apply Rabs_pos|lra]. rewrite S2, <- Rabs_mult, Rabs_pos_eq; [lra|nra]. }
    pose proof (Rabs_pos B). rewrite <- S2. apply Rmult_le_compat; lra. }
  unfold Rdiv. rewrite Rabs_mult, Rabs_inv, !Rabs_mult. rewrite (Rabs_pos_eq q), (Rabs_pos_eq 2), (Rabs_pos_eq PI), (Rabs_pos_eq D) by lra.
  apply (Rmult_le_reg_r (2 * PI * D * (1 - r))); [apply Rmult_lt_0_compat; [apply Rmult_lt_0_compat|]; lra|].
  replace (2 * q * Rabs B * / (2 * PI * D) * (2 * PI * D * (1 - r))) with (2 * q * (Rabs B * (1 - r))) by (field; lra).
  replace (q * / (PI * (1 - r)) * (2 * PI * D * (1 - r))) with (2 * q * D) by (field; lra). apply Rmult_le_compat_l; lra.
Qed.
Lemma ws_cauchy d g x u v : ws_ok d 1 0 g = true -> 12 * ln 10 <= g * 20000 ->
  public_pdf (ws_ok d 1 0 g) (ws_pdf d 1 0 g) x = Fin u -> public_pdf (wc_ok d (exp (- g))) (wc_pdf d (exp (- g))) x = Fin v ->
  Rabs (u - v) <= / 10 ^ 12 / (PI * (1 - exp (- g))).
Proof.
  intros Hok Hg Eu Ev. destruct (ws_ok_spec _ _ _ _ Hok) as (Hd & _ & _ & Hg0). set (r := exp (- g)) in *.
  assert (Hr : 0 < r < 1). { unfold r. split; [apply exp_pos|]. rewrite <- exp_0. apply exp_increasing. lra. }
  assert (Hwc : wc_ok d r = true). { unfold wc_ok. rewrite !andb_true_iff, ?Rleb_true, ?Rltb_true. lra. }
  rewrite ws_pub in Eu by exact Hok. rewrite Hwc, public_pdf_fin in Ev. destruct (wrap_same x) as [k Ek]. rewrite Ek, wc_pdf_turns in Ev. injection Eu as <-. injection Ev as <-.
  rewrite ws_pdf_eq. unfold spoly. set (P := ws_order 1 g). pose proof PI_gt3 as P3.
  assert (Rp : forall p, (1 <= p)%nat -> ws_rho 1 g p = r ^ p).
  { intros p Hp. apply le_INR in Hp. change (INR 1) with 1 in Hp. unfold ws_rho. rewrite Rpower_1 by (apply Rmult_lt_0_compat; lra). unfold r. rewrite exp_pow. f_equal. ring. }
  rewrite (Rsum_ext_map _ (fun p => r ^ p * cos (INR p * (x - d)))).
  2:{ intros p I. apply in_seq in I. rewrite Rp by lia. f_equal. f_equal. unfold ws_mu. destruct (Rleb _ _); ring. }
  assert (T : r ^ (P + 1) <= / 10 ^ 12).
  { destruct (ws_order_spec 1 g ltac:(lra) Hg0) as [O1 O2]. fold P in O1, O2. rewrite pow_add. simpl (r ^ 1). rewrite Rmult_1_r.
    assert (Q : ws_rho 1 g P <= / 10 ^ 12). { apply O2. apply ws_reach. rewrite Rpower_1 by lra. exact Hg. }
    rewrite Rp in Q by lia. assert (0 < r ^ P) by (apply pow_lt; lra). nra. }
  eapply Rle_trans; [|apply Rmult_le_compat_r; [left; apply Rinv_0_lt_compat, Rmult_lt_0_compat; lra|exact T]].
  replace (wc_pdf d r x) with ((1 - r ^ 2) / (2 * PI * (1 + r ^ 2 - 2 * r * cos (x - d)))); [apply poisson_tail; exact Hr|].
  unfold wc_pdf. pose proof (COS_bound (x - d)). assert (0 < 1 + r ^ 2 - 2 * r * cos (x - d)) by nra. field. repeat split; lra.
Qed.

(** ** The wrapped normal case *)
Lemma sq_pow_gap r (k j : nat) : 0 <= r <= 1 -> r ^ ((k + j) ^ 2) <= r ^ (k ^ 2) * r ^ j.
Proof. intros H. rewrite <- pow_add. apply pow_mono_dec; [exact H|]. simpl. nia. Qed.
Lemma sq_tail r t k n : 0 < r < 1 -> (1 <= k)%nat ->
  Rabs (Rsum (map (fun p => r ^ (p ^ 2) * cos (INR p * t)) (seq k n))) <= r ^ (k ^ 2) * (1 - r ^ n) / (1 - r).
Proof.
  intros Hr Hk. induction n as [|n IH]; [cbn; rewrite Rabs_R0; right; field; lra|]. rewrite seq_S, map_app, Rsum_app. cbn [map].
  replace (Rsum [r ^ ((k + n) ^ 2) * cos (INR (k + n) * t)]) with (r ^ ((k + n) ^ 2) * cos (INR (k + n) * t)) by (cbn [Rsum fold_right]; unfold Rsum; cbn; ring).
  eapply Rle_trans; [apply Rabs_triang|]. rewrite Rabs_mult. assert (R0 : 0 < r ^ ((k + n) ^ 2)) by (apply pow_lt; lra). rewrite (Rabs_pos_eq (r ^ _)) by lra.
  pose proof (COS_bound (INR (k + n) * t)) as C. assert (Rabs (cos (INR (k + n) * t)) <= 1) by (apply Rabs_le; lra).
  pose proof (sq_pow_gap r k n ltac:(lra)) as G. replace (r ^ (k ^ 2) * (1 - r ^ S n) / (1 - r)) with (r ^ (k ^ 2) * (1 - r ^ n) / (1 - r) + r ^ (k ^ 2) * r ^ n) by (cbn [pow]; field; lra).
  apply Rplus_le_compat; [exact IH|]. nra.
Qed.
Lemma sq_two r t m n : 0 < r < 1 -> (m <= n)%nat ->
  Rabs (Rsum (map (fun p => r ^ (p ^ 2) * cos (INR p * t)) (seq 1 n)) - Rsum (map (fun p => r ^ (p ^ 2) * cos (INR p * t)) (seq 1 m))) <= r ^ ((S m) ^ 2) / (1 - r).
Proof.
  intros Hr L. replace n with (m + (n - m))%nat by lia. rewrite seq_app, map_app, Rsum_app.
  match goal with |- Rabs (?a + ?b - ?a) <= _ => replace (a + b - a) with b by ring end.
  eapply Rle_trans; [apply sq_tail; [exact Hr|lia]|]. unfold Rdiv. rewrite Rmult_assoc. change (1 + m)%nat with (S m).
  assert (0 < r ^ (S m ^ 2)) by (apply pow_lt; lra). apply Rmult_le_compat_l; [lra|]. assert (0 < r ^ (n - m)) by (apply pow_lt; lra).
  assert (0 < / (1 - r)) by (apply Rinv_0_lt_compat; lra). nra.
Qed.
Lemma ws_normal d b g x u v : ws_ok d 2 b g = true -> 12 * ln 10 <= (g * 20000) ^ 2 ->
  public_pdf (ws_ok d 2 b g) (ws_pdf d 2 b g) x = Fin u -> public_pdf (wn_ok d (exp (- g ^ 2))) (wn_pdf d (exp (- g ^ 2))) x = Fin v ->
  Rabs (u - v) <= (/ 10 ^ 12 + exp (- g ^ 2) ^ 900) / (PI * (1 - exp (- g ^ 2))).
Proof.
  intros Hok Hg Eu Ev. destruct (ws_ok_spec _ _ _ _ Hok) as (Hd & _ & _ & Hg0). set (r := exp (- g ^ 2)) in *. pose proof PI_gt3 as P3.
  assert (Hr : 0 < r < 1). { unfold r. split; [apply exp_pos|]. rewrite <- exp_0. apply exp_increasing. nra. }
  assert (Hwn : wn_ok d r = true) by (apply wn_ok_intro; lra).
  rewrite ws_pub in Eu by exact Hok. rewrite Hwn, public_pdf_fin in Ev. destruct (wrap_same x) as [k Ek].
  assert (Wt : wn_pdf d r (wrap_angles x) = wn_pdf d r x).
  { rewrite Ek. unfold wn_pdf. do 3 f_equal. apply Rsum_ext_map. intros p _. f_equal.
    replace (INR p * (x + 2 * PI * IZR k - d)) with (INR p * (x - d) + 2 * PI * IZR (Z.of_nat p * k)) by (rewrite mult_IZR, <- INR_IZR_INZ; ring). apply NpProofs.cos_turns. }
  rewrite Wt in Ev. injection Eu as <-. injection Ev as <-.
  rewrite ws_pdf_eq. unfold spoly, wn_pdf. set (P := ws_order 2 g).
  assert (Pw : forall z, 0 < z -> Rpower z 2 = z ^ 2). { intros z Hz. rewrite <- Rpower_pow by exact Hz. reflexivity. }
  assert (Rp : forall p, (1 <= p)%nat -> ws_rho 2 g p = r ^ (p ^ 2)).
  { intros p Hp. apply le_INR in Hp. change (INR 1) with 1 in Hp. unfold ws_rho. rewrite Pw by (apply Rmult_lt_0_compat; lra). unfold r. rewrite exp_pow, pow_INR. f_equal. ring. }
  rewrite (Rsum_ext_map _ (fun p => r ^ (p ^ 2) * cos (INR p * (x - d)))).
  2:{ intros p I. apply in_seq in I. rewrite Rp by lia. rewrite ws_mu_two. f_equal. f_equal. ring. }
  set (t := x - d). set (A := Rsum (map _ (seq 1 P))). set (B := Rsum (map _ (seq 1 29))).
  replace ((1 + 2 * A) / (2 * PI) - (1 + 2 * B) / (2 * PI)) with ((A - B) / PI) by (field; lra).
  assert (K : Rabs (A - B) <= (/ 10 ^ 12 + r ^ 900) / (1 - r)).
  { assert (T0 : 0 < / 10 ^ 12) by (apply Rinv_0_lt_compat, pow_lt; lra). assert (R9 : 0 < r ^ 900) by (apply pow_lt; lra). assert (I0 : 0 < / (1 - r)) by (apply Rinv_0_lt_compat; lra).
    destruct (le_lt_dec 29 P) as [L|L].
    - eapply Rle_trans; [apply sq_two; [exact Hr|exact L]|]. change (30 ^ 2)%nat with 900%nat. unfold Rdiv. apply Rmult_le_compat_r; lra.
    - rewrite Rabs_minus_sym. eapply Rle_trans; [apply sq_two; [exact Hr|lia]|]. unfold Rdiv. apply Rmult_le_compat_r; [lra|].
      destruct (ws_order_spec 2 g ltac:(lra) Hg0) as [O1 O2]. fold P in O1, O2.
      assert (Q : ws_rho 2 g P <= / 10 ^ 12). { apply O2. apply ws_reach. rewrite Pw by lra. exact Hg. }
      rewrite Rp in Q by lia. pose proof (pow_mono_dec r (P ^ 2) (S P ^ 2) ltac:(lra) ltac:(simpl; nia)). lra. }
  unfold Rdiv. rewrite Rabs_mult, (Rabs_pos_eq (/ PI)) by (left; apply Rinv_0_lt_compat; lra).
  replace ((/ 10 ^ 12 + r ^ 900) * / (PI * (1 - r))) with ((/ 10 ^ 12 + r ^ 900) / (1 - r) * / PI) by (field; lra).
  apply Rmult_le_compat_r; [left; apply Rinv_0_lt_compat; lra|exact K].
Qed.
