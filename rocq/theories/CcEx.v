(** Families and examples for the base class. *)
From Coq Require Import String.
From Verif Require Import Prelude NpModel NpProofs CircleSpec IntSpec IntProofs DistSpec DistModel DistProofs Dist2Proofs Dist4Proofs Dist7Proofs
  UtilsModel DescModel DescProofs VonModel VonSpec VonProofs Von4Proofs WnModel WnProofs CcModel CcSpec CcProofs Cc2Proofs Cc3Proofs Cc4Proofs Cc5Proofs.
Open Scope string_scope.

Definition stats_are (m1 m2 : R * R) (mu r std disp skew kurt : R) : Prop :=
  cc_mean m1 = Fin mu /\ cc_r m1 = r /\ cc_std m1 = Fin std /\ cc_dispersion m1 m2 = Fin disp /\ cc_skewness m1 m2 = Fin skew /\ cc_kurtosis m1 m2 = Fin kurt.
Lemma family_stats f mu r1 r2 m1 m2 :
  trig_moment_of f 1 (r1 * cos (INR 1 * mu)) (r1 * sin (INR 1 * mu)) -> trig_moment_of f 2 (r2 * cos (INR 2 * mu)) (r2 * sin (INR 2 * mu)) ->
  trig_moment_of f 1 (fst m1) (snd m1) -> trig_moment_of f 2 (fst m2) (snd m2) ->
  / 10 ^ 12 < r1 < 1 - / 10 ^ 12 -> 0 <= r2 <= 1 -> 0 <= mu < 2 * PI ->
  stats_are m1 m2 mu r1 (sqrt (- 2 * ln r1)) ((1 - r2) / (2 * r1 ^ 2)) 0 ((r2 - r1 ^ 4) / (1 - r1) ^ 2).
Proof.
  intros A1 A2 B1 B2 H1 H2 Hm. destruct (trig_unique _ _ _ _ _ _ B1 A1) as [E1 F1]. destruct (trig_unique _ _ _ _ _ _ B2 A2) as [E2 F2].
  cbn [INR] in *. rewrite Rmult_1_l in *. replace (1 + 1) with 2 in * by ring.
  destruct m1 as [a1 b1], m2 as [a2 b2]. cbn [fst snd] in *. subst. exact (cc_family r1 r2 mu H1 H2 Hm).
Qed.
Lemma car_stats mu rho f m1 m2 : car_ok mu rho = true -> mu < 2 * PI -> / 10 ^ 12 < rho ->
  (forall x, public_pdf (car_ok mu rho) (car_pdf mu rho) x = Fin (f x)) -> trig_moment_of f 1 (fst m1) (snd m1) -> trig_moment_of f 2 (fst m2) (snd m2) ->
  stats_are m1 m2 mu rho (sqrt (- 2 * ln rho)) (1 / (2 * rho ^ 2)) 0 (- rho ^ 4 / (1 - rho) ^ 2).
Proof.
  intros Ok Hm Hr E B1 B2. pose proof (car_ok_spec _ _ Ok) as [H1 H2].
  pose proof (car_moments mu rho f 1%nat ltac:(lia) Ok E) as A1. pose proof (car_moments mu rho f 2%nat ltac:(lia) Ok E) as A2. cbv zeta in A1, A2. cbn [Nat.eqb Z.of_nat Pos.of_succ_nat Pos.succ] in A1, A2.
  assert (T : / 10 ^ 12 < / 4) by (apply Rinv_lt_contravar; lra).
  pose proof (family_stats f mu rho 0 m1 m2 A1 A2 B1 B2 ltac:(lra) ltac:(lra) ltac:(lra)) as K.
  rewrite Rminus_0_r in K. replace (0 - rho ^ 4) with (- rho ^ 4) in K by ring. exact K.
Qed.
Lemma wc_stats mu rho f m1 m2 : wc_ok mu rho = true -> 0 <= mu < 2 * PI -> / 10 ^ 12 < rho < 1 - / 10 ^ 12 ->
  (forall x, public_pdf (wc_ok mu rho) (wc_pdf mu rho) x = Fin (f x)) -> trig_moment_of f 1 (fst m1) (snd m1) -> trig_moment_of f 2 (fst m2) (snd m2) ->
  stats_are m1 m2 mu rho (sqrt (- 2 * ln rho)) ((1 - rho ^ 2) / (2 * rho ^ 2)) 0 ((rho ^ 2 - rho ^ 4) / (1 - rho) ^ 2).
Proof.
  intros Ok Hm Hr E B1 B2. assert (T : 0 < / 10 ^ 12) by (apply Rinv_0_lt_compat; lra).
  pose proof (wc_moments mu rho f 1%nat Ok E) as A1. pose proof (wc_moments mu rho f 2%nat Ok E) as A2. cbn [Z.of_nat Pos.of_succ_nat Pos.succ] in A1, A2. rewrite pow_1 in A1.
  apply (family_stats f mu rho (rho ^ 2) m1 m2 A1 A2 B1 B2); [lra| |lra]. split; [nra|]. nra.
Qed.
Lemma wn_stats mu rho f m1 m2 : wn_ok mu rho = true -> 0 <= mu < 2 * PI -> / 10 ^ 12 < rho < 1 - / 10 ^ 12 ->
  (forall x, public_pdf (wn_ok mu rho) (wn_pdf mu rho) x = Fin (f x)) -> trig_moment_of f 1 (fst m1) (snd m1) -> trig_moment_of f 2 (fst m2) (snd m2) ->
  stats_are m1 m2 mu rho (sqrt (- 2 * ln rho)) ((1 - rho ^ 4) / (2 * rho ^ 2)) 0 0.
Proof.
  intros Ok Hm Hr E B1 B2. assert (T : 0 < / 10 ^ 12) by (apply Rinv_0_lt_compat; lra).
  pose proof (wn_moments mu rho f 1%nat ltac:(lia) Ok E) as A1. pose proof (wn_moments mu rho f 2%nat ltac:(lia) Ok E) as A2. cbv zeta in A1, A2.
  cbn [Nat.leb Nat.pow Nat.mul Nat.add Z.of_nat Pos.of_succ_nat Pos.succ] in A1, A2. rewrite pow_1 in A1.
  replace 0 with ((rho ^ 4 - rho ^ 4) / (1 - rho) ^ 2) at 2 by (unfold Rdiv; ring).
  apply (family_stats f mu rho (rho ^ 4) m1 m2 A1 A2 B1 B2); [lra| |lra]. split; [apply pow_le; lra|]. rewrite <- (pow1 4). apply pow_incr. lra.
Qed.
Lemma von_stats iv mu k f m1 m2 : is_iv iv -> von_ok mu k = true -> 0 <= mu < 2 * PI -> / 10 ^ 12 < iv 1%nat k / iv 0%nat k < 1 - / 10 ^ 12 -> 0 <= iv 2%nat k / iv 0%nat k <= 1 ->
  (forall x, public_pdf (von_ok mu k) (von_pdf iv mu k) x = Fin (f x)) -> trig_moment_of f 1 (fst m1) (snd m1) -> trig_moment_of f 2 (fst m2) (snd m2) ->
  let r1 := iv 1%nat k / iv 0%nat k in let r2 := iv 2%nat k / iv 0%nat k in
  stats_are m1 m2 mu r1 (sqrt (- 2 * ln r1)) ((1 - r2) / (2 * r1 ^ 2)) 0 ((r2 - r1 ^ 4) / (1 - r1) ^ 2).
Proof.
  intros Hiv Ok Hm Hr H2 E B1 B2. pose proof (von_moments iv mu k f 1%nat Hiv Ok E) as A1. pose proof (von_moments iv mu k f 2%nat Hiv Ok E) as A2.
  exact (family_stats f mu _ _ m1 m2 A1 A2 B1 B2 Hr H2 Hm).
Qed.

(** ** Examples *)
Lemma car_pub mu rho x : car_ok mu rho = true -> public_pdf (car_ok mu rho) (car_pdf mu rho) x = Fin (car_pdf mu rho x).
Proof.
  intros ->. rewrite public_pdf_fin. f_equal. unfold car_pdf. do 4 f_equal. apply same_dir_cos. destruct (wrap_same x) as [k Hk]. exists k. rewrite Hk. ring.
Qed.
Lemma car_circle mu rho : car_ok mu rho = true -> circle_density (car_pdf mu rho).
Proof.
  intros Ok. destruct (car_describes mu rho Ok) as (f & F & E & _ & _ & D & _).
  assert (X : forall x, f x = car_pdf mu rho x) by (intros x; pose proof (car_pub mu rho x Ok) as P; rewrite E in P; congruence).
  destruct D as [D1 D2]. split; [split|split].
  - intros x. rewrite <- X. apply D1.
  - pose proof PI_pos. apply (integral_ext f); [lra|intros; apply X|exact D2].
  - intros x. apply car_pdf_cont.
  - intros x. unfold car_pdf. replace (x + 2 * PI - mu) with ((x - mu) + 2 * PI) by ring. rewrite cos_plus, cos_2PI, sin_2PI. do 3 f_equal. ring.
Qed.
Lemma car_m12 mu rho : car_ok mu rho = true -> moments12 (car_pdf mu rho) (rho * cos mu, rho * sin mu) (0, 0).
Proof.
  intros Ok. split; [apply (car_circle mu rho Ok)|].
  pose proof (car_moments mu rho _ 1%nat ltac:(lia) Ok (fun x => car_pub mu rho x Ok)) as A1. pose proof (car_moments mu rho _ 2%nat ltac:(lia) Ok (fun x => car_pub mu rho x Ok)) as A2.
  cbv zeta in A1, A2. cbn [Nat.eqb Z.of_nat Pos.of_succ_nat Pos.succ INR] in A1, A2. rewrite !Rmult_1_l in A1. rewrite !Rmult_0_l in A2. split; [exact A1|exact A2].
Qed.
Lemma ex_car_ok m : 0 <= m <= 2 * PI -> car_ok m (1 / 4) = true.
Proof. intros H. unfold car_ok. rewrite !andb_true_iff, !Rleb_true. lra. Qed.
Lemma ex_small : / 10 ^ 12 < 1 / 4.
Proof. apply Rlt_le_trans with (/ 10); [apply Rinv_lt_contravar; lra|lra]. Qed.
Lemma ex_cc : circle_density (car_pdf 1 (1 / 4)) /\ moments12 (car_pdf 1 (1 / 4)) (1 / 4 * cos 1, 1 / 4 * sin 1) (0, 0) /\
  moments12 (car_pdf 3 (1 / 4)) (1 / 4 * cos 3, 1 / 4 * sin 3) (0, 0) /\ (forall x, car_pdf 3 (1 / 4) x = car_pdf 1 (1 / 4) (x - 2)) /\
  / 10 ^ 12 < hypot (1 / 4 * cos 1) (1 / 4 * sin 1) < 1 - / 10 ^ 12.
Proof.
  pose proof PI_gt3. pose proof ex_small. split; [apply car_circle, ex_car_ok; lra|]. split; [apply car_m12, ex_car_ok; lra|]. split; [apply car_m12, ex_car_ok; lra|]. split.
  - intros x. unfold car_pdf. replace (x - 2 - 1) with (x - 3) by ring. reflexivity.
  - rewrite hypot_polar by lra. lra.
Qed.
(** A sample of three equal weights. *)
Definition ccS : wsample := [(0, 1); (PI / 2, 1); (PI / 2, 1)].
Lemma ex_ccS : (forall p, In p ccS -> 0 <= snd p) /\ 0 < wtotal ccS /\ / 10 ^ 12 < circ_r_s ccS < 1 - / 10 ^ 12.
Proof.
  split; [intros p Hp; cbn in Hp; decompose [or] Hp; subst; cbn; lra|]. unfold wtotal, ccS. cbn [map snd]. split; [cbn; lra|].
  assert (E : circ_r_s ccS = sqrt (5 / 9)).
  { unfold circ_r_s, ccS, compute_C, compute_S, wtotal. cbn [map fst snd Rsum fold_right]. rewrite !Rmult_1_l, !Rminus_0_r, cos_0, sin_0, cos_PI2, sin_PI2. cbn [Rsum fold_right]. f_equal. field. }
  fold ccS. rewrite E. split.
  - apply Rlt_le_trans with (1 / 4); [apply ex_small|]. rewrite <- (sqrt_square (1 / 4)) by lra. apply sqrt_le_1; lra.
  - apply Rle_lt_trans with (3 / 4); [|pose proof ex_small; lra]. rewrite <- (sqrt_square (3 / 4)) by lra. apply sqrt_le_1; lra.
Qed.
Lemma ex_quad : good_quad (fun _ => 1 / (2 * PI)) (fun a b => 1 / (2 * PI) * (b - a)) (1 / (2 * PI)) 0 (2 * PI).
Proof.
  pose proof PI_pos. split; [lra|]. split; [|split].
  - intros x _. split; [|lra]. apply Rlt_le, Rdiv_lt_0_compat; lra.
  - intros a b _ _. apply integral_const.
  - field. lra.
Qed.
Lemma ex_kw : dict [("loc", KNum [0]); ("scale", KNum [2])] /\ bad_kw [("loc", KNum [0]); ("scale", KNum [2])] /\
  dict [("scale", KNum [1])] /\ (forall k v, binds [("scale", KNum [1])] k v -> k = "loc" /\ default_like v 0 \/ k = "scale" /\ default_like v 1).
Proof.
  split; [repeat constructor; cbn; intros H; decompose [or] H; try discriminate; contradiction|]. split.
  - exists "scale", (KNum [2]). split; [cbn; auto|]. right. left. split; [reflexivity|]. intros D. specialize (D 2 (or_introl eq_refl)).
    rewrite Rabs_R1, Rabs_right in D by lra. assert (/ 10 ^ 8 <= 1 / 4) by (apply Rle_trans with (/ 10); [apply Rinv_le_contravar; lra|lra]). assert (/ 10 ^ 5 <= 1 / 4) by (apply Rle_trans with (/ 10); [apply Rinv_le_contravar; lra|lra]). lra.
  - split; [repeat constructor; intros []|]. intros k v [[= <- <-]|[]]. right. split; [reflexivity|]. intros x [<-|[]]. rewrite Rminus_diag_eq by reflexivity. rewrite Rabs_R0, Rabs_R1.
    assert (0 < / 10 ^ 8) by (apply Rinv_0_lt_compat; lra). assert (0 < / 10 ^ 5) by (apply Rinv_0_lt_compat; lra). lra.
Qed.
Lemma ex_shapes : moment_args ["mu"; "kappa"; "psi"] [1] [("psi", KNum [3]); ("kappa", KNum [2])] = Ok [1; 2; 3] /\
  moment_args ["mu"; "kappa"; "psi"] [1] [("psi", KNum [3])] = Err TypeError.
Proof. split; reflexivity. Qed.
