(** katojones: the cdf as implemented. *)
From Verif Require Import Prelude EmModel NpModel NpProofs CircleSpec IntSpec IntProofs DistModel DistSpec DistProofs
  Dist2Proofs Dist4Proofs Dist5Proofs Dist7Proofs Dist8Proofs Desc6Proofs KjModel KjSpec KjProofs Kj2Proofs Kj3Proofs.

Lemma kj_tol_pos : 0 < kj_tol /\ kj_tol < / 10 ^ 11 .
Proof. unfold kj_tol. split; [apply Rinv_0_lt_compat; apply pow_lt; lra|lra]. Qed.

Lemma kj_count_spec gamma rho fuel : forall P, let n := kj_count gamma rho fuel P in
  (P <= n <= P + fuel)%nat /\ (kj_tail gamma rho n <= kj_tol \/ n = (P + fuel)%nat) /\
  (forall j, (P <= j < n)%nat -> kj_tol < kj_tail gamma rho j).
Proof.
  induction fuel as [|k IH]; intros P; simpl.
  - split; [lia|]. split; [right; lia|intros j Hj; lia]. 
  - destruct (Rleb_spec (kj_tail gamma rho P) kj_tol) as [H|H].
    + repeat split; try lia. left; exact H.
    + destruct (IH (S P)) as (A & B & C). repeat split; try lia.
      * destruct B as [B|B]; [left; exact B|right; lia].
      * intros j Hj. destruct (Nat.eq_dec j P) as [->|]; [lra|apply C; lia].
Qed.
Lemma kj_terms_unique gamma rho n : (1 <= n <= kj_max_terms)%nat -> kj_tail gamma rho n <= kj_tol ->
  (forall j, (1 <= j < n)%nat -> kj_tol < kj_tail gamma rho j) -> kj_terms gamma rho = n.
Proof.
  intros Hn Ht Hj. unfold kj_terms. destruct (kj_count_spec gamma rho kj_max_terms 1) as (A & B & C). cbv zeta in *.
  set (m := kj_count gamma rho kj_max_terms 1) in *.
  assert (m = n); [|lia]. destruct (lt_eq_lt_dec m n) as [[L|E]|L]; [|exact E|].
  - destruct B as [B|B]; [|lia]. specialize (Hj m ltac:(lia)). lra.
  - specialize (C n ltac:(lia)). lra.
Qed.
Lemma kj_terms_tail gamma rho n : (1 <= n <= kj_max_terms)%nat -> kj_tail gamma rho n <= kj_tol ->
  (1 <= kj_terms gamma rho)%nat /\ kj_tail gamma rho (kj_terms gamma rho) <= kj_tol.
Proof.
  intros Hn Ht. unfold kj_terms. destruct (kj_count_spec gamma rho kj_max_terms 1) as (A & B & C). cbv zeta in *.
  set (m := kj_count gamma rho kj_max_terms 1) in *.
  assert (m <= n)%nat by (destruct (le_lt_dec m n); [assumption|specialize (C n ltac:(lia)); lra]).
  rewrite Nat.min_l by lia. split; [lia|]. destruct B as [B|B]; [exact B|lia].
Qed.
Lemma kj_tail_5000 gamma rho : 0 <= gamma < 1 -> 0 <= rho <= 99 / 100 -> kj_tail gamma rho kj_max_terms <= kj_tol.
Proof.
  intros Hg Hr. unfold kj_tail.
  assert (T1 : / 10 ^ 12 <= 1 - rho) by lra. rewrite (Rmax_right _ _ T1).
  assert (EN : (kj_max_terms - 1 = 69 * 72 + 31)%nat) by (unfold kj_max_terms; lia).
  assert (EM : INR (Nat.max kj_max_terms 1) = 5000).
  { rewrite Nat.max_l by (unfold kj_max_terms; lia). unfold kj_max_terms. rewrite INR_IZR_INZ, Z2Nat.id by lia. reflexivity. }
  rewrite EN, EM, pow_add, pow_mult.
  assert (H69 : rho ^ 69 <= 1 / 2).
  { apply Rle_trans with ((99 / 100) ^ 69); [apply pow_incr; lra|]. lra. }
  assert (H72 : (rho ^ 69) ^ 72 <= (1 / 2) ^ 72) by (apply pow_incr; split; [apply pow_le; lra|exact H69]).
  assert (H31 : rho ^ 31 <= 1) by (rewrite <- (pow1 31); apply pow_incr; lra).
  pose proof (pow_le (rho ^ 69) 72 ltac:(apply pow_le; lra)) as N72. pose proof (pow_le rho 31 ltac:(lra)) as N31.
  assert (HP : (rho ^ 69) ^ 72 * rho ^ 31 <= (1 / 2) ^ 72 * 1) by (apply Rmult_le_compat; assumption).
  assert (HP0 : 0 <= (rho ^ 69) ^ 72 * rho ^ 31) by (apply Rmult_le_pos; assumption).
  set (u := (rho ^ 69) ^ 72 * rho ^ 31) in *.
  assert (HI : / (1 - rho) <= 100) by (replace 100 with (/ (1 / 100)) by field; apply Rinv_le_contravar; lra).
  assert (HI0 : 0 < / (1 - rho)) by (apply Rinv_0_lt_compat; lra).
  unfold Rdiv at 1. apply Rle_trans with ((gamma / 5000 * u) * 100).
  - apply Rmult_le_compat_l; [|exact HI]. apply Rmult_le_pos; [lra|exact HP0].
  - unfold kj_tol. assert (gamma / 5000 * u <= 1 / 5000 * ((1 / 2) ^ 72 * 1)) by (apply Rmult_le_compat; lra). lra.
Qed.

Lemma kj_series_S mu gamma rho lam x : kj_tol < gamma -> kj_tol < rho ->
  kj_series mu gamma rho lam x =
  kjS {| kj_mu := mu; kj_gamma := gamma; kj_rho := rho; kj_lam := lam |} (kj_terms gamma rho) x.
Proof.
  intros Hg Hr. unfold kj_series. destruct (Rleb_spec gamma kj_tol); [lra|]. destruct (Rleb_spec rho kj_tol); [lra|].
  cbn [orb]. unfold kjS. cbn [kj_mu kj_gamma kj_rho kj_lam]. set (ps := seq 1 (kj_terms gamma rho)).
  set (a := fun p => kj_coeff gamma rho p * sin (INR p * x - kj_phase mu lam p)).
  set (b := fun p => kj_coeff gamma rho p * sin (kj_phase mu lam p)).
  assert (E : map (fun p => kjT gamma rho mu lam p x) ps = map (fun p => a p + b p) ps).
  { apply map_ext. intros p. unfold a, b, kjT.
    assert (Hd : same_dir (kj_phase mu lam p) (INR p * mu + (INR p - 1) * lam)) by apply pymod_same_dir.
    rewrite (same_dir_sin _ _ Hd). 
    rewrite (same_dir_sin (INR p * x - kj_phase mu lam p) (INR p * x - (INR p * mu + (INR p - 1) * lam))); [ring|].
    apply same_dir_sub; [apply same_dir_refl|exact Hd]. }
  rewrite E, Rsum_map_plus. fold a b. cbv zeta. ring.
Qed.

Lemma kj_v_lower gamma rho lam : 0 <= gamma -> 0 <= rho -> (gamma - rho) ^ 2 <= kj_constraint gamma rho lam.
Proof.
  intros Hg Hr. rewrite <- kj_norm. pose proof (sin2_cos2 lam) as E. unfold Rsqr in E. pose proof (COS_bound lam).
  replace ((gamma * sin lam) ^ 2) with (gamma ^ 2 * (1 - cos lam * cos lam)) by (rewrite <- E; ring).
  assert (0 <= gamma * rho * (1 - cos lam)) by (apply Rmult_le_pos; [apply Rmult_le_pos|]; lra). nra.
Qed.
Lemma kj_clean_id c : kj_documented c -> kj_rho c <= 99 / 100 -> kj_clean c = c.
Proof.
  intros (Hm & Hg & Hr & Hl & Hv) Hr99. destruct c as [mu g r l]. unfold kj_clean. cbn [kj_mu kj_gamma kj_rho kj_lam] in *.
  pose proof (kj_v_lower g r l ltac:(lra) ltac:(lra)) as B. unfold kj_constraint in B.
  assert (G : g - r <= 1 - g).
  { destruct (Rle_dec (g - r) (1 - g)); [assumption|]. assert (0 <= (1 - g) ^ 2) by apply pow2_ge_0. nra. }
  unfold mod2pi. rewrite !pymod_small by lra. rewrite !clip_in by lra. reflexivity.
Qed.

(** Primitive of the density and the exact distribution function. *)
Lemma kj_exact c : kj_inside c -> exists f F P,
  (forall x, public_pdf (kj_argcheck c) (kj_pdf c) x = Fin (f x)) /\ is_cdf F f /\
  (forall y, 0 <= y <= 2 * PI -> derivable_pt_lim P y (kjU c y)) /\ P 0 = 0 /\
  (forall x, 0 <= x <= 2 * PI -> F x = P x).
Proof.
  intros H. pose proof H as ((Hm & Hg & Hrr & Hl & Hv) & Hr). pose proof (kj_documented_ok c (proj1 H)) as Ha.
  pose proof PI_RGT_0 as P0.
  destruct (primitive_exists (kjU c) 0 (2 * PI) ltac:(lra)) as [Q HQ]; [intros; apply kjU_cont; lra|].
  set (P := fun x => Q x - Q 0).
  assert (HP : forall y, 0 <= y <= 2 * PI -> derivable_pt_lim P y (kjU c y)).
  { intros y Hy. eapply dlim_eq; [|apply dlim_minus; [apply HQ; exact Hy|apply dlim_const]]. ring. }
  assert (HP1 : P (2 * PI) = 1).
  { pose proof (ftc (kjU c) Q 0 (2 * PI) ltac:(lra) (fun x _ => kjU_cont c x ltac:(lra)) HQ) as I.
    apply (integral_unique _ _ _ _ _ I). apply kjU_total; lra. }
  assert (HP0 : P 0 = 0) by (unfold P; ring).
  assert (E : forall x, kjU c x = kj_pdf c x) by (intros x; symmetry; apply kj_pdf_U'; exact H).
  destruct (describes_intro (kj_pdf c) P P) as (f & F & A & B & _ & _ & C); try assumption.
  - intros x _. apply (cont_ext (kjU c) _ x E). apply kjU_cont. lra.
  - intros x Hx. rewrite <- E. apply HP. exact Hx.
  - reflexivity.
  - intros x _. rewrite <- E. apply kjU_nonneg; assumption.
  - rewrite <- !E. replace (2 * PI) with (0 + 2 * PI) by ring. symmetry. apply kjU_turn. lra.
  - exists f, F, P. rewrite Ha. split; [exact A|]. split; [exact C|]. split; [exact HP|]. split; [exact HP0|].
    intros x Hx. specialize (B x). rewrite public_cdf_fin in B. injection B as <-. apply (pub_F_eq _ P); try assumption. reflexivity.
Qed.

Lemma kj_not_near x : / 10 ^ 12 < x <= 2 * PI - 9 / 100000 ->
  isclose_tol (/ 100000) (/ 10 ^ 12) x 0 = false /\ isclose_tol (/ 100000) (/ 10 ^ 12) x (2 * PI) = false.
Proof.
  intros Hx. pose proof PI_RGT_0. pose proof PI_4. unfold isclose_tol. rewrite Rminus_0_r, Rabs_R0.
  split; apply Rleb_false.
  - rewrite Rabs_pos_eq; lra.
  - rewrite (Rabs_pos_eq (2 * PI)) by lra. rewrite Rabs_left; lra.
Qed.
Lemma kj_single_in c x : kj_tol < kj_gamma c -> kj_tol < kj_rho c ->
  0 <= kjS c (kj_terms (kj_gamma c) (kj_rho c)) x < 1 -> kj_single c x = kjS c (kj_terms (kj_gamma c) (kj_rho c)) x.
Proof.
  intros Hg Hr H. unfold kj_single. rewrite kj_series_S by assumption. destruct c as [mu g r l]. cbn [kj_mu kj_gamma kj_rho kj_lam] in *.
  rewrite pymod_small by exact H. apply clip_in. lra.
Qed.
Lemma kjS_close c P x : kj_documented c -> kj_rho c <= 99 / 100 -> 0 <= x <= 2 * PI ->
  (forall y, 0 <= y <= 2 * PI -> derivable_pt_lim P y (kjU c y)) -> P 0 = 0 ->
  Rabs (P x - kjS c (kj_terms (kj_gamma c) (kj_rho c)) x) <= 2 / 3 * / 10 ^ 12.
Proof.
  intros (Hm & Hg & Hr & Hl & Hv) Hr99 Hx HP P0. pose proof PI_gt3 as P3.
  pose proof (kjS_exact c (kj_terms (kj_gamma c) (kj_rho c)) P x ltac:(lra) ltac:(lra) Hx HP P0) as B.
  destruct (kj_terms_tail (kj_gamma c) (kj_rho c) kj_max_terms) as [N1 T].
  { unfold kj_max_terms. lia. } { apply kj_tail_5000; lra. }
  set (N := kj_terms (kj_gamma c) (kj_rho c)) in *. eapply Rle_trans; [exact B|].
  unfold kj_tail, kj_tol in T. rewrite (Rmax_right (/ 10 ^ 12)) in T by lra. rewrite Nat.max_l in T by lia.
  assert (HN : 1 <= INR N) by (apply (le_INR 1); lia).
  destruct N as [|n]; [lia|]. replace (S n - 1)%nat with n in T by lia.
  assert (Hp : 0 <= kj_rho c ^ n) by (apply pow_le; lra).
  set (N := S n) in *.
  assert (G0 : 0 <= kj_gamma c / INR N * kj_rho c ^ n / (1 - kj_rho c)).
  { apply Rmult_le_pos; [apply Rmult_le_pos; [apply Rmult_le_pos; [lra|apply Rlt_le, Rinv_0_lt_compat; lra]|exact Hp]|apply Rlt_le, Rinv_0_lt_compat; lra]. }
  assert (E : 2 / PI * (kj_gamma c / (INR N + 1)) * (kj_rho c ^ N / (1 - kj_rho c)) =
              (2 / PI) * (INR N / (INR N + 1) * kj_rho c) * (kj_gamma c / INR N * kj_rho c ^ n / (1 - kj_rho c))).
  { unfold N. simpl pow. fold N. field. lra. }
  rewrite E.
  assert (Q1 : 2 / PI <= 2 / 3) by (apply Rmult_le_compat_l; [lra|apply Rinv_le_contravar; lra]).
  assert (Q10 : 0 <= 2 / PI) by (apply Rlt_le, Rdiv_lt_0_compat; lra).
  assert (Q2 : INR N / (INR N + 1) <= 1) by (apply Rmult_le_reg_r with (INR N + 1); [lra|]; unfold Rdiv; rewrite Rmult_assoc, Rinv_l by lra; lra).
  assert (Q20 : 0 <= INR N / (INR N + 1)) by (apply Rlt_le, Rdiv_lt_0_compat; lra).
  assert (Q3 : INR N / (INR N + 1) * kj_rho c <= 1) by nra.
  assert (Q30 : 0 <= INR N / (INR N + 1) * kj_rho c) by (apply Rmult_le_pos; lra).
  assert (Q4 : 2 / PI * (INR N / (INR N + 1) * kj_rho c) <= 2 / 3) by nra.
  assert (Q40 : 0 <= 2 / PI * (INR N / (INR N + 1) * kj_rho c)) by (apply Rmult_le_pos; lra).
  apply Rmult_le_compat; lra.
Qed.
Lemma kj_uniform_close c P x : kj_documented c -> kj_rho c <= 99 / 100 -> 0 <= x <= 2 * PI -> kj_gamma c <= kj_tol ->
  (forall y, 0 <= y <= 2 * PI -> derivable_pt_lim P y (kjU c y)) -> P 0 = 0 ->
  Rabs (P x - x / (2 * PI)) <= / 10 ^ 10.
Proof.
  intros (Hm & Hg & Hr & Hl & Hv) Hr99 Hx Hgt HP P0. pose proof PI_gt3 as P3.
  pose proof (kjS_exact c 0 P x ltac:(lra) ltac:(lra) Hx HP P0) as B.
  replace (kjS c 0 x) with (x / (2 * PI)) in B by (unfold kjS; simpl; ring).
  eapply Rle_trans; [exact B|]. simpl. rewrite Rplus_0_l. 
  assert (HI : 1 / (1 - kj_rho c) <= 100) by (replace 100 with (1 / (1 / 100)) by field; apply Rmult_le_compat_l; [lra|apply Rinv_le_contravar; lra]).
  assert (HI0 : 0 < 1 / (1 - kj_rho c)) by (apply Rdiv_lt_0_compat; lra).
  assert (Q1 : 2 / PI <= 2 / 3) by (apply Rmult_le_compat_l; [lra|apply Rinv_le_contravar; lra]).
  assert (Q10 : 0 <= 2 / PI) by (apply Rlt_le, Rdiv_lt_0_compat; lra).
  unfold kj_tol in Hgt. replace (kj_gamma c / 1) with (kj_gamma c) by field.
  assert (Q2 : 2 / PI * kj_gamma c <= 2 / 3 * / 10 ^ 12) by (apply Rmult_le_compat; lra).
  assert (Q20 : 0 <= 2 / PI * kj_gamma c) by (apply Rmult_le_pos; lra).
  apply Rle_trans with (2 / 3 * / 10 ^ 12 * 100); [apply Rmult_le_compat; lra|lra].
Qed.

Lemma kj_cdf_partial c : kj_documented c -> kj_rho c <= 99 / 100 -> kj_gamma c <= / 10 ^ 12 \/ / 10 ^ 12 < kj_rho c ->
  exists f F, (forall x, public_pdf (kj_argcheck c) (kj_pdf c) x = Fin (f x)) /\ is_cdf F f /\
    forall x, / 10 ^ 12 < x <= 2 * PI - 9 / 100000 -> / 10 ^ 12 <= F x <= 1 - / 10 ^ 12 ->
      exists v, public_cdf (kj_argcheck c) (kj_cdf c) x = Fin v /\ Rabs (v - F x) <= / 10 ^ 10.
Proof.
  intros Hd Hr Hb. assert (Hin : kj_inside c) by (split; [exact Hd|lra]).
  destruct (kj_exact c Hin) as (f & F & P & A & C & HP & P0 & E).
  exists f, F. split; [exact A|]. split; [exact C|]. intros x Hx HF. pose proof PI_gt3 as P3.
  assert (Hx' : 0 <= x <= 2 * PI) by (assert (0 < / 10 ^ 12) by (apply kj_tol_pos); lra).
  assert (Hx0 : 0 < x) by (assert (0 < / 10 ^ 12) by (apply kj_tol_pos); lra).
  rewrite (kj_documented_ok c Hd), public_cdf_fin. eexists. split; [reflexivity|].
  unfold pub_F. rewrite wrap_in by exact Hx'. destruct (Rleb_spec (2 * PI) x); [lra|]. destruct (Rltb_spec 0 x); [|lra].
  unfold kj_cdf. rewrite (kj_clean_id c Hd Hr). destruct (kj_not_near x Hx) as [-> ->]. cbv zeta.
  destruct (Rleb_spec (kj_gamma c) kj_tol) as [G|G].
  - assert (B : 0 <= x / (2 * PI) <= 1).
    { split; [apply Rlt_le, Rdiv_lt_0_compat; lra|]. apply Rmult_le_reg_r with (2 * PI); [lra|]. unfold Rdiv. rewrite Rmult_assoc, Rinv_l; lra. }
    rewrite (clip_in _ _ _ B). pose proof (kj_uniform_close c P x Hd Hr Hx' G HP P0) as U.
    rewrite E by exact Hx'. rewrite Rabs_minus_sym. exact U.
  - assert (Hr0 : kj_tol < kj_rho c) by (unfold kj_tol in *; destruct Hb; [lra|assumption]).
    pose proof (kjS_close c P x Hd Hr Hx' HP P0) as B. rewrite E in HF by exact Hx'.
    set (s := kjS c (kj_terms (kj_gamma c) (kj_rho c)) x) in *.
    assert (B2 : - (2 / 3 * / 10 ^ 12) <= P x - s <= 2 / 3 * / 10 ^ 12) by (apply abs_le_inv; exact B).
    rewrite kj_single_in; [|lra|lra|]; fold s.
    + rewrite E by exact Hx'. rewrite Rabs_minus_sym. lra.
    + pose proof kj_tol_pos as T. unfold kj_tol in T. lra.
Qed.
