(** wrapstable: monotonicity of cdf, its failure, and the quantile search. *)
From Coq Require Import Ranalysis5.
From Verif Require Import Prelude NpModel NpProofs UtilsModel UtilsProofs DescModel DescProofs CircleSpec IntSpec IntProofs DistModel DistSpec DistProofs Dist2Proofs Dist4Proofs Dist5Proofs
  Dist6Proofs Dist7Proofs Dist8Proofs KjProofs Kj2Proofs Kj6Proofs Kj7Proofs Von5Proofs Von6Proofs WnModel WnProofs GaussProofs Wn6Proofs WsModel WsSpec WsProofs Ws2Proofs Ws3Proofs.

Lemma t12 : 0 < / 10 ^ 12 <= / 1000000.
Proof. split; [apply Rinv_0_lt_compat, pow_lt; lra|]. apply Rinv_le_contravar; lra. Qed.
Lemma hi_window x : x <= 2 * PI -> isclose_tol (/ 100000) (/ 10 ^ 12) x (2 * PI) = Rleb (2 * PI - (/ 10 ^ 12 + / 100000 * (2 * PI))) x.
Proof.
  intros H. pose proof PI_gt3. unfold isclose_tol. rewrite Rabs_minus_sym, !Rabs_pos_eq by lra. apply eq_iff_eq_true. rewrite !Rleb_true. lra.
Qed.
Lemma lo_window x : 0 <= x -> isclose_tol (/ 100000) (/ 10 ^ 12) x 0 = Rleb x (/ 10 ^ 12).
Proof. intros H. unfold isclose_tol. rewrite Rabs_R0, Rabs_pos_eq by lra. apply eq_iff_eq_true. rewrite !Rleb_true. lra. Qed.
(** The values of the public cdf on [0, 2 pi]. *)
Definition ws_G (d a b g x : R) : R := if Rleb (2 * PI) x then 1 else if Rltb 0 x then ws_cdf d a b g x else 0.
Lemma ws_public d a b g x : ws_ok d a b g = true -> 0 <= x <= 2 * PI -> public_cdf (ws_ok d a b g) (ws_cdf d a b g) x = Fin (ws_G d a b g x).
Proof. intros -> H. rewrite public_cdf_fin. unfold pub_F. cbv zeta. rewrite wrap_in by exact H. reflexivity. Qed.
Lemma ws_cdf_range d a b g x : 0 <= ws_cdf d a b g x <= 1.
Proof. unfold ws_cdf. cbv zeta. destruct (isclose_tol _ _ x (2 * PI)); [lra|]. destruct (isclose_tol _ _ x 0); [lra|]. apply clip_range. lra. Qed.
(** [_cdf] and the public cdf agree on the whole support. *)
Lemma ws_G_cdf d a b g x : 0 <= x <= 2 * PI -> ws_G d a b g x = ws_cdf d a b g x.
Proof.
  intros H. unfold ws_G. pose proof PI_gt3 as P3. pose proof t12 as T. destruct (Rleb_spec (2 * PI) x) as [L|L].
  - unfold ws_cdf. cbv zeta. rewrite hi_window by lra. rewrite (proj2 (Rleb_true _ _)) by lra. reflexivity.
  - destruct (Rltb_spec 0 x) as [K|K]; [reflexivity|]. assert (x = 0) as -> by lra. unfold ws_cdf. cbv zeta.
    rewrite hi_window, lo_window by lra. rewrite (proj2 (Rleb_false (2 * PI - _) _)) by lra. rewrite (proj2 (Rleb_true _ _)) by lra. reflexivity.
Qed.
Lemma ws_G_cases d a b g x : (forall t, 0 <= t <= 2 * PI -> 0 <= ws_pdf d a b g t) -> 0 <= x <= 2 * PI ->
  ws_G d a b g x = if Rleb (2 * PI - (/ 10 ^ 12 + / 100000 * (2 * PI))) x then 1 else if Rleb x (/ 10 ^ 12) then 0 else ws_raw d a b g x.
Proof. intros N H. rewrite ws_G_cdf by exact H. rewrite ws_cdf_val by assumption. rewrite hi_window, lo_window by lra. reflexivity. Qed.
Lemma ws_mono d a b g x y u v : ws_ok d a b g = true -> (forall t, 0 <= t <= 2 * PI -> 0 <= ws_pdf d a b g t) -> 0 <= x -> x <= y -> y <= 2 * PI ->
  public_cdf (ws_ok d a b g) (ws_cdf d a b g) x = Fin u -> public_cdf (ws_ok d a b g) (ws_cdf d a b g) y = Fin v -> 0 <= u /\ u <= v /\ v <= 1.
Proof.
  intros Hok N Hx Hxy Hy Eu Ev. rewrite ws_public in Eu, Ev by (try assumption; lra). injection Eu as <-. injection Ev as <-.
  pose proof (ws_raw_range d a b g x N ltac:(lra)) as Rx. pose proof (ws_raw_range d a b g y N ltac:(lra)) as Ry.
  pose proof (mono_of_dlim (ws_raw d a b g) (ws_pdf d a b g) 0 (2 * PI) (fun y _ => ws_raw_d d a b g y) N x y Hx Hxy Hy) as M.
  rewrite !ws_G_cases by (try assumption; lra). set (w := 2 * PI - _).
  destruct (Rleb_spec w y); destruct (Rleb_spec w x); destruct (Rleb_spec x (/ 10 ^ 12)); destruct (Rleb_spec y (/ 10 ^ 12)); lra.
Qed.

(** ** Failure of monotonicity *)
Lemma sin_half_turns (p : nat) : sin (INR p * PI) = 0.
Proof. apply sin_eq_0_1. exists (Z.of_nat p). rewrite INR_IZR_INZ. reflexivity. Qed.
Lemma Rsum_abs_bound {A} (f : A -> R) (l : list A) K : (forall x, In x l -> Rabs (f x) <= K) -> Rabs (Rsum (map f l)) <= INR (length l) * K.
Proof.
  intros H. induction l as [|x l IH]; [cbn; rewrite Rabs_R0; lra|]. cbn [map length]. change (Rsum (?a :: ?l)) with (a + Rsum l).
  rewrite S_INR. eapply Rle_trans; [apply Rabs_triang|]. pose proof (H x (or_introl eq_refl)). pose proof (IH (fun y I => H y (or_intror I))). lra.
Qed.
Lemma ws_raw_start : let x := 2 * / 10 ^ 12 in - (1 / 4) <= ws_raw PI 2 0 ws_tiny x < 0.
Proof.
  intros x. pose proof PI_gt3 as P3. pose proof PI_4 as P4. pose proof t12 as T. pose proof tiny_bounds as [T0 _].
  assert (Hx : 0 < x) by (unfold x; lra).
  set (r := ws_rho 2 ws_tiny). set (m := ws_mu PI 2 0 ws_tiny). set (P := S ws_max).
  assert (EP : INR P = 20001) by (unfold P; rewrite S_INR, INR_ws_max; ring).
  assert (Epdf : forall y, ws_pdf PI 2 0 ws_tiny y = spoly r m P y) by (intros; rewrite ws_pdf_eq, ws_order_tiny; reflexivity).
  assert (Hr : forall p, 0 <= r p <= 1) by (intros; split; [apply Rlt_le, ws_rho_pos|apply ws_rho_le1]).
  destruct (MVT_cor2 (ws_raw PI 2 0 ws_tiny) (ws_pdf PI 2 0 ws_tiny) 0 x Hx (fun y _ => ws_raw_d _ _ _ _ y)) as (c & Ec & Hc).
  rewrite ws_raw_0, !Rminus_0_r in Ec. rewrite Ec.
  assert (D : forall y, Rabs ((2 * Rsum (map (fun p => r p * (- sin (INR p * y - m p) * INR p)) (seq 1 P))) / (2 * PI)) <= 200000000).
  { intros y. replace (2 * Rsum (map (fun p => r p * (- sin (INR p * y - m p) * INR p)) (seq 1 P)) / (2 * PI))
      with (Rsum (map (fun p => r p * (- sin (INR p * y - m p) * INR p)) (seq 1 P)) * / PI) by (field; lra).
    rewrite Rabs_mult. assert (B : Rabs (Rsum (map (fun p => r p * (- sin (INR p * y - m p) * INR p)) (seq 1 P))) <= INR (length (seq 1 P)) * 20001).
    { apply Rsum_abs_bound. intros p I. apply in_seq in I. assert (I2 : INR p <= 20001) by (rewrite <- EP; apply le_INR; lia). pose proof (pos_INR p) as I3.
      rewrite !Rabs_mult, Rabs_Ropp, (Rabs_pos_eq (r p)), (Rabs_pos_eq (INR p)) by (try apply Hr; lra).
      pose proof (SIN_bound (INR p * y - m p)) as SB. assert (SA : Rabs (sin (INR p * y - m p)) <= 1) by (apply Rabs_le; lra).
      pose proof (Rabs_pos (sin (INR p * y - m p))) as S0. pose proof (Hr p) as [R1 R2].
      assert (Rabs (sin (INR p * y - m p)) * INR p <= 1 * 20001) by (apply Rmult_le_compat; lra).
      assert (0 <= Rabs (sin (INR p * y - m p)) * INR p) by (apply Rmult_le_pos; lra). nra. }
    rewrite seq_length, EP in B. rewrite (Rabs_pos_eq (/ PI)) by (left; apply Rinv_0_lt_compat; lra).
    assert (/ PI <= / 3) by (apply Rinv_le_contravar; lra). assert (0 < / PI) by (apply Rinv_0_lt_compat; lra).
    pose proof (Rabs_pos (Rsum (map (fun p => r p * (- sin (INR p * y - m p) * INR p)) (seq 1 P)))) as A0. set (z := Rabs _) in *. nra. }
  assert (Hneg : ws_pdf PI 2 0 ws_tiny c <= - (/ 20)).
  { destruct (MVT_cor2 (spoly r m P) _ 0 c (proj1 Hc) (fun y _ => spoly_d r m P y)) as (e & Ee & He). pose proof (D e) as De. apply abs_le_inv in De.
    cbv beta in Ee. rewrite Epdf. pose proof (ws_neg0 0) as Z. rewrite Epdf in Z.
    assert (c <= / 10 ^ 11) by (unfold x in Hc; lra). set (q := 2 * Rsum _ / (2 * PI)) in *. rewrite Rminus_0_r in Ee.
    assert (q * c <= 200000000 * (/ 10 ^ 11)) by (apply Rle_trans with (200000000 * c); [apply Rmult_le_compat_r; lra|lra]). lra. }
  assert (Hlow : - 100000 <= ws_pdf PI 2 0 ws_tiny c).
  { rewrite Epdf. unfold spoly. pose proof (Rsum_abs_bound (fun p => r p * cos (INR p * c - m p)) (seq 1 P) 1) as B. cbv beta in B.
    assert (B' : Rabs (Rsum (map (fun p => r p * cos (INR p * c - m p)) (seq 1 P))) <= INR (length (seq 1 P)) * 1).
    { apply B. intros p _. pose proof (Hr p). pose proof (COS_bound (INR p * c - m p)). apply Rabs_le. nra. }
    rewrite seq_length, EP in B'. apply abs_le_inv in B'. set (z := Rsum _) in *. apply (Rmult_le_reg_r (2 * PI)); [lra|].
    replace ((1 + 2 * z) / (2 * PI) * (2 * PI)) with (1 + 2 * z) by (field; lra). lra. }
  unfold x in *. split; [|apply Ropp_lt_cancel; rewrite Ropp_0, Ropp_mult_distr_l; apply Rmult_lt_0_compat; lra].
  apply Rle_trans with (- 100000 * (2 * / 10 ^ 12)); [lra|]. apply Rmult_le_compat_r; lra.
Qed.
Lemma ws_not_mono : exists d a b g x y u v, ws_ok d a b g = true /\ 0 < x /\ x < y /\ y < 2 * PI /\
  public_cdf (ws_ok d a b g) (ws_cdf d a b g) x = Fin u /\ public_cdf (ws_ok d a b g) (ws_cdf d a b g) y = Fin v /\ 3 / 4 <= u /\ v = 1 / 2.
Proof.
  pose proof PI_gt3 as P3. pose proof PI_4 as P4. pose proof t12 as T. pose proof tiny_bounds as [T0 _].
  assert (O : ws_ok PI 2 0 ws_tiny = true) by (apply ws_ok_intro; lra).
  exists PI, 2, 0, ws_tiny, (2 * / 10 ^ 12), PI, (ws_G PI 2 0 ws_tiny (2 * / 10 ^ 12)), (ws_G PI 2 0 ws_tiny PI).
  rewrite !ws_public by (try assumption; lra). do 4 (split; [try assumption; lra|]). do 2 (split; [reflexivity|]).
  rewrite !ws_G_cdf by lra. unfold ws_cdf. cbv zeta. rewrite !hi_window, !lo_window by lra.
  rewrite !(proj2 (Rleb_false (2 * PI - _) _)) by lra. rewrite !(proj2 (Rleb_false _ (/ 10 ^ 12))) by lra. split.
  - pose proof ws_raw_start as K. cbv zeta in K. rewrite (proj2 (Rltb_true _ _)) by lra. rewrite clip_in; lra.
  - assert (E : ws_raw PI 2 0 ws_tiny PI = 1 / 2).
    { rewrite ws_raw_eq. unfold sprim. rewrite (Rsum_ext_map _ (fun p => 0 * ws_rho 2 ws_tiny p)); [rewrite Rsum_scal_map; field; lra|].
      intros p _. rewrite ws_mu_two. replace (INR p * PI - PI * INR p) with 0 by ring. rewrite (Rmult_comm PI), sin_half_turns, sin_0. ring. }
    rewrite E. rewrite (proj2 (Rltb_false _ _)) by lra. apply clip_in. lra.
Qed.

(** ** The quantile function *)
Definition brk (G : R -> R) (q lo hi : R) : Prop := 0 <= lo /\ lo < hi /\ hi <= 2 * PI /\ G lo <= q /\ q < G hi.
Lemma ws_newton_spec G f q n : forall lo hi th, brk G q lo hi -> lo < th < hi ->
  let '(lo', hi', th', st) := ws_newton G f q n lo hi th in brk G q lo' hi' /\ lo' < th' < hi' /\ (st = true -> hi' - lo' <= / 10 ^ 10).
Proof.
  induction n as [|n IH]; intros lo hi th B H; cbn [ws_newton]; [split; [exact B|split; [exact H|discriminate]]|].
  destruct (Rleb (Rabs (G th - q)) (/ 10 ^ 12) && Rleb (hi - lo) (/ 10 ^ 10)) eqn:E.
  { apply andb_true_iff in E as [_ E]. apply Rleb_true in E. split; [exact B|split; [exact H|intros; exact E]]. }
  cbv zeta. destruct B as (B1 & B2 & B3 & B4 & B5).
  assert (K : forall lo2 hi2, lo2 = (if Rltb 0 (G th - q) then lo else Rmax lo th) -> hi2 = (if Rltb 0 (G th - q) then Rmin hi th else hi) -> brk G q lo2 hi2).
  { intros lo2 hi2 -> ->. unfold brk. destruct (Rltb_spec 0 (G th - q)) as [L|L].
    - rewrite Rmin_right by lra. repeat split; lra.
    - rewrite Rmax_right by lra. repeat split; lra. }
  specialize (K _ _ eq_refl eq_refl). set (lo2 := if Rltb 0 (G th - q) then lo else Rmax lo th) in *. set (hi2 := if Rltb 0 (G th - q) then Rmin hi th else hi) in *.
  assert (M : lo2 < 1 / 2 * (lo2 + hi2) < hi2) by (destruct K as (_ & K & _); lra).
  destruct (Rleb (f th) 0); [apply IH; assumption|].
  set (th2 := if Rleb _ _ || _ then _ else _).
  assert (M2 : lo2 < th2 < hi2).
  { unfold th2. destruct (Rleb_spec (th - (G th - q) / f th) lo2) as [L|L]; cbn [orb]; [exact M|].
    destruct (Rleb_spec hi2 (th - (G th - q) / f th)) as [L'|L']; [exact M|lra]. }
  destruct (Rleb_spec (hi2 - lo2) (/ 10 ^ 10)) as [W|W]; [split; [exact K|split; [exact M2|intros; exact W]]|apply IH; assumption].
Qed.
Lemma ws_bisect_spec G q n : forall lo hi, brk G q lo hi ->
  exists lo' hi', brk G q lo' hi' /\ hi' - lo' = (hi - lo) / 2 ^ n /\ ws_bisect G q n lo hi = 1 / 2 * (lo' + hi').
Proof.
  induction n as [|n IH]; intros lo hi B; cbn [ws_bisect].
  - exists lo, hi. split; [exact B|]. split; [simpl; field|reflexivity].
  - cbv zeta. set (mid := 1 / 2 * (lo + hi)). destruct B as (B1 & B2 & B3 & B4 & B5). assert (Hn : 2 ^ n <> 0) by (apply pow_nonzero; lra).
    destruct (Rltb_spec q (G mid)) as [L|L].
    + destruct (IH lo mid) as (lo' & hi' & K1 & K2 & K3); [unfold brk, mid in *; repeat split; lra|].
      exists lo', hi'. split; [exact K1|]. split; [rewrite K2; unfold mid; cbn [pow]; field; exact Hn|exact K3].
    + destruct (IH mid hi) as (lo' & hi' & K1 & K2 & K3); [unfold brk, mid in *; repeat split; lra|].
      exists lo', hi'. split; [exact K1|]. split; [rewrite K2; unfold mid; cbn [pow]; field; exact Hn|exact K3].
Qed.
Lemma ws_ppf_brk d a b g q : / 10 ^ 12 < q < 1 - / 10 ^ 12 ->
  exists lo hi, brk (ws_cdf d a b g) q lo hi /\ hi - lo <= / 10 ^ 8 /\ lo < ws_ppf d a b g q < hi.
Proof.
  intros Hq. pose proof t12 as T. pose proof PI_gt3 as P3. pose proof PI_4 as P4. unfold ws_ppf.
  assert (C0 : isclose_tol 0 (/ 10 ^ 12) q 0 = false). { apply not_true_is_false. unfold isclose_tol. rewrite Rleb_true, Rabs_pos_eq by lra. lra. }
  assert (C1 : isclose_tol 0 (/ 10 ^ 12) q 1 = false). { apply not_true_is_false. unfold isclose_tol. rewrite Rleb_true, Rabs_minus_sym, Rabs_pos_eq by lra. lra. }
  rewrite C0, C1. cbv zeta.
  assert (B : brk (ws_cdf d a b g) q 0 (2 * PI)).
  { unfold brk. rewrite <- !ws_G_cdf by lra. unfold ws_G. rewrite (proj2 (Rleb_false _ 0)) by lra. rewrite (proj2 (Rltb_false 0 0)) by lra.
    rewrite (proj2 (Rleb_true _ (2 * PI))) by lra. repeat split; lra. }
  pose proof (ws_newton_spec (ws_cdf d a b g) (ws_pdf d a b g) q 60 0 (2 * PI) (q * (2 * PI)) B ltac:(split; nra)) as N.
  destruct (ws_newton _ _ _ _ _ _ _) as [[[lo hi] th] st]. destruct N as (B' & Ht & Hw).
  destruct st.
  - exists lo, hi. specialize (Hw eq_refl). split; [exact B'|]. split; [lra|].
    destruct B' as (B1 & B2 & B3 & _). rewrite (pymod_unique _ (2 * PI) th); [exact Ht|lra|]. exists 1%Z. ring.
  - destruct (ws_bisect_spec (ws_cdf d a b g) q 30 lo hi B') as (lo' & hi' & B2 & W & E). exists lo', hi'. split; [exact B2|]. rewrite E.
    destruct B' as (X1 & X2 & X3 & _). destruct B2 as (Y1 & Y2 & Y3 & _). split; [rewrite W; lra|].
    rewrite (pymod_unique _ (2 * PI) (1 / 2 * (lo' + hi'))); [lra|lra|]. exists 1%Z. ring.
Qed.
Lemma ws_ppf_inverts d a b g q : ws_ok d a b g = true -> / 10 ^ 12 < q < 1 - / 10 ^ 12 ->
  exists th lo hi u v, public_ppf (ws_ok d a b g) (ws_ppf d a b g) q = Fin th /\ 0 <= lo < th /\ th < hi <= 2 * PI /\ hi - lo <= / 10 ^ 8 /\
    public_cdf (ws_ok d a b g) (ws_cdf d a b g) lo = Fin u /\ public_cdf (ws_ok d a b g) (ws_cdf d a b g) hi = Fin v /\ u <= q < v.
Proof.
  intros Hok Hq. pose proof t12 as T. destruct (ws_ppf_brk d a b g q Hq) as (lo & hi & (B1 & B2 & B3 & B4 & B5) & W & Ht).
  exists (ws_ppf d a b g q), lo, hi, (ws_G d a b g lo), (ws_G d a b g hi). rewrite !ws_public by (try assumption; lra).
  rewrite !ws_G_cdf by lra. split; [|repeat split; lra]. rewrite Hok. unfold public_ppf. cbn [negb].
  rewrite !(proj2 (Rltb_true _ _)) by lra. reflexivity.
Qed.
(** A root of the distribution function nearby. *)
Lemma ws_ppf_root d a b g q w : ws_ok d a b g = true -> (forall t, 0 <= t <= 2 * PI -> 0 <= ws_pdf d a b g t) ->
  / 10 ^ 12 < q < 1 - / 10 ^ 12 -> integral (ws_pdf d a b g) 0 (2 * PI - 7 / 10 ^ 5) w -> q < w ->
  exists th t, public_ppf (ws_ok d a b g) (ws_ppf d a b g) q = Fin th /\ 0 <= t <= 2 * PI /\ Rabs (th - t) <= 2 / 10 ^ 8 /\ integral (ws_pdf d a b g) 0 t q.
Proof.
  intros Hok N Hq I Hw. pose proof t12 as T. pose proof PI_gt3 as P3. pose proof pi_hi as P4.
  destruct (ws_ppf_brk d a b g q Hq) as (lo & hi & (B1 & B2 & B3 & B4 & B5) & W & Ht).
  set (F := ws_raw d a b g) in *. set (e := 2 * PI - 7 / 10 ^ 5) in *.
  assert (Ew : w = F e). { pose proof (ws_int d a b g 0 e ltac:(unfold e; lra)) as J. rewrite ws_raw_0, Rminus_0_r in J. exact (integral_unique _ _ _ _ _ I J). }
  pose proof (mono_of_dlim F (ws_pdf d a b g) 0 (2 * PI) (fun y _ => ws_raw_d d a b g y) N) as M.
  rewrite <- ws_G_cdf in B4, B5 by lra. rewrite ws_G_cases in B4, B5 by (try assumption; lra). fold F in B4, B5.
  set (we := 2 * PI - (/ 10 ^ 12 + / 100000 * (2 * PI))) in *.
  assert (We : e + / 10 ^ 7 < we) by (unfold e, we; lra).
  destruct (Rleb_spec we lo) as [L1|L1]; [lra|].
  assert (Hlo : exists lo2, 0 <= lo2 <= lo /\ lo - lo2 <= / 10 ^ 12 /\ F lo2 <= q).
  { destruct (Rleb_spec lo (/ 10 ^ 12)) as [L2|L2].
    - exists 0. unfold F. rewrite ws_raw_0. lra.
    - exists lo. lra. }
  destruct Hlo as (lo2 & Q1 & Q2 & Q3).
  assert (Llo : lo2 < e). { apply Rnot_le_lt. intros Z. pose proof (M e lo2 ltac:(unfold e; lra) Z ltac:(lra)). lra. }
  destruct (Rleb_spec we hi) as [L3|L3]; [lra|]. destruct (Rleb_spec hi (/ 10 ^ 12)) as [L4|L4]; [lra|].
  destruct (IVT_cor (fun x => F x - q) lo2 hi) as (t & Ht1 & Ht2).
  - intros x. apply continuity_pt_minus; [eapply dlim_cont; apply ws_raw_d|apply cont_const].
  - lra.
  - nra.
  - exists (ws_ppf d a b g q), t. rewrite Hok. unfold public_ppf. cbn [negb]. rewrite !(proj2 (Rltb_true _ _)) by lra. split; [reflexivity|].
    split; [lra|]. split; [apply Rabs_le; lra|]. pose proof (ws_int d a b g 0 t ltac:(lra)) as J. rewrite ws_raw_0, Rminus_0_r in J.
    replace q with (ws_raw d a b g t) by (fold F; lra). exact J.
Qed.
