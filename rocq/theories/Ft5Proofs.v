(** How close the table is to the integral of the density. *)
From Verif Require Import Prelude NpModel NpProofs CircleSpec IntSpec IntProofs DistModel DistSpec DistProofs Dist2Proofs Dist4Proofs Dist5Proofs
  Dist6Proofs Dist7Proofs KjProofs Kj2Proofs Von3Proofs Von4Proofs JpProofs Jp3Proofs Wn3Proofs Wn6Proofs Ws3Proofs GaussProofs Von6Proofs Jp5Proofs
  FtModel FtSpec FtProofs Ft2Proofs Ft4Proofs.
From Coq Require Import Ranalysis5.

(** A positive function with logarithmic slope at most L, tabulated by the trapezoidal rule. *)
Record tabulated (N : nat) (f f' : R -> R) (L : R) (H : R -> R) : Prop := {
  tb_N : (0 < N)%nat;
  tb_pos : forall x, 0 < f x;
  tb_d : forall x, derivable_pt_lim f x (f' x);
  tb_c : forall x, continuity_pt f' x;
  tb_L : forall x, Rabs (f' x) <= L * f x;
  tb_turns : forall x (z : Z), f (x + 2 * PI * IZR z) = f x;
  tb_H : good_H H;
  tb_node : forall i, (i <= N)%nat -> H (node N i) = trap_cum N (fun j => f (node N j)) i }.

Lemma tb_cont N f f' L H : tabulated N f f' L H -> forall x, continuity_pt f x.
Proof. intros T x. exact (dlim_cont _ _ _ (tb_d _ _ _ _ _ T x)). Qed.
Lemma int_nonneg f a b v : a <= b -> (forall x, 0 < f x) -> integral f a b v -> 0 <= v.
Proof.
  intros ab P I. pose proof (integral_const a b 0) as K. assert (0 * (b - a) <= v); [|lra].
  refine (integral_le _ _ a b _ _ ab _ K I). intros x _. left. apply P.
Qed.
Lemma sub_integral f a b c d v w : (forall x, continuity_pt f x) -> (forall x, 0 < f x) -> a <= c -> c <= d -> d <= b ->
  integral f a b v -> integral f c d w -> 0 <= w <= v.
Proof.
  intros C P ac cd db I J. destruct (continuous_integral f a c) as [v1 I1]; [lra|intros; apply C|]. destruct (continuous_integral f d b) as [v2 I2]; [lra|intros; apply C|].
  pose proof (integral_unique _ _ _ _ _ I (integral_split _ _ _ _ _ _ (integral_split _ _ _ _ _ _ I1 J) I2)) as E.
  pose proof (int_nonneg f a c v1 ac P I1). pose proof (int_nonneg f d b v2 db P I2).
  pose proof (int_nonneg f c d w cd P J). lra.
Qed.
Lemma tb_sup N f f' L H M : tabulated N f f' L H -> 0 <= L -> integral f (- PI) PI M -> forall x, - PI <= x <= PI -> f x <= M / (2 * PI) + L * M.
Proof.
  intros T HL I x Hx. pose proof PI_gt3. pose proof (tb_cont _ _ _ _ _ T) as C. pose proof (tb_pos _ _ _ _ _ T) as P.
  assert (V : forall a b, - PI <= a -> a <= b -> b <= PI -> Rabs (f b - f a) <= L * M).
  { intros a b Ha ab Hb. pose proof (ftc f' f a b ab ltac:(intros t _; apply (tb_c _ _ _ _ _ T)) ltac:(intros t _; apply (tb_d _ _ _ _ _ T))) as F.
    destruct (continuous_integral f a b) as [w W]; [lra|intros; apply C|]. pose proof (sub_integral f (- PI) PI a b M w C P Ha ab Hb I W) as [W0 W1].
    pose proof (integral_scal f a b L w ab W) as W2. pose proof (integral_scal f a b (- L) w ab W) as W3.
    assert (f b - f a <= L * w). { refine (integral_le _ _ a b _ _ ab _ F W2). intros t _. pose proof (tb_L _ _ _ _ _ T t) as Q. apply abs_le_inv in Q. lra. }
    assert (- L * w <= f b - f a). { refine (integral_le _ _ a b _ _ ab _ W3 F). intros t _. pose proof (tb_L _ _ _ _ _ T t) as Q. apply abs_le_inv in Q. lra. }
    apply Rabs_le. assert (L * w <= L * M) by (apply Rmult_le_compat_l; lra). lra. }
  assert (Y : forall y, - PI <= y <= PI -> f x - L * M <= f y).
  { intros y Hy. destruct (Rle_lt_dec x y) as [L1|L1].
    - pose proof (V x y ltac:(lra) L1 ltac:(lra)) as Q. apply abs_le_inv in Q. lra.
    - pose proof (V y x ltac:(lra) ltac:(lra) ltac:(lra)) as Q. apply abs_le_inv in Q. lra. }
  pose proof (integral_const (- PI) PI (f x - L * M)) as K. pose proof (integral_le _ _ (- PI) PI _ _ ltac:(lra) Y K I) as B.
  replace (M / (2 * PI)) with (/ (2 * PI) * M) by (unfold Rdiv; ring). assert (f x - L * M <= / (2 * PI) * M); [|lra].
  apply Rmult_le_reg_l with (2 * PI); [lra|]. rewrite <- Rmult_assoc, Rinv_r by lra. lra.
Qed.
Lemma tb_mass N f f' L H M : tabulated N f f' L H -> integral f (- PI) PI M -> (1 - PI * L / INR N) * M <= 1 <= (1 + PI * L / INR N) * M.
Proof.
  intros T I. pose proof (tb_N _ _ _ _ _ T) as HN. pose proof (trap_error f f' L N HN (tb_d _ _ _ _ _ T) (tb_c _ _ _ _ _ T) (tb_L _ _ _ _ _ T) N M) as E.
  rewrite <- (tb_node _ _ _ _ _ T N) in E by lia. rewrite node_N in E by exact HN. rewrite (gh_hi _ (tb_H _ _ _ _ _ T)) in E. apply E, I.
Qed.
Lemma tb_near N f f' L H M : tabulated N f f' L H -> 0 <= L -> integral f (- PI) PI M -> forall phi g, - PI <= phi < PI -> integral f (- PI) phi g ->
  Rabs (H phi - g) <= M * (1 + 3 * PI * L) / INR N.
Proof.
  intros T HL I phi g Hp J. pose proof PI_gt3. pose proof (tb_N _ _ _ _ _ T) as HN. pose proof (tb_cont _ _ _ _ _ T) as C. pose proof (tb_pos _ _ _ _ _ T) as P.
  pose proof (lt_0_INR _ HN) as HN'. destruct (cell_ro N phi HN Hp) as (i & Hi & Bi).
  assert (N0 : - PI <= node N i) by (rewrite <- (node_0 N); apply node_le; lia). assert (N1 : node N (S i) <= PI) by (rewrite <- (node_N N HN); apply node_le; lia).
  destruct (continuous_integral f (- PI) (node N i)) as [g0 G0]; [lra|intros; apply C|].
  destruct (continuous_integral f (- PI) (node N (S i))) as [g1 G1]; [lra|intros; apply C|].
  destruct (continuous_integral f (node N i) (node N (S i))) as [d D]; [lra|intros; apply C|].
  pose proof (integral_unique _ _ _ _ _ G1 (integral_split _ _ _ _ _ _ G0 D)) as E1.
  pose proof (sub_integral f (- PI) phi (- PI) (node N i) g g0 C P ltac:(lra) ltac:(lra) ltac:(lra) J G0) as B0.
  pose proof (sub_integral f (- PI) (node N (S i)) (- PI) phi g1 g C P ltac:(lra) ltac:(lra) ltac:(lra) G1 J) as B1.
  pose proof (sub_integral f (- PI) PI (- PI) (node N (S i)) M g1 C P ltac:(lra) ltac:(lra) ltac:(lra) I G1) as B2.
  pose proof (trap_error f f' L N HN (tb_d _ _ _ _ _ T) (tb_c _ _ _ _ _ T) (tb_L _ _ _ _ _ T) i g0 G0) as [T0 _].
  pose proof (trap_error f f' L N HN (tb_d _ _ _ _ _ T) (tb_c _ _ _ _ _ T) (tb_L _ _ _ _ _ T) (S i) g1 G1) as [_ T1].
  rewrite <- (tb_node _ _ _ _ _ T) in T0 by lia. rewrite <- (tb_node _ _ _ _ _ T) in T1 by lia.
  pose proof (tb_H _ _ _ _ _ T) as GH.
  assert (Ha0 : H (node N i) <= H phi). { destruct (Req_dec (node N i) phi) as [->|]; [lra|]. left. apply (gh_inc _ GH); lra. }
  assert (Ha1 : H phi <= H (node N (S i))). { left. apply (gh_inc _ GH); lra. }
  assert (Dd : d <= M * (1 + 2 * PI * L) / INR N).
  { pose proof (integral_const (node N i) (node N (S i)) (M / (2 * PI) + L * M)) as K.
    pose proof (integral_le f (fun _ => M / (2 * PI) + L * M) (node N i) (node N (S i)) d _ ltac:(lra) ltac:(intros x Hx; apply (tb_sup N f f' L H M T HL I); lra) D K) as Q.
    replace (M * (1 + 2 * PI * L) / INR N) with ((M / (2 * PI) + L * M) * (node N (S i) - node N i)) by (rewrite node_S; field; lra). lra. }
  set (e := PI * L / INR N) in *. assert (e0 : 0 <= e) by (unfold e, Rdiv; apply Rmult_le_pos; [apply Rmult_le_pos; lra|left; apply Rinv_0_lt_compat, HN']).
  replace (M * (1 + 3 * PI * L) / INR N) with (M * (1 + 2 * PI * L) / INR N + e * M) by (unfold e; field; lra).
  assert (e * g1 <= e * M) by (apply Rmult_le_compat_l; lra). assert (e * g0 <= e * M) by (apply Rmult_le_compat_l; lra).
  apply Rabs_le. lra.
Qed.

Lemma tb_arc N f f' L H M mu : tabulated N f f' L H -> 0 <= L -> integral f (- PI) PI M -> forall x v, 0 < x < 2 * PI ->
  integral (fun t => f (t - mu)) 0 x v -> Rabs (from_zero H mu x - v) <= M * (2 + 7 * PI * L) / INR N.
Proof.
  intros T HL I x v Hx J. pose proof PI_gt3. pose proof (tb_cont _ _ _ _ _ T) as C. pose proof (lt_0_INR _ (tb_N _ _ _ _ _ T)) as HN.
  destruct (from_zero_unwrap H mu x (tb_H _ _ _ _ _ T) Hx) as [E _]. rewrite E. clear E.
  pose proof (centre_range (- mu)) as Rg. destruct (centre_turns (- mu)) as [z Ez]. set (s := pymod (- mu + PI) (2 * PI) - PI) in *.
  assert (J' : integral f s (s + x) v).
  { destruct (continuous_integral f s (s + x)) as [w W]; [lra|intros; apply C|]. enough (v = w) as -> by exact W.
    apply (integral_unique _ _ _ _ _ J). apply int_shift_to; [lra|exact C|]. apply (int_turns f z); [lra|exact C|intros; apply (tb_turns _ _ _ _ _ T)|].
    replace (0 - mu + 2 * PI * IZR z) with s by lra. replace (x - mu + 2 * PI * IZR z) with (s + x) by lra. exact W. }
  destruct (continuous_integral f (- PI) s) as [g G]; [lra|intros; apply C|].
  pose proof (tb_near N f f' L H M T HL I s g ltac:(lra) G) as Q1. apply abs_le_inv in Q1.
  pose proof (tb_mass N f f' L H M T I) as Q3. set (e := PI * L / INR N) in *.
  replace (M * (2 + 7 * PI * L) / INR N) with (2 * (M * (1 + 3 * PI * L) / INR N) + e * M) by (unfold e; field; lra).
  assert (eM : 0 <= e * M). { assert (0 <= M). { apply (int_nonneg f (- PI) PI); [lra|apply (tb_pos _ _ _ _ _ T)|exact I]. }
    apply Rmult_le_pos; [|assumption]. unfold e, Rdiv. apply Rmult_le_pos; [apply Rmult_le_pos; lra|left; apply Rinv_0_lt_compat, HN]. }
  unfold unwrap. destruct (Rlt_le_dec (s + x) PI) as [A|A].
  - pose proof (integral_split _ _ _ _ _ _ G J') as G2. pose proof (tb_near N f f' L H M T HL I (s + x) _ ltac:(lra) G2) as Q2. apply abs_le_inv in Q2. apply Rabs_le. lra.
  - destruct (continuous_integral f (- PI) (s + x - 2 * PI)) as [h Hh]; [lra|intros; apply C|].
    pose proof (tb_near N f f' L H M T HL I (s + x - 2 * PI) h ltac:(lra) Hh) as Q2. apply abs_le_inv in Q2.
    destruct (continuous_integral f s PI) as [k K]; [lra|intros; apply C|]. destruct (continuous_integral f PI (s + x)) as [l Kl]; [lra|intros; apply C|].
    pose proof (integral_unique _ _ _ _ _ J' (integral_split _ _ _ _ _ _ K Kl)) as E1. pose proof (integral_unique _ _ _ _ _ I (integral_split _ _ _ _ _ _ G K)) as E2.
    assert (E3 : l = h).
    { apply (integral_unique f PI (s + x) l h Kl). apply (int_turns f (- 1)); [lra|exact C|intros; apply (tb_turns _ _ _ _ _ T)|].
      replace (PI + 2 * PI * IZR (- 1)) with (- PI) by (cbn; ring). replace (s + x + 2 * PI * IZR (- 1)) with (s + x - 2 * PI) by (cbn; ring). exact Hh. }
    apply Rabs_le. lra.
Qed.

Lemma tb_sup_all N f f' L H M : tabulated N f f' L H -> 0 <= L -> integral f (- PI) PI M -> forall x, f x <= M / (2 * PI) + L * M.
Proof.
  intros T HL I x. destruct (centre_turns x) as [z Ez]. pose proof (centre_range x). rewrite <- (tb_turns _ _ _ _ _ T x z), <- Ez. apply (tb_sup N f f' L H M T HL I). lra.
Qed.
Lemma tb_cdf N f f' L H M mu : tabulated N f f' L H -> (512 <= INR N) -> 0 <= L -> integral f (- PI) PI M -> forall x v, 0 <= x <= 2 * PI ->
  integral (fun t => f (t - mu)) 0 x v -> Rabs (pub_F (flagged (from_zero H mu)) x - v) <= M * (2 + 7 * PI * L) / 512.
Proof.
  intros T HN HL I x v Hx J. pose proof PI_gt3. pose proof pi_hi. pose proof (tb_cont _ _ _ _ _ T) as C. pose proof (tb_pos _ _ _ _ _ T) as P.
  assert (M0 : 0 <= M) by (apply (int_nonneg f (- PI) PI); [lra|exact P|exact I]).
  assert (L0 : 0 <= PI * L) by (apply Rmult_le_pos; lra).
  assert (B : forall c, 0 <= c -> M * c / INR N <= M * c / 512).
  { intros c Hc. unfold Rdiv. apply Rmult_le_compat_l; [apply Rmult_le_pos; lra|apply Rinv_le_contravar; lra]. }
  assert (ML : 0 <= M * (PI * L)) by (apply Rmult_le_pos; lra).
  pose proof (tb_mass N f f' L H M T I) as Q3. replace (PI * L / INR N) with (PI * L * / INR N) in Q3 by reflexivity.
  assert (Q4 : - (M * (PI * L) / 512) <= 1 - M <= M * (PI * L) / 512).
  { pose proof (B (PI * L) L0) as Q5. unfold Rdiv in Q5 at 1. lra. }
  pose proof (shift_turn f mu M C (tb_turns _ _ _ _ _ T) I) as I2.
  assert (C2 : forall t, continuity_pt (fun t => f (t - mu)) t) by (intros t; apply continuity_shift, C).
  unfold pub_F. rewrite wrap_in by exact Hx. destruct (Rleb_spec (2 * PI) x) as [A|A].
  - assert (x = 2 * PI) as -> by lra. rewrite (integral_unique _ _ _ _ _ J I2). apply Rabs_le. lra.
  - destruct (Rltb_spec 0 x) as [A0|A0].
    + destruct (Rle_lt_dec (Rabs (x - 2 * PI)) (/ 10 ^ 12)) as [K|K].
      * rewrite (flagged_hit _ x K). rewrite Rabs_left in K by lra. destruct (continuous_integral (fun t => f (t - mu)) x (2 * PI)) as [w W]; [lra|intros; apply C2|].
        pose proof (integral_unique _ _ _ _ _ I2 (integral_split _ _ _ _ _ _ J W)) as E.
        pose proof (int_nonneg (fun t => f (t - mu)) x (2 * PI) w ltac:(lra) ltac:(intros; apply P) W) as W0.
        pose proof (integral_le _ _ x (2 * PI) _ _ ltac:(lra) ltac:(intros t _; exact (tb_sup_all N f f' L H M T HL I (t - mu))) W (integral_const x (2 * PI) (M / (2 * PI) + L * M))) as W1.
        assert (S0 : 0 <= M / (2 * PI) + L * M). { pose proof (tb_sup_all N f f' L H M T HL I 0). pose proof (P 0). lra. }
        assert (W2 : w <= (M / (2 * PI) + L * M) * / 10 ^ 12). { eapply Rle_trans; [exact W1|]. apply Rmult_le_compat_l; lra. }
        assert (S1 : M / (2 * PI) <= M). { unfold Rdiv. rewrite <- (Rmult_1_r M) at 2. apply Rmult_le_compat_l; [exact M0|]. rewrite <- Rinv_1. apply Rinv_le_contravar; lra. }
        assert (S2 : L * M <= M * (PI * L)). { assert (0 <= L * M) by (apply Rmult_le_pos; lra). nra. }
        assert (W3 : w <= (M + M * (PI * L)) / 512). { eapply Rle_trans; [exact W2|]. unfold Rdiv. apply Rmult_le_compat; lra. }
        apply Rabs_le. lra.
      * rewrite (flagged_miss _ x K). eapply Rle_trans; [apply (tb_arc N f f' L H M mu T HL I x v); [lra|exact J]|]. apply B. lra.
    + assert (x = 0) as -> by lra. assert (v = 0) as ->. { destruct J as [pr <-]. apply RiemannInt_P9. } rewrite Rminus_0_r, Rabs_R0.
      pose proof (B (2 + 7 * PI * L) ltac:(lra)). assert (0 <= M * (2 + 7 * PI * L)) by (apply Rmult_le_pos; lra). lra.
Qed.

(** ** The flat-topped distribution *)
Lemma ft_tab pchip kappa nu : is_pchip pchip -> 0 <= kappa <= 348 ->
  tabulated (ft_size kappa nu) (fun x => ft_shape kappa nu x / ft_T kappa nu)
    (fun x => kappa * (- sin (x + nu * sin x) * (1 + nu * cos x)) * ft_shape kappa nu x / ft_T kappa nu) (kappa * (1 + Rabs nu)) (ft_H pchip kappa nu).
Proof.
  intros HP Hk. pose proof (ft_size_range kappa nu) as [HN _]. pose proof (ft_T_pos kappa nu) as TP. destruct (ft_good pchip kappa nu HP Hk) as (G & Nd & _). split.
  - lia.
  - intros x. apply Rdiv_lt_0_compat; [apply exp_pos|exact TP].
  - intros x. apply dlim_divc, ft_shape_d.
  - intros x. unfold Rdiv. apply cont_mult; [|apply cont_const]. apply cont_mult; [|apply ft_shape_cont]. apply derivable_continuous_pt. reg.
  - intros x. unfold Rdiv. rewrite Rabs_mult, (Rabs_pos_eq (/ ft_T kappa nu)) by (left; apply Rinv_0_lt_compat, TP).
    rewrite <- (Rmult_assoc (kappa * (1 + Rabs nu))). apply Rmult_le_compat_r; [left; apply Rinv_0_lt_compat, TP|]. apply ft_shape_d_bound. lra.
  - intros x z. rewrite ft_shape_turns. reflexivity.
  - exact G.
  - exact Nd.
Qed.
Lemma ft_cdf_flag pchip mu kappa nu x : 0 <= kappa <= 1000 -> ft_ktol < kappa -> ft_cdf pchip mu kappa nu x = flagged (from_zero (ft_H pchip kappa nu) mu) x.
Proof.
  intros Hk Hs. unfold ft_cdf, ft_kmax. rewrite clip_id by lra. cbv zeta. rewrite (proj2 (Rleb_false _ _)) by exact Hs. reflexivity.
Qed.
Lemma ft_cdf_law pchip mu kappa nu : is_pchip pchip -> ft_ok mu kappa nu = true -> kappa <= 348 ->
  exists F f M, (forall x, ft_public_cdf pchip mu kappa nu x = Fin (F x)) /\ (forall x, ft_public_pdf mu kappa nu x = Fin (f x)) /\ integral f 0 (2 * PI) M /\
    F 0 = 0 /\ F (2 * PI) = 1 /\ (forall a b, 0 <= a -> a <= b -> b <= 2 * PI -> F a <= F b) /\
    (forall x v, 0 <= x <= 2 * PI -> integral f 0 x v -> Rabs (F x - v) <= M * (2 + 7 * PI * kappa * (1 + Rabs nu)) / 512).
Proof.
  intros HP Hok Hs. pose proof PI_gt3. pose proof pi_hi. pose proof (proj1 (ft_ok_spec _ _ _) Hok) as (Hm & Hk & Hn).
  assert (F1 : forall G, pub_F G 0 = 0 /\ pub_F G (2 * PI) = 1).
  { intros G. unfold pub_F. rewrite !wrap_in by lra. rewrite (proj2 (Rleb_false (2 * PI) 0)), (proj2 (Rltb_false 0 0)), (proj2 (Rleb_true (2 * PI) (2 * PI))) by lra. split; reflexivity. }
  exists (pub_F (ft_cdf pchip mu kappa nu)), (ft_pdf mu kappa nu).
  destruct (Rle_lt_dec kappa ft_ktol) as [Hz|Hz].
  - assert (Ef : forall x, ft_pdf mu kappa nu x = 1 / (2 * PI)). { intros x. rewrite ft_pdf_eq by exact Hk. rewrite (proj2 (Rleb_true _ _)) by exact Hz. reflexivity. }
    assert (If : forall b, 0 <= b -> integral (ft_pdf mu kappa nu) 0 b (b / (2 * PI))).
    { intros b Hb. apply (integral_ext (fun _ => 1 / (2 * PI))); [exact Hb|intros; symmetry; apply Ef|]. apply (integral_val _ _ _ (1 / (2 * PI) * (b - 0))); [field; lra|apply integral_const]. }
    assert (Ec : forall x, 0 <= x <= 2 * PI -> pub_F (ft_cdf pchip mu kappa nu) x = if Rle_lt_dec (2 * PI - x) (/ 10 ^ 12) then 1 else x / (2 * PI)).
    { intros x Hx. unfold pub_F. rewrite wrap_in by exact Hx. unfold ft_cdf, ft_kmax, isclose_tol. rewrite clip_id by lra. cbv zeta. rewrite (proj2 (Rleb_true kappa ft_ktol)) by exact Hz.
      rewrite (Rabs_left1 (x - 2 * PI)) by lra. destruct (Rleb_spec (2 * PI) x).
      - destruct (Rle_lt_dec _ _) as [|X]; [reflexivity|]. assert (0 < / 10 ^ 12) by (apply Rinv_0_lt_compat, pow_lt; lra). lra.
      - destruct (Rle_lt_dec _ _) as [X|X].
        + rewrite (proj2 (Rltb_true _ _)) by lra. rewrite (proj2 (Rleb_true _ _)) by lra. reflexivity.
        + destruct (Rltb_spec 0 x); [rewrite (proj2 (Rleb_false _ _)) by lra; reflexivity|]. replace x with 0 by lra. field. lra. }
    assert (N2 : forall a b, a <= b -> a / (2 * PI) <= b / (2 * PI)). { intros a b ab. unfold Rdiv. apply Rmult_le_compat_r; [left; apply Rinv_0_lt_compat; lra|exact ab]. }
    assert (N1 : 2 * PI / (2 * PI) = 1) by (field; lra).
    exists 1. split; [intros; unfold ft_public_cdf; rewrite Hok; apply public_cdf_fin|]. split; [intros; apply ft_public_eq, Hok|].
    split; [rewrite <- N1; apply If; lra|]. split; [apply F1|split; [apply F1|split]].
    + intros a b Ha ab Hb. rewrite !Ec by lra. pose proof (N2 a b ab). pose proof (N2 a (2 * PI) ltac:(lra)). destruct (Rle_lt_dec (2 * PI - a) _), (Rle_lt_dec (2 * PI - b) _); lra.
    + intros x v Hx J. rewrite (integral_unique _ _ _ _ _ J (If x ltac:(lra))), Ec by exact Hx. pose proof (Rabs_pos nu) as An.
      assert (B0 : 0 <= PI * kappa * (1 + Rabs nu)) by (apply Rmult_le_pos; [apply Rmult_le_pos; lra|lra]). destruct (Rle_lt_dec _ _) as [X|X].
      * replace (1 - x / (2 * PI)) with ((2 * PI - x) / (2 * PI)) by (field; lra). rewrite Rabs_pos_eq by (unfold Rdiv; apply Rmult_le_pos; [lra|left; apply Rinv_0_lt_compat; lra]).
        assert ((2 * PI - x) / (2 * PI) <= 2 * PI - x). { unfold Rdiv. rewrite <- (Rmult_1_r (2 * PI - x)) at 2. apply Rmult_le_compat_l; [lra|]. rewrite <- Rinv_1. apply Rinv_le_contravar; lra. }
        lra.
      * rewrite Rminus_eq_0, Rabs_R0. lra.
  - destruct (ft_shape_I kappa nu) as (v & I & V). pose proof (ft_T_pos kappa nu) as T0. exists (v / ft_T kappa nu).
    pose proof (ft_tab pchip kappa nu HP ltac:(lra)) as T.
    assert (I2 : integral (fun x => ft_shape kappa nu x / ft_T kappa nu) (- PI) PI (v / ft_T kappa nu)).
    { apply (integral_ext (fun x => / ft_T kappa nu * ft_shape kappa nu x)); [lra|intros; unfold Rdiv; ring|]. apply (integral_val _ _ _ (/ ft_T kappa nu * v)); [unfold Rdiv; ring|]. apply integral_scal; [lra|exact I]. }
    assert (Ec : forall x, pub_F (ft_cdf pchip mu kappa nu) x = pub_F (flagged (from_zero (ft_H pchip kappa nu) mu)) x).
    { intros x. unfold pub_F. rewrite ft_cdf_flag by assumption. reflexivity. }
    split; [intros; unfold ft_public_cdf; rewrite Hok; apply public_cdf_fin|]. split; [intros; apply ft_public_eq, Hok|].
    split; [apply ft_int; assumption|]. split; [apply F1|split; [apply F1|split]].
    + intros a b Ha ab Hb. rewrite !Ec. apply table_cdf_mono; [apply (tb_H _ _ _ _ _ T)|assumption..].
    + intros x w Hx J. rewrite Ec, Rmult_assoc with (r2 := kappa), <- (Rmult_assoc (7 * PI)), (Rmult_assoc (7 * PI)).
      refine (tb_cdf (ft_size kappa nu) _ _ (kappa * (1 + Rabs nu)) (ft_H pchip kappa nu) (v / ft_T kappa nu) mu T (ft_size_INR kappa nu) _ I2 x w Hx _).
      * pose proof (Rabs_pos nu). apply Rmult_le_pos; lra.
      * apply (integral_ext (ft_pdf mu kappa nu)); [lra| |exact J]. intros t _. rewrite ft_pdf_eq by exact Hk. rewrite (proj2 (Rleb_false kappa ft_ktol)) by exact Hz. reflexivity.
Qed.
