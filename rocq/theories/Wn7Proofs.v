(** wrapnorm: accuracy of cdf and ppf, law of rvs. *)
From Verif Require Import Prelude NpModel NpProofs UtilsModel UtilsProofs DescModel DescProofs CircleSpec IntSpec IntProofs DistModel DistSpec DistProofs Dist2Proofs Dist4Proofs Dist5Proofs
  Dist6Proofs Dist7Proofs Dist8Proofs KjProofs Kj2Proofs Kj6Proofs Kj7Proofs Von2Proofs Von3Proofs Von4Proofs Von5Proofs Von6Proofs WnModel WnSpec WnProofs FourierProofs GaussProofs Wn2Proofs Wn3Proofs Wn4Proofs Wn5Proofs Wn6Proofs.

Lemma wn_density mu rho : wn_ok mu rho = true -> rho <= 94 / 100 -> pdf_is_density (public_pdf (wn_ok mu rho) (wn_pdf mu rho)).
Proof.
  intros Hok Hr. rewrite Hok. apply wn_ok_spec in Hok as [Hm H]. apply density_intro.
  - intros. apply wn_cont.
  - intros. apply Rlt_le, wn_pos; [exact Hm|lra].
  - rewrite <- (wn_per mu rho 0). f_equal. ring.
  - apply wn_total, Hm.
Qed.
Lemma tail_small rho : 0 < rho <= 24 / 25 -> 0 <= wn_tail rho <= / 10 ^ 15.
Proof.
  intros H. unfold wn_tail. assert (B : rho ^ 900 <= / 2 ^ 52).
  { apply Rle_trans with (rho ^ (17 * 52)); [apply pow_mono_dec; [lra|lia]|]. rewrite pow_mult. replace (/ 2 ^ 52) with ((/ 2) ^ 52) by (rewrite pow_inv by lra; reflexivity).
    apply pow_incr. split; [apply pow_le; lra|]. apply Rle_trans with ((24 / 25) ^ 17); [apply pow_incr; lra|lra]. }
  assert (P : 0 < rho ^ 900) by (apply pow_lt; lra). set (c := rho ^ 900) in *. split.
  - apply Rlt_le, Rdiv_lt_0_compat; lra.
  - apply Rmult_le_reg_r with (45 * (1 - rho)); [lra|]. replace (c / (45 * (1 - rho)) * (45 * (1 - rho))) with c by (field; lra).
    apply Rle_trans with (/ 10 ^ 15 * (9 / 5)); [lra|]. apply Rmult_le_compat_l; [lra|lra].
Qed.
Lemma GN_uniform rho m x : 0 < rho <= / 10 ^ 12 -> Rabs (GN rho m 29 x - x / (2 * PI)) <= / 10 ^ 12.
Proof.
  intros H. pose proof (GN_tail2 rho m 0 29 x ltac:(lra) ltac:(lia)) as T. change (GN rho m 0 x) with (x / (2 * PI)) in T.
  eapply Rle_trans; [exact T|]. change (INR 1) with 1. change (1 ^ 2)%nat with 1%nat. rewrite pow_1.
  apply Rmult_le_reg_r with (1 - rho); [lra|]. replace (2 / (3 * 1) * rho / (1 - rho) * (1 - rho)) with (2 / 3 * rho) by (field; lra). lra.
Qed.
Lemma wn_cdf_inner Phi mu rho x v : is_ndtr Phi -> wn_ok mu rho = true -> rho <= 1 - / 10 ^ 15 -> 0 < x < 2 * PI -> isclose x (2 * PI) = false ->
  integral (wn_pdf mu rho) 0 x v -> Rabs (wn_cdf Phi mu rho x - v) <= / 10 ^ 12 + wn_tail rho.
Proof.
  intros H Hok Hr Hx Hc I. apply wn_ok_spec in Hok as [Hm H1]. rewrite (GN_int mu rho x v ltac:(lra) I).
  assert (T0 : 0 <= wn_tail rho) by (apply Rlt_le, Rdiv_lt_0_compat; [apply pow_lt; lra|lra]).
  unfold wn_cdf. cbv zeta. unfold close_2pi. rewrite Hc. destruct (Rleb_spec rho (/ 10 ^ 12)) as [L|L].
  - pose proof (GN_uniform rho mu x ltac:(lra)) as G. rewrite Rabs_minus_sym in G. lra.
  - apply Rnot_le_lt in L. destruct (sigma_spec rho ltac:(lra)) as [E S60]. pose proof (cp_close Phi mu (wn_sigma rho) x H (wn_sigma_pos rho) S60 Hm ltac:(lra)) as C. rewrite E in C. lra.
Qed.
Lemma wn_cdf_acc Phi mu rho x v : is_ndtr Phi -> wn_ok mu rho = true -> rho <= 1 - / 10 ^ 15 -> 0 < x < 2 * PI -> isclose x (2 * PI) = false ->
  integral (wn_pdf mu rho) 0 x v -> exists u, public_cdf (wn_ok mu rho) (wn_cdf Phi mu rho) x = Fin u /\
    Rabs (u - v) <= / 10 ^ 12 + rho ^ 900 / (45 * (1 - rho)) /\ (rho <= 24 / 25 -> Rabs (u - v) <= 2 / 10 ^ 12).
Proof.
  intros H Hok Hr Hx Hc I. pose proof (wn_cdf_inner Phi mu rho x v H Hok Hr Hx Hc I) as B. exists (wn_cdf Phi mu rho x).
  rewrite Hok, public_cdf_fin. unfold pub_F. rewrite wrap_in by lra. rewrite (proj2 (Rleb_false _ _)), (proj2 (Rltb_true 0 x)) by lra.
  split; [reflexivity|]. split; [exact B|]. intros L. apply wn_ok_spec in Hok as [_ H1]. pose proof (tail_small rho ltac:(lra)). lra.
Qed.
Lemma wn_not_describes Phi mu rho : wn_ok mu rho = true -> rho <= 94 / 100 ->
  ~ describes (public_pdf (wn_ok mu rho) (wn_pdf mu rho)) (public_cdf (wn_ok mu rho) (wn_cdf Phi mu rho)).
Proof.
  intros Hok Hr (f & F & Ep & Ec & _ & _ & F0 & F1 & Hint & _). pose proof PI_gt3 as P3. rewrite Hok in *.
  pose proof (pub_pdf_on _ _ Ep) as Ef. set (x := 2 * PI - 6 / 100000). assert (Hx : 0 < x < 2 * PI) by (unfold x; lra).
  assert (C : close_2pi x = true) by (apply close_2pi_spec; [lra|]; unfold x; lra).
  assert (Fx : F x = 1).
  { assert (E : Fin (F x) = Fin 1); [|congruence]. rewrite <- Ec, public_cdf_fin. unfold pub_F. rewrite wrap_in by lra.
    rewrite (proj2 (Rleb_false _ _)), (proj2 (Rltb_true 0 x)) by lra. f_equal. unfold wn_cdf. cbv zeta. rewrite C. destruct (Rleb rho _); reflexivity. }
  destruct (Hint x (2 * PI)) as [_ I]; [lra|lra|lra|]. rewrite Fx, F1 in I.
  assert (I2 : integral (wn_pdf mu rho) x (2 * PI) 0) by (replace 0 with (1 - 1) by ring; revert I; apply integral_ext; [lra|intros t Ht; apply Ef; lra]).
  apply wn_ok_spec in Hok as [Hm H1].
  assert (Z : wn_pdf mu rho (2 * PI - 3 / 100000) = 0).
  { refine (zero_integral (wn_pdf mu rho) x (2 * PI) _ _ _ I2 _ _); [lra|intros; apply wn_cont|intros; apply Rlt_le, wn_pos; [exact Hm|lra]|unfold x; lra]. }
  pose proof (wn_pos mu rho (2 * PI - 3 / 100000) Hm ltac:(lra)). lra.
Qed.

(** ** ppf *)
Lemma wn_pdf_mod mu rho x : wn_pdf (pymod mu (2 * PI)) rho x = wn_pdf mu rho x.
Proof.
  destruct (pymod_cong mu (2 * PI)) as [k Hk]. set (m := pymod mu (2 * PI)) in *. rewrite Hk.
  rewrite <- (wn_per_z (m + 2 * PI * IZR k) rho x k). rewrite !wn_cpoly. f_equal. ring.
Qed.
Definition brk (G : R -> R * R) (q L H : R) : Prop :=
  0 <= L <= 2 * PI /\ 0 <= H <= 2 * PI /\ (L = 0 \/ fst (G L) <= q) /\ (H = 2 * PI \/ q < fst (G H)).
Lemma newton_spec G q n : forall L H th, brk G q L H -> 0 <= th <= 2 * PI ->
  let '(L', H', th') := wn_newton G q n L H th in brk G q L' H' /\ 0 <= th' <= 2 * PI.
Proof.
  pose proof PI_RGT_0 as HP. induction n as [|n IH]; intros L H th B Ht; cbn [wn_newton]; cbv zeta.
  all: assert (B' : brk G q (if Rleb (fst (G th) - q) 0 then th else L) (if Rltb 0 (fst (G th) - q) then th else H)).
  1,3: destruct B as (B1 & B2 & B3 & B4); destruct (Rleb_spec (fst (G th) - q) 0) as [A|A], (Rltb_spec 0 (fst (G th) - q)) as [C|C]; try lra; repeat split; try lra; try assumption; right; lra.
  - split; [exact B'|exact Ht].
  - destruct (Rleb (Rabs (fst (G th) - q)) (/ 10 ^ 12)); [split; [exact B'|exact Ht]|]. apply IH; [exact B'|]. apply clip_range. lra.
Qed.
Lemma bisect_spec G F q e n : (forall x, 0 <= x <= 2 * PI -> continuity_pt F x) -> 0 <= e -> (forall x, 0 <= x <= 2 * PI -> Rabs (fst (G x) - F x) <= e) ->
  forall L H, 0 <= L -> L <= H -> H <= 2 * PI -> F L <= q + e -> q - e <= F H ->
  let th := wn_bisect G q n L H in 0 <= th <= 2 * PI /\ exists th', 0 <= th' <= 2 * PI /\ Rabs (th - th') <= (H - L) / 2 ^ n /\ Rabs (F th' - q) <= e + / 10 ^ 12.
Proof.
  intros C He HG. assert (P12 : 0 < / 10 ^ 12) by (apply Rinv_0_lt_compat, pow_lt; lra).
  induction n as [|n IH]; intros L H H0 H1 H2 FL FH; cbn [wn_bisect]; cbv zeta.
  - split; [lra|]. destruct (ivt_near F L H q e H1) as (y & Hy & Ey); try assumption; [intros; apply C; lra|].
    exists y. split; [lra|]. split; [apply Rabs_le; cbn [pow]; lra|lra].
  - set (mid := 1 / 2 * (L + H)). assert (Hm : L <= mid <= H) by (unfold mid; lra). specialize (HG mid ltac:(lra)) as HGm. apply abs_le_inv in HGm.
    assert (P2 : 0 < 2 ^ n) by (apply pow_lt; lra).
    destruct (Rltb_spec (/ 10 ^ 12) (Rabs (fst (G mid) - q))) as [A|A].
    + destruct (Rltb_spec 0 (fst (G mid) - q)) as [B|B].
      * destruct (IH L mid ltac:(lra) ltac:(lra) ltac:(lra) FL ltac:(lra)) as (R1 & th' & T1 & T2 & T3). split; [exact R1|]. exists th'. split; [exact T1|]. split; [|exact T3].
        eapply Rle_trans; [exact T2|]. right. unfold mid. cbn [pow]. field. lra.
      * apply Rnot_lt_le in B. destruct (IH mid H ltac:(lra) ltac:(lra) ltac:(lra) ltac:(lra) FH) as (R1 & th' & T1 & T2 & T3). split; [exact R1|]. exists th'. split; [exact T1|]. split; [|exact T3].
        eapply Rle_trans; [exact T2|]. right. unfold mid. cbn [pow]. field. lra.
    + apply Rnot_lt_le in A. apply abs_le_inv in A. split; [lra|]. exists mid. split; [lra|]. split.
      * rewrite Rminus_diag_eq, Rabs_R0 by reflexivity. apply Rmult_le_pos; [lra|]. apply Rlt_le, Rinv_0_lt_compat, pow_lt. lra.
      * apply Rabs_le. lra.
Qed.
Lemma wn_ppf_acc Phi ndtri mu rho q : is_ndtr Phi -> wn_ok mu rho = true -> rho <= 24 / 25 -> 0 < q < 1 ->
  let th := wn_ppf Phi ndtri mu rho q in
  0 <= th < 2 * PI /\ exists th' w, 0 <= th' <= 2 * PI /\ Rabs (th - th') <= / 10 ^ 11 /\ integral (wn_pdf mu rho) 0 th' w /\ Rabs (w - q) <= 3 / 10 ^ 12.
Proof.
  intros HPhi Hok Hr Hq th. pose proof PI_gt3 as HP. pose proof pi_hi as HP2. apply wn_ok_spec in Hok as [Hm H1].
  set (m := pymod mu (2 * PI)). pose proof (pymod_range mu (2 * PI) ltac:(lra)) as Rm. fold m in Rm.
  assert (GI : forall x, 0 <= x -> integral (wn_pdf mu rho) 0 x (GN rho m 29 x)).
  { intros x Hx. apply (integral_ext (wn_pdf m rho)); [exact Hx|intros t _; apply wn_pdf_mod|].
    eapply integral_val; [|apply (ftc _ (GN rho m 29)); [exact Hx|intros; apply wn_cont|intros; rewrite wn_cpoly; apply GN_d]]. rewrite GN_0. ring. }
  assert (P12 : 0 < / 10 ^ 12) by (apply Rinv_0_lt_compat, pow_lt; lra). assert (P11 : / 10 ^ 12 < / 10 ^ 11) by (apply Rinv_lt_contravar; lra).
  assert (FIN : forall t t', 0 <= t < 2 * PI -> 0 <= t' <= 2 * PI -> Rabs (t - t') <= / 10 ^ 11 -> Rabs (GN rho m 29 t' - q) <= 3 / 10 ^ 12 ->
    0 <= t < 2 * PI /\ exists th' w, 0 <= th' <= 2 * PI /\ Rabs (t - th') <= / 10 ^ 11 /\ integral (wn_pdf mu rho) 0 th' w /\ Rabs (w - q) <= 3 / 10 ^ 12).
  { intros t t' T1 T2 T3 T4. split; [exact T1|]. exists t', (GN rho m 29 t'). split; [exact T2|]. split; [exact T3|]. split; [apply GI; lra|exact T4]. }
  subst th. unfold wn_ppf. cbv zeta. fold m. destruct (Rleb_spec rho (/ 10 ^ 12)) as [L|L].
  - apply (FIN _ (2 * PI * q)); [nra|nra|rewrite Rminus_diag_eq, Rabs_R0 by reflexivity; lra|].
    pose proof (GN_uniform rho m (2 * PI * q) ltac:(lra)) as G. replace (2 * PI * q / (2 * PI)) with q in G by (field; lra). lra.
  - apply Rnot_le_lt in L. destruct (sigma_spec rho ltac:(lra)) as [E S60]. pose proof (wn_sigma_pos rho) as Hs. set (sg := wn_sigma rho) in *.
    assert (S12 : / 10 ^ 12 < sg).
    { destruct (Rlt_le_dec (/ 10 ^ 12) sg) as [A|A]; [exact A|exfalso]. assert (B : 1 + - (1 / 2) * sg ^ 2 < rho).
      { rewrite <- E. unfold rho_of. apply exp_ineq1. assert (0 < sg ^ 2) by (apply pow_lt; lra). lra. }
      assert (sg ^ 2 <= (/ 10 ^ 12) ^ 2) by (apply pow_incr; lra). assert ((/ 10 ^ 12) ^ 2 < 1 / 100) by lra. lra. }
    rewrite (proj2 (Rleb_false sg _)) by lra.
    set (G := wn_cdf_pdf Phi m sg). set (F := GN rho m 29). set (e := 7 * / 10 ^ 13 + wn_tail rho).
    pose proof (tail_small rho ltac:(lra)) as TS. assert (He : 0 <= e <= / 10 ^ 12) by (unfold e; lra).
    assert (HG : forall x, 0 <= x <= 2 * PI -> Rabs (fst (G x) - F x) <= e).
    { intros x Hx. pose proof (cp_close Phi m sg x HPhi Hs S60 ltac:(lra) Hx) as C. rewrite E in C. exact C. }
    assert (CF : forall x, 0 <= x <= 2 * PI -> continuity_pt F x) by (intros x _; eapply dlim_cont; apply GN_d).
    match goal with |- context [wn_newton G q 6 0 (2 * PI) ?t] => set (t0 := t) end.
    assert (Ht0 : 0 <= t0 <= 2 * PI).
    { unfold t0. set (c := clip (2 * PI * q) (/ 10 ^ 12) (2 * PI - / 10 ^ 12)).
      assert (0 <= c <= 2 * PI) by (pose proof (clip_range (2 * PI * q) (/ 10 ^ 12) (2 * PI - / 10 ^ 12) ltac:(lra)); unfold c; lra).
      destruct (Rltb sg 1); [|assumption]. pose proof (pymod_range (m + sg * ndtri (clip q (/ 10 ^ 12) (1 - / 10 ^ 12))) (2 * PI) ltac:(lra)). lra. }
    pose proof (newton_spec G q 6 0 (2 * PI) t0 ltac:(repeat split; try lra; left; reflexivity) Ht0) as N.
    destruct (wn_newton G q 6 0 (2 * PI) t0) as [[L' H'] t1]. destruct N as [(B1 & B2 & B3 & B4) N2].
    assert (F0 : F 0 = 0) by apply GN_0. assert (F1 : F (2 * PI) = 1) by (unfold F; rewrite <- (Rplus_0_l (2 * PI)), GN_turn, GN_0; ring).
    assert (FL : F L' <= q + e) by (destruct B3 as [->|B3]; [lra|]; pose proof (HG L' B1) as A; apply abs_le_inv in A; lra).
    assert (FH : q - e <= F H') by (destruct B4 as [->|B4]; [lra|]; pose proof (HG H' B2) as A; apply abs_le_inv in A; lra).
    assert (LH : L' <= H').
    { apply Rnot_lt_le. intros A. destruct B4 as [->|B4]; [lra|]. destruct B3 as [->|B3]; [lra|].
      pose proof (wn_cp_mono Phi m sg H' L' (nd_mono Phi HPhi) Hs ltac:(lra)) as M. change (wn_cdf_pdf Phi m sg) with G in M. lra. }
    set (t2 := if Rltb (/ 10 ^ 12) (Rabs (fst (G t1) - q)) then wn_bisect G q 40 L' H' else t1).
    assert (S2 : 0 <= t2 <= 2 * PI /\ exists t', 0 <= t' <= 2 * PI /\ Rabs (t2 - t') <= 7 / 10 ^ 12 /\ Rabs (F t' - q) <= e + / 10 ^ 12).
    { unfold t2. destruct (Rltb_spec (/ 10 ^ 12) (Rabs (fst (G t1) - q))) as [A|A].
      - destruct (bisect_spec G F q e 40 CF ltac:(lra) HG L' H' ltac:(lra) LH ltac:(lra) FL FH) as (R1 & t' & T1 & T2 & T3). split; [exact R1|]. exists t'. split; [exact T1|]. split; [|exact T3].
        eapply Rle_trans; [exact T2|]. apply Rle_trans with (7 / 2 ^ 40); [|lra]. unfold Rdiv. apply Rmult_le_compat_r; [apply Rlt_le, Rinv_0_lt_compat, pow_lt; lra|lra].
      - apply Rnot_lt_le in A. split; [exact N2|]. exists t1. split; [exact N2|]. split; [rewrite Rminus_diag_eq, Rabs_R0 by reflexivity; lra|].
        pose proof (HG t1 N2) as B. apply abs_le_inv in A. apply abs_le_inv in B. apply Rabs_le. lra. }
    destruct S2 as (R2 & t' & T1 & T2 & T3). rewrite (clip_in t2) by exact R2.
    assert (T4 : Rabs (F t' - q) <= 3 / 10 ^ 12) by lra. apply abs_le_inv in T2.
    destruct (Rleb_spec (2 * PI - / 10 ^ 12) t2) as [A|A].
    + apply (FIN _ t'); try assumption; [assert (0 < / 2 ^ 50 < 1) by lra; lra|]. assert (0 < / 2 ^ 50 < / 10 ^ 12) by lra. apply Rabs_le. lra.
    + apply Rnot_le_lt in A. apply (FIN _ t'); try assumption; [lra|]. apply Rabs_le. lra.
Qed.

(** ** rvs *)
Lemma turns_S N : turns (S N) = (- Z.of_nat (S N))%Z :: turns N ++ [Z.of_nat (S N)].
Proof.
  unfold turns. replace (2 * S N + 1)%nat with (S (S (2 * N + 1))) by lia. rewrite seq_S. cbn [seq app map]. rewrite map_app. cbn [map].
  rewrite <- seq_shift, map_map. replace (Z.of_nat 0 - Z.of_nat (S N))%Z with (- Z.of_nat (S N))%Z by lia.
  replace (Z.of_nat (0 + S (2 * N + 1)) - Z.of_nat (S N))%Z with (Z.of_nat (S N)) by lia. f_equal. f_equal. apply map_ext. intros i. lia.
Qed.
Lemma turn_mass_wF Phi m sg x N : turn_mass (wU Phi m sg) x N = wF Phi m sg N x.
Proof.
  unfold turn_mass. induction N as [|N IH].
  - cbn. rewrite wdelta_U. replace (2 * PI * 0 + x) with (x + 0) by ring. replace (2 * PI * 0) with 0 by ring. ring.
  - rewrite turns_S. cbn [map]. rewrite map_app. change (Rsum (?a :: ?l)) with (a + Rsum l). rewrite Rsum_app. cbn [map]. change (Rsum [?a]) with (a + 0). rewrite IH. cbn [wF].
    rewrite opp_IZR, <- INR_IZR_INZ, !wdelta_U.
    replace (2 * PI * - INR (S N)) with (- (2 * PI * INR (S N))) by ring. rewrite (Rplus_comm x (- (2 * PI * INR (S N)))), (Rplus_comm x (2 * PI * INR (S N))). ring.
Qed.
(** Without the two guards a draw is [pymod (m + sg * z)]: below x exactly on the copies of [0, x]. *)
Lemma wn_rvs_spec mu rho u z x : / 10 ^ 12 < rho <= 1 - / 10 ^ 15 -> 0 <= x < 2 * PI -> / 10 ^ 12 <= wn_sigma rho ->
  0 <= wn_rvs mu rho u z < 2 * PI /\
  (wn_rvs mu rho u z <= x <-> exists k : Z, 2 * PI * IZR k <= pymod mu (2 * PI) + wn_sigma rho * z <= 2 * PI * IZR k + x).
Proof.
  intros Hr Hx Hs. pose proof PI_gt3 as HP. pose proof ftiny_pos as A. pose proof ftiny_small as B. assert (P15 : 0 < / 10 ^ 15) by (apply Rinv_0_lt_compat, pow_lt; lra).
  unfold wn_rvs. cbv zeta. rewrite (clip_in rho) by lra. rewrite (proj2 (Rleb_false rho _)) by lra. rewrite (proj2 (Rltb_false (wn_sigma rho) _)) by lra.
  set (y := pymod mu (2 * PI) + wn_sigma rho * z). pose proof (pymod_range y (2 * PI) ltac:(lra)) as R. split; [exact R|].
  destruct (pymod_cong y (2 * PI)) as [k Hk]. split.
  - intros L. exists k. lra.
  - intros [j Hj]. rewrite (pymod_unique y (2 * PI) (y - 2 * PI * IZR j)); [lra|lra|]. exists j. ring.
Qed.
Lemma sigma_big rho : / 10 ^ 12 < rho <= 1 - / 10 ^ 15 -> / 10 ^ 12 <= wn_sigma rho.
Proof.
  intros Hr. pose proof (wn_sigma_pos rho) as Hs. destruct (sigma_spec rho Hr) as [E _]. set (sg := wn_sigma rho) in *.
  destruct (Rle_lt_dec (/ 10 ^ 12) sg) as [A|A]; [exact A|exfalso]. assert (B : 1 + - (1 / 2) * sg ^ 2 < rho).
  { rewrite <- E. unfold rho_of. apply exp_ineq1. assert (0 < sg ^ 2) by (apply pow_lt; lra). lra. }
  assert (sg ^ 2 <= (/ 10 ^ 12) ^ 2) by (apply pow_incr; lra). assert ((/ 10 ^ 12) ^ 2 < / 10 ^ 15) by lra. lra.
Qed.
(** The normal draw m + sg * z has distribution function Phi((y - m) / sg); the mass it gives to
    the copies of [0, x] is the integral of pdf up to x, but for the truncation of the series. *)
Lemma wn_rvs_law Phi mu rho x v : is_ndtr Phi -> wn_ok mu rho = true -> / 10 ^ 12 < rho <= 1 - / 10 ^ 15 -> 0 <= x < 2 * PI -> integral (wn_pdf mu rho) 0 x v ->
  (forall u z, 0 <= wn_rvs mu rho u z < 2 * PI /\
    (wn_rvs mu rho u z <= x <-> exists k : Z, 2 * PI * IZR k <= pymod mu (2 * PI) + wn_sigma rho * z <= 2 * PI * IZR k + x)) /\
  exists P, Un_cv (turn_mass (fun y => Phi ((y - pymod mu (2 * PI)) * (1 / wn_sigma rho))) x) P /\
    Rabs (P - v) <= rho ^ 900 / (45 * (1 - rho)).
Proof.
  intros H Hok Hr Hx I. pose proof PI_RGT_0 as HP. split; [intros u z; apply wn_rvs_spec; try assumption; apply sigma_big, Hr|].
  apply wn_ok_spec in Hok as [Hm H1]. set (m := pymod mu (2 * PI)). pose proof (pymod_range mu (2 * PI) ltac:(lra)) as Rm. fold m in Rm.
  pose proof (wn_sigma_pos rho) as Hs. destruct (sigma_spec rho Hr) as [E _]. set (sg := wn_sigma rho) in *.
  assert (Ev : v = GN rho m 29 x).
  { apply GN_int; [lra|]. revert I. apply integral_ext; [lra|]. intros t _. symmetry. apply wn_pdf_mod. }
  (* GN converges: it is Cauchy *)
  assert (CG : Cauchy_crit (fun N => GN rho m N x)).
  { intros e He. destruct (pow_lt_1_zero rho ltac:(rewrite Rabs_pos_eq; lra) (e / 4 * (1 - rho)) ltac:(apply Rmult_lt_0_compat; lra)) as [N0 H0].
    exists N0. assert (G : forall n, (N0 <= n)%nat -> Rabs (GN rho m n x - GN rho m N0 x) <= e / 4).
    { intros n Hn. pose proof (GN_cauchy rho m N0 (n - N0) x ltac:(lra)) as G. replace (n - N0 + N0)%nat with n in G by lia. specialize (H0 (S N0) ltac:(lia)). rewrite Rabs_pos_eq in H0 by (apply pow_le; lra).
      assert (0 <= rho ^ (n - N0 + S N0)) by (apply pow_le; lra). apply Rmult_le_reg_r with (1 - rho); lra. }
    intros a b Ha Hb. pose proof (G a Ha) as A. pose proof (G b Hb) as B. unfold R_dist. apply abs_le_inv in A. apply abs_le_inv in B. apply Rabs_def1; lra. }
  destruct (R_complete _ CG) as [P HPc]. exists P. split.
  - pose proof (CV_plus _ _ _ _ (poisson Phi m sg x H Hs ltac:(lra)) HPc) as K. rewrite Rplus_0_l in K. intros e He. destruct (K e He) as [N0 K0]. exists N0. intros n Hn. specialize (K0 n Hn).
    rewrite E in K0. replace (turn_mass (fun y => Phi ((y - m) * (1 / sg))) x n) with (wF Phi m sg n x - GN rho m n x + GN rho m n x); [exact K0|].
    change (fun y => Phi ((y - m) * (1 / sg))) with (wU Phi m sg). rewrite turn_mass_wF. ring.
  - rewrite Ev. apply le_epsilon. intros e He. destruct (HPc e He) as [N0 K0]. specialize (K0 (N0 + 29)%nat ltac:(lia)). unfold R_dist in K0. apply Rabs_def2 in K0.
    pose proof (GN_tail2 rho m 29 (N0 + 29) x ltac:(lra) ltac:(lia)) as T.
    assert (ET : 2 / (3 * INR 30) * rho ^ (30 ^ 2) / (1 - rho) = rho ^ 900 / (45 * (1 - rho))).
    { change (30 ^ 2)%nat with 900%nat. replace (INR 30) with 30 by (cbn; ring). set (p := rho ^ 900). field. lra. }
    rewrite ET in T. apply abs_le_inv in T. apply Rabs_le. lra.
Qed.
Lemma wn_rvs_uniform mu rho u z v : 0 < rho <= / 10 ^ 12 -> 0 <= u < 1 ->
  wn_rvs mu rho u z = 2 * PI * u /\ (integral (wn_pdf mu rho) 0 (2 * PI * u) v -> Rabs (u - v) <= / 10 ^ 12).
Proof.
  intros Hr Hu. pose proof PI_gt3 as HP. pose proof ftiny_small as B. split.
  - unfold wn_rvs. cbv zeta. rewrite (proj2 (Rleb_true (clip rho ftiny (1 - / 10 ^ 15)) _)); [reflexivity|].
    unfold clip. pose proof (Rmax_lub rho ftiny (/ 10 ^ 12)). pose proof (Rmin_l (Rmax rho ftiny) (1 - / 10 ^ 15)). lra.
  - intros I. rewrite (GN_int mu rho (2 * PI * u) v ltac:(nra) I). pose proof (GN_uniform rho mu (2 * PI * u) Hr) as G. replace (2 * PI * u / (2 * PI)) with u in G by (field; lra).
    rewrite Rabs_minus_sym. exact G.
Qed.
