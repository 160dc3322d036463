(** wrapnorm: for a concentrated law the quantiles are not those of pdf. *)
From Verif Require Import Prelude NpModel NpProofs UtilsModel UtilsProofs DescModel DescProofs CircleSpec IntSpec IntProofs DistModel DistSpec DistProofs Dist2Proofs Dist4Proofs Dist5Proofs
  Dist6Proofs Dist7Proofs Dist8Proofs KjProofs Kj2Proofs Kj6Proofs Kj7Proofs Von2Proofs Von3Proofs Von4Proofs Von5Proofs Von6Proofs WnModel WnSpec WnProofs FourierProofs GaussProofs Wn2Proofs Wn3Proofs Wn4Proofs Wn5Proofs Wn6Proofs Wn7Proofs.

Lemma nphi_d z : derivable_pt_lim nphi z (- z * nphi z).
Proof. unfold nphi. replace (- z * (/ sqrt (2 * PI) * gz z)) with (/ sqrt (2 * PI) * (- z * gz z)) by ring. apply derivable_pt_lim_scal, gz_d. Qed.
Lemma nphi_8 z : 8 <= Rabs z -> nphi z <= 1 / 33.
Proof.
  intros H. pose proof c2pi as C. unfold nphi. assert (G : gz z <= 1 / 33).
  { unfold gz. replace (- (1 / 2) * z ^ 2) with (- (1 / 2 * z ^ 2)) by ring. rewrite exp_Ropp. replace (1 / 33) with (/ 33) by field. apply Rinv_le_contravar; [lra|].
    assert (64 <= z ^ 2) by (rewrite <- Rsqr_pow2, (Rsqr_abs z); unfold Rsqr; nra). pose proof (exp_ineq1 (1 / 2 * z ^ 2) ltac:(lra)). lra. }
  pose proof (gz_pos z). assert (/ sqrt (2 * PI) <= 1) by (rewrite <- Rinv_1; apply Rinv_le_contravar; lra). assert (0 < / sqrt (2 * PI)) by (apply Rinv_0_lt_compat; lra). nra.
Qed.
Lemma nd_hi Phi z : is_ndtr Phi -> 8 <= z -> 32 / 33 <= Phi z.
Proof.
  intros H Hz. apply Rnot_lt_le. intros C. destruct (proj2 H (32 / 33 - Phi z) ltac:(lra)) as [M HM].
  set (y := Rmax M z). destruct (HM y (Rmax_l M z)) as [A _]. apply Rabs_def2 in A. assert (zy : z <= y) by apply Rmax_r.
  assert (D : (- Phi z - nphi z) <= (- Phi y - nphi y)).
  { apply (mono_of_dlim (fun t => - Phi t - nphi t) (fun t => - nphi t - - t * nphi t) z y); [| |lra|exact zy|lra].
    - intros t _. apply derivable_pt_lim_minus; [apply derivable_pt_lim_opp, nd_d, H|apply nphi_d].
    - intros t Ht. pose proof (nphi_pos t). nra. }
  pose proof (nphi_pos y). pose proof (nphi_8 z ltac:(rewrite Rabs_pos_eq; lra)). lra.
Qed.
Lemma nd_lo Phi z : is_ndtr Phi -> z <= - 8 -> Phi z <= 1 / 33.
Proof.
  intros H Hz. apply Rnot_lt_le. intros C. destruct (proj2 H (Phi z - 1 / 33) ltac:(lra)) as [M HM].
  set (y := Rmax M (- z)). destruct (HM y (Rmax_l M (- z))) as [_ A]. apply Rabs_def2 in A. assert (zy : - z <= y) by apply Rmax_r.
  assert (D : nphi (- y) - Phi (- y) <= nphi z - Phi z).
  { apply (mono_of_dlim (fun t => nphi t - Phi t) (fun t => - t * nphi t - nphi t) (- y) z); [| |lra|lra|lra].
    - intros t _. apply derivable_pt_lim_minus; [apply nphi_d|apply nd_d, H].
    - intros t Ht. pose proof (nphi_pos t). nra. }
  pose proof (nphi_pos (- y)). pose proof (nphi_8 z ltac:(rewrite Rabs_left1; lra)). lra.
Qed.
(** A concentrated law about pi. *)
Definition crho : R := 1 - / 10 ^ 10.
Lemma crho_bounds : 99 / 100 < crho < 1.
Proof. unfold crho. lra. Qed.
Lemma csigma : / 10 ^ 12 < wn_sigma crho <= 1 / 10000 /\ wn_sigma crho ^ 2 <= 60.
Proof.
  pose proof crho_bounds as B. assert (R15 : / 10 ^ 12 < crho <= 1 - / 10 ^ 15) by (unfold crho; lra).
  destruct (sigma_spec crho R15) as [E S60]. pose proof (wn_sigma_pos crho) as P. set (sg := wn_sigma crho) in *. split; [|exact S60]. split.
  - apply Rnot_le_lt. intros A. assert (Q : 1 + - (1 / 2) * sg ^ 2 < crho) by (rewrite <- E; unfold rho_of; apply exp_ineq1; assert (0 < sg ^ 2) by (apply pow_lt; lra); lra).
    assert (sg ^ 2 <= (/ 10 ^ 12) ^ 2) by (apply pow_incr; lra). unfold crho in Q. assert ((/ 10 ^ 12) ^ 2 < / 10 ^ 11) by lra. lra.
  - apply Rnot_lt_le. intros A. assert (Q : crho <= 1 - / 10 ^ 9).
    { rewrite <- E. unfold rho_of. assert (H : (1 / 10000) ^ 2 <= sg ^ 2) by (apply pow_incr; lra). replace (- (1 / 2) * sg ^ 2) with (- (1 / 2 * sg ^ 2)) by ring. rewrite exp_Ropp.
      pose proof (exp_ineq1 (1 / 2 * sg ^ 2) ltac:(lra)) as X. set (s := 1 / 2 * sg ^ 2) in *. assert (s0 : 1 / 200000000 <= s) by (unfold s; lra).
      apply Rle_trans with (/ (1 + 1 / 200000000)); [apply Rinv_le_contravar; lra|lra]. }
    unfold crho in Q. lra.
Qed.
Definition cG (Phi : R -> R) (x : R) : R := fst (wn_cdf_pdf Phi PI (wn_sigma crho) x).
Lemma over_sigma d : 1 / 1000 <= d -> 8 <= d * (1 / wn_sigma crho).
Proof.
  intros H. pose proof csigma as [[S1 S2] _]. assert (0 < / 10 ^ 12) by (apply Rinv_0_lt_compat, pow_lt; lra). assert (E : 10000 <= 1 / wn_sigma crho).
  { unfold Rdiv. rewrite Rmult_1_l. replace 10000 with (/ (1 / 10000)) by field. apply Rinv_le_contravar; lra. } nra.
Qed.
Lemma cG_hi Phi x : is_ndtr Phi -> PI + 1 / 1000 <= x <= 2 * PI -> 31 / 33 <= cG Phi x.
Proof.
  intros H Hx. pose proof PI_gt3. pose proof csigma as [[S1 S2] S60]. pose proof (wn_sigma_pos crho) as P. unfold cG.
  destruct (cp_sum Phi PI (wn_sigma crho) x H P S60 ltac:(lra) ltac:(lra)) as (K & -> & _).
  pose proof (wF_more Phi PI (wn_sigma crho) 0 K x H P ltac:(lia) ltac:(lra)) as M. cbn [wF] in M. unfold wn_delta in M.
  replace (x - PI + 0) with (x - PI) in M by ring. replace (- PI + 0) with (- PI) in M by ring.
  pose proof (nd_hi Phi _ H (over_sigma (x - PI) ltac:(lra))) as A. assert (B : Phi (- PI * (1 / wn_sigma crho)) <= 1 / 33) by (apply nd_lo; [exact H|]; pose proof (over_sigma PI ltac:(lra)); lra). lra.
Qed.
Lemma wF_gap Phi m sg N x y : is_ndtr Phi -> 0 < sg -> x <= y -> wn_delta Phi m sg y 0 - wn_delta Phi m sg x 0 <= wF Phi m sg N y - wF Phi m sg N x.
Proof. intros H S L. pose proof (wF_diff_incr Phi m sg 0 N x y H S L) as D. rewrite Nat.add_0_r in D. cbn [wF] in D. lra. Qed.
Lemma cG_lo Phi x : is_ndtr Phi -> 0 <= x <= PI - 1 / 1000 -> cG Phi x <= 2 / 33.
Proof.
  intros H Hx. pose proof PI_gt3. pose proof csigma as [[S1 S2] S60]. pose proof (wn_sigma_pos crho) as P. unfold cG.
  destruct (cp_sum Phi PI (wn_sigma crho) x H P S60 ltac:(lra) ltac:(lra)) as (K & -> & _).
  pose proof (wF_gap Phi PI (wn_sigma crho) K x (2 * PI) H P ltac:(lra)) as M. pose proof (wF_turns_le Phi PI (wn_sigma crho) K 1 H) as T. cbn [INR] in T. rewrite Rmult_1_r in T.
  unfold wn_delta in M. replace (x - PI + 0) with (x - PI) in M by ring. replace (2 * PI - PI + 0) with PI in M by ring.
  pose proof (nd_hi Phi _ H (over_sigma PI ltac:(lra))) as A. assert (B : Phi ((x - PI) * (1 / wn_sigma crho)) <= 1 / 33) by (apply nd_lo; [exact H|]; pose proof (over_sigma (PI - x) ltac:(lra)); lra). lra.
Qed.
(** Bisection ends near the crossing. *)
Lemma bisect_in (G : R -> R * R) q A B n : (forall x, 0 <= x <= 2 * PI -> x <= A -> fst (G x) < q - / 10 ^ 12) -> (forall x, 0 <= x <= 2 * PI -> B <= x -> q + / 10 ^ 12 < fst (G x)) ->
  forall L H, 0 <= L -> L <= H -> H <= 2 * PI -> L < B -> A < H -> A - (H - L) / 2 ^ n < wn_bisect G q n L H < B + (H - L) / 2 ^ n.
Proof.
  intros HA HB. assert (P12 : 0 < / 10 ^ 12) by (apply Rinv_0_lt_compat, pow_lt; lra). induction n as [|n IH]; intros L H H0 H1 H2 LB AH; cbn [wn_bisect]; cbv zeta.
  - cbn [pow]. lra.
  - set (mid := 1 / 2 * (L + H)). assert (Hm : L <= mid <= H) by (unfold mid; lra). assert (P2 : 0 < 2 ^ n) by (apply pow_lt; lra).
    assert (mA : fst (G mid) >= q - / 10 ^ 12 -> A < mid) by (intros C; apply Rnot_le_lt; intros D; specialize (HA mid ltac:(lra) D); lra).
    assert (mB : fst (G mid) <= q + / 10 ^ 12 -> mid < B) by (intros C; apply Rnot_le_lt; intros D; specialize (HB mid ltac:(lra) D); lra).
    assert (W : forall a, a = (H - L) / 2 -> a / 2 ^ n = (H - L) / 2 ^ S n) by (intros a ->; cbn [pow]; field; lra).
    destruct (Rltb_spec (/ 10 ^ 12) (Rabs (fst (G mid) - q))) as [C|C].
    + destruct (Rltb_spec 0 (fst (G mid) - q)) as [D|D].
      * specialize (IH L mid ltac:(lra) ltac:(lra) ltac:(lra) ltac:(lra) ltac:(apply mA; lra)). rewrite (W (mid - L)) in IH by (unfold mid; field). exact IH.
      * specialize (IH mid H ltac:(lra) ltac:(lra) ltac:(lra) ltac:(apply mB; lra) ltac:(lra)). rewrite (W (H - mid)) in IH by (unfold mid; field). exact IH.
    + apply Rnot_lt_le, abs_le_inv in C. assert (Q : 0 <= (H - L) / 2 ^ S n) by (apply Rmult_le_pos; [lra|apply Rlt_le, Rinv_0_lt_compat, pow_lt; lra]).
      specialize (mA ltac:(lra)). specialize (mB ltac:(lra)). lra.
Qed.
Lemma ppf_near_pi Phi ndtri : is_ndtr Phi -> Rabs (wn_ppf Phi ndtri PI crho (9 / 10) - PI) <= 2 / 1000.
Proof.
  intros HPhi. pose proof PI_gt3 as HP. pose proof pi_hi as HP2. pose proof crho_bounds as Rb. pose proof csigma as [[S1 S2] S60]. pose proof (wn_sigma_pos crho) as Hs.
  assert (P12 : 0 < / 10 ^ 12 < 1 / 1000) by lra.
  unfold wn_ppf. cbv zeta. rewrite (pymod_small PI) by lra. rewrite (proj2 (Rleb_false crho _)) by lra. rewrite (proj2 (Rleb_false (wn_sigma crho) _)) by lra.
  set (G := wn_cdf_pdf Phi PI (wn_sigma crho)). set (q := 9 / 10).
  assert (HA : forall x, 0 <= x <= 2 * PI -> x <= PI - 1 / 1000 -> fst (G x) < q - / 10 ^ 12) by (intros x X1 X2; pose proof (cG_lo Phi x HPhi ltac:(lra)) as C; unfold cG in C; fold G in C; unfold q; lra).
  assert (HB : forall x, 0 <= x <= 2 * PI -> PI + 1 / 1000 <= x -> q + / 10 ^ 12 < fst (G x)) by (intros x X1 X2; pose proof (cG_hi Phi x HPhi ltac:(lra)) as C; unfold cG in C; fold G in C; unfold q; lra).
  match goal with |- context [wn_newton G q 6 0 (2 * PI) ?t] => set (t0 := t) end.
  assert (Ht0 : 0 <= t0 <= 2 * PI).
  { unfold t0. set (c := clip (2 * PI * q) (/ 10 ^ 12) (2 * PI - / 10 ^ 12)).
    assert (0 <= c <= 2 * PI) by (pose proof (clip_range (2 * PI * q) (/ 10 ^ 12) (2 * PI - / 10 ^ 12) ltac:(lra)); unfold c; lra).
    destruct (Rltb (wn_sigma crho) 1); [|assumption]. pose proof (pymod_range (PI + wn_sigma crho * ndtri (clip q (/ 10 ^ 12) (1 - / 10 ^ 12))) (2 * PI) ltac:(lra)). lra. }
  pose proof (newton_spec G q 6 0 (2 * PI) t0 ltac:(repeat split; try lra; left; reflexivity) Ht0) as N.
  destruct (wn_newton G q 6 0 (2 * PI) t0) as [[L' H'] t1]. destruct N as [(B1 & B2 & B3 & B4) N2].
  assert (LB : L' < PI + 1 / 1000) by (apply Rnot_le_lt; intros C; pose proof (HB L' B1 C); destruct B3 as [B3|B3]; lra).
  assert (AH : PI - 1 / 1000 < H') by (apply Rnot_le_lt; intros C; pose proof (HA H' B2 C); destruct B4 as [B4|B4]; lra).
  assert (LH : L' <= H').
  { apply Rnot_lt_le. intros A. destruct B4 as [->|B4]; [lra|]. destruct B3 as [->|B3]; [lra|].
    pose proof (wn_cp_mono Phi PI (wn_sigma crho) H' L' (nd_mono Phi HPhi) Hs ltac:(lra)) as M. change (wn_cdf_pdf Phi PI (wn_sigma crho)) with G in M. lra. }
  set (t2 := if Rltb (/ 10 ^ 12) (Rabs (fst (G t1) - q)) then wn_bisect G q 40 L' H' else t1).
  assert (T2 : PI - 2 / 1000 < t2 < PI + 2 / 1000).
  { unfold t2. destruct (Rltb_spec (/ 10 ^ 12) (Rabs (fst (G t1) - q))) as [A|A].
    - pose proof (bisect_in G q _ _ 40 HA HB L' H' ltac:(lra) LH ltac:(lra) LB AH) as I. assert (Q : (H' - L') / 2 ^ 40 <= 1 / 1000); [|lra].
      apply Rle_trans with (7 / 2 ^ 40); [|lra]. unfold Rdiv. apply Rmult_le_compat_r; [apply Rlt_le, Rinv_0_lt_compat, pow_lt; lra|lra].
    - apply Rnot_lt_le, abs_le_inv in A. split; apply Rnot_le_lt; intros C; [pose proof (HA t1 N2 ltac:(lra))|pose proof (HB t1 N2 ltac:(lra))]; lra. }
  rewrite (clip_in t2) by lra. rewrite (proj2 (Rleb_false (2 * PI - / 10 ^ 12) t2)) by lra. apply Rabs_le. lra.
Qed.
(** The integral of pdf about pi. *)
Lemma sin_lip a b : Rabs (sin a - sin b) <= Rabs (a - b).
Proof.
  assert (M : forall x y, x <= y -> Rabs (sin y - sin x) <= y - x).
  { intros x y L. apply Rabs_le. split.
    - assert (sin x + x <= sin y + y); [|lra]. apply (mono_of_dlim (fun t => sin t + t) (fun t => cos t + 1) x y); [intros; apply derivable_pt_lim_plus; [apply derivable_pt_lim_sin|apply derivable_pt_lim_id]|intros t _; pose proof (COS_bound t); lra|lra|exact L|lra].
    - assert (x - sin x <= y - sin y); [|lra]. apply (mono_of_dlim (fun t => t - sin t) (fun t => 1 - cos t) x y); [intros; apply derivable_pt_lim_minus; [apply derivable_pt_lim_id|apply derivable_pt_lim_sin]|intros t _; pose proof (COS_bound t); lra|lra|exact L|lra]. }
  destruct (Rle_dec a b) as [L|L]; [rewrite Rabs_minus_sym, (Rabs_minus_sym a b), (Rabs_pos_eq (b - a)) by lra; apply M, L|rewrite (Rabs_pos_eq (a - b)) by lra; apply M; lra].
Qed.
Lemma GN_lip r m N x y : 0 <= r <= 1 -> Rabs (GN r m N x - GN r m N y) <= (1 + INR N) * Rabs (x - y).
Proof.
  intros Hr. pose proof PI_gt3. pose proof (Rabs_pos (x - y)) as A0. induction N as [|N IH].
  - cbn [GN INR]. replace (x / (2 * PI) - y / (2 * PI)) with ((x - y) * / (2 * PI)) by (field; lra). rewrite Rabs_mult, (Rabs_pos_eq (/ _)) by (left; apply Rinv_0_lt_compat; lra).
    assert (/ (2 * PI) <= 1) by (rewrite <- Rinv_1; apply Rinv_le_contravar; lra). nra.
  - cbn [GN]. set (c := r ^ (S N ^ 2) / (PI * INR (S N))). assert (n0 : 0 < INR (S N)) by (apply lt_0_INR; lia).
    assert (c0 : 0 <= c /\ c * INR (S N) <= 1).
    { unfold c. assert (P1 : 0 <= r ^ (S N ^ 2) <= 1) by (split; [apply pow_le; lra|rewrite <- (pow1 (S N ^ 2)); apply pow_incr; lra]). split; [apply Rmult_le_pos; [lra|left; apply Rinv_0_lt_compat; nra]|].
      replace (r ^ (S N ^ 2) / (PI * INR (S N)) * INR (S N)) with (r ^ (S N ^ 2) * / PI) by (field; lra). assert (/ PI <= 1) by (rewrite <- Rinv_1; apply Rinv_le_contravar; lra). assert (0 < / PI) by (apply Rinv_0_lt_compat; lra). nra. }
    replace (GN r m N x + c * (sin (INR (S N) * (x - m)) + sin (INR (S N) * m)) - (GN r m N y + c * (sin (INR (S N) * (y - m)) + sin (INR (S N) * m))))
      with ((GN r m N x - GN r m N y) + c * (sin (INR (S N) * (x - m)) - sin (INR (S N) * (y - m)))) by ring.
    eapply Rle_trans; [apply Rabs_triang|]. rewrite Rabs_mult, (Rabs_pos_eq c) by lra. pose proof (sin_lip (INR (S N) * (x - m)) (INR (S N) * (y - m))) as SL.
    replace (INR (S N) * (x - m) - INR (S N) * (y - m)) with (INR (S N) * (x - y)) in SL by ring. rewrite Rabs_mult, (Rabs_pos_eq (INR (S N))) in SL by lra. set (n := INR (S N)) in *.
    replace (1 + n) with (1 + INR N + 1) by (unfold n; rewrite S_INR; ring). assert (c * Rabs (sin (n * (x - m)) - sin (n * (y - m))) <= 1 * Rabs (x - y)); [|lra].
    apply Rle_trans with (c * (n * Rabs (x - y))); [apply Rmult_le_compat_l; lra|]. rewrite <- Rmult_assoc. apply Rmult_le_compat_r; lra.
Qed.
Lemma GN_pi r N : GN r PI N PI = 1 / 2.
Proof.
  pose proof PI_gt3. induction N as [|N IH]; cbn [GN]; [field; lra|]. rewrite IH. replace (INR (S N) * (PI - PI)) with 0 by ring.
  assert (E : sin (INR (S N) * PI) = 0) by (apply sin_eq_0_1; exists (Z.of_nat (S N)); rewrite <- INR_IZR_INZ; reflexivity). rewrite sin_0, E. ring.
Qed.
Lemma wn_ppf_wrong : exists mu rho q, wn_ok mu rho = true /\ 0 < q < 1 /\ forall Phi ndtri th' w, is_ndtr Phi ->
  Rabs (wn_ppf Phi ndtri mu rho q - th') <= / 10 ^ 11 -> integral (wn_pdf mu rho) 0 th' w -> 3 / 10 < q - w.
Proof.
  exists PI, crho, (9 / 10). pose proof PI_gt3. pose proof crho_bounds as B. split; [apply wn_ok_intro; lra|]. split; [lra|].
  intros Phi ndtri th' w HPhi N I. pose proof (ppf_near_pi Phi ndtri HPhi) as A. apply abs_le_inv in N. apply abs_le_inv in A. assert (P11 : / 10 ^ 11 < 1 / 1000) by lra.
  rewrite (GN_int PI crho th' w ltac:(lra) I). pose proof (GN_lip crho PI 29 th' PI ltac:(lra)) as L. rewrite GN_pi in L. replace (1 + INR 29) with 30 in L by (rewrite INR_IZR_INZ; cbn; ring).
  assert (D : Rabs (th' - PI) <= 3 / 1000) by (apply Rabs_le; lra). assert (L2 : Rabs (GN crho PI 29 th' - 1 / 2) <= 90 / 1000) by lra. apply abs_le_inv in L2. lra.
Qed.
