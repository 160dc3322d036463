(** The incomplete beta function and its inverse exist; data for the examples. *)
From Coq Require Import Reals.Ranalysis5.
From Verif Require Import Prelude NpModel NpProofs IntSpec IntProofs DistModel DistSpec DescModel DescProofs DistProofs Dist2Proofs Dist4Proofs Dist6Proofs Dist7Proofs JpProofs KjProofs Kj2Proofs GaussProofs CwModel CwSpec GamProofs Gam2Proofs CwProofs Cw2Proofs Cw3Proofs Cw4Proofs GamEx.

Lemma le_m1_4 : - 1 <= 4. Proof. lra. Qed.
Definition bG (s : R) : R -> R :=
  match Rlt_dec 0 s with left H => primitive le_m1_4 (FTC_P1 le_m1_4 (fun x (_ : - 1 <= x <= 4) => kn_cont s x H)) | right _ => fun _ => 0 end.
Lemma bG_d s x : 0 < s -> - 1 <= x <= 4 -> derivable_pt_lim (bG s) x (kn s x).
Proof. intros H Hx. unfold bG. destruct (Rlt_dec 0 s) as [L|L]; [|lra]. apply RiemannInt_P28. exact Hx. Qed.
Definition bM (s : R) : R := bG s PI - bG s 0.
Lemma bG_lip s u w : 0 < s -> 0 <= u -> u <= w -> w <= PI -> 0 <= bG s w - bG s u <= w - u.
Proof.
  intros H U1 U2 U3. pose proof PI_4 as P4. assert (K : integral (kn s) u w (bG s w - bG s u)) by (apply ftc; [exact U2|intros; apply kn_cont, H|intros; apply bG_d; [exact H|lra]]). split.
  - replace 0 with (0 * (w - u)) by ring. apply (integral_le (fun _ => 0) (kn s) u w _ _ U2); [intros; apply kn_range, H|apply integral_const|exact K].
  - replace (w - u) with (1 * (w - u)) by ring. apply (integral_le (kn s) (fun _ => 1) u w _ _ U2); [intros; apply kn_range, H|exact K|apply integral_const].
Qed.
Lemma bM_pos s : 0 < s -> 0 < bM s.
Proof.
  intros H. pose proof PI_4 as P4. pose proof PI_RGT_0 as P. destruct (MVT_cor2 (bG s) (kn s) 0 PI P) as (c & E & Hc); [intros c Hc; apply bG_d; [exact H|lra]|]. unfold bM. rewrite E. apply Rmult_lt_0_compat; [|lra].
  unfold kn. assert (- 1 < cos c) by (rewrite <- cos_PI; apply cos_decreasing_1; lra). rewrite npow_pos by lra. apply exp_pos.
Qed.
Definition binc (a b x : R) : R := (bG (b - 1 / 2) (2 * asin (sqrt x)) - bG (b - 1 / 2) 0) / bM (b - 1 / 2).
Definition bet (a b : R) : R := bM (b - 1 / 2).
Lemma f_cont b x : 0 < x < 1 -> continuity_pt (fun t => Rpower t (- (1 / 2)) * Rpower (1 - t) (b - 1)) x.
Proof.
  intros Hx. unfold Rpower. apply (cont_mult (fun t => exp (- (1 / 2) * ln t)) (fun t => exp ((b - 1) * ln (1 - t)))).
  - apply (cont_comp exp (fun t => - (1 / 2) * ln t)); [|apply exp_cont]. apply cont_mult; [apply cont_const|apply ln_cont; lra].
  - apply (cont_comp exp (fun t => (b - 1) * ln (1 - t))); [|apply exp_cont]. apply cont_mult; [apply cont_const|]. apply (cont_comp ln (fun t => 1 - t)); [|apply ln_cont; lra].
    apply (cont_ext (fun t => 1 + - (1) * t)); [intros; ring|]. apply cont_plus; [apply cont_const|apply cont_mult; [apply cont_const|apply derivable_continuous_pt, derivable_pt_id]].
Qed.
Lemma dl_asin x : -1 < x < 1 -> derivable_pt_lim asin x (1 / sqrt (1 - x²)).
Proof. intros H. rewrite <- (derive_pt_asin x H). unfold derive_pt. destruct (derivable_pt_asin x H) as [l Hl]. exact Hl. Qed.
Lemma bG_asin s t : 0 < s -> 0 < t < 1 -> derivable_pt_lim (fun t => bG s (2 * asin (sqrt t))) t (Rpower t (- (1 / 2)) * Rpower (1 - t) (s - 1 / 2)).
Proof.
  intros Hs Ht. pose proof PI_4 as P4. destruct (asin_half t ltac:(lra)) as [A1 A2]. assert (r0 : 0 < sqrt t) by (apply sqrt_lt_R0; lra). assert (r1 : sqrt t < 1) by (rewrite <- sqrt_1; apply sqrt_lt_1; lra).
  assert (q0 : 0 < sqrt (1 - t)) by (apply sqrt_lt_R0; lra).
  eapply dlim_eq; [|apply (dlim_comp (bG s) (fun t => 2 * asin (sqrt t))); [apply (dlim_scal 2 (fun t => asin (sqrt t))); apply (dlim_comp asin sqrt); [apply derivable_pt_lim_sqrt; lra|apply dl_asin; lra]|apply bG_d; [exact Hs|lra]]].
  unfold kn. replace ((1 + cos (2 * asin (sqrt t))) / 2) with (1 - t) by lra. rewrite npow_pos by lra. unfold Rsqr. rewrite sqrt_sqrt by lra.
  replace (s - 1 / 2) with (s + - (1 / 2)) by ring. rewrite Rpower_plus, !Rpower_Ropp. replace (1 / 2) with (/ 2) by field. rewrite !Rpower_sqrt by lra. field. lra.
Qed.
Lemma bet_is : is_betainc bet binc.
Proof.
  intros b Hb. assert (Hs : 0 < b - 1 / 2) by lra. pose proof (bM_pos _ Hs) as M. pose proof PI_RGT_0 as P. unfold binc, bet. set (s := b - 1 / 2) in *. repeat split.
  - rewrite sqrt_0, asin_0, Rmult_0_r. unfold Rdiv. ring.
  - rewrite sqrt_1, asin_1. replace (2 * (PI / 2)) with PI by field. fold (bM s). field. lra.
  - destruct (asin_half x H) as [A1 A2]. apply Rmult_le_pos; [|left; apply Rinv_0_lt_compat, M]. apply (bG_lip s 0); lra.
  - destruct (asin_half x H) as [A1 A2]. apply Rmult_le_reg_r with (bM s); [exact M|]. unfold Rdiv. rewrite Rmult_assoc, Rinv_l by lra. pose proof (bG_lip s (2 * asin (sqrt x)) PI Hs ltac:(lra) ltac:(lra) ltac:(lra)). unfold bM. lra.
  - intros e He. set (e1 := Rmin (e * bM s) 1). assert (e0 : 0 < e1) by (apply Rmin_pos; nra). pose proof (Rmin_l (e * bM s) 1) as L1. pose proof (Rmin_r (e * bM s) 1) as L2. fold e1 in L1, L2. pose proof PI_gt3 as P3.
    pose proof (cos_decreasing_1 0 e1 ltac:(lra) ltac:(lra) ltac:(lra) ltac:(lra) e0) as Ce. rewrite cos_0 in Ce. exists ((1 - cos e1) / 2). split; [lra|]. intros x Hx. destruct (asin_half x Hx) as [A1 A2]. set (p := 2 * asin (sqrt x)) in *. split; intros K.
    + assert (Lp : p < e1) by (destruct (Rlt_dec p e1) as [L|L]; [exact L|]; pose proof (cos_decr_1 e1 p ltac:(lra) ltac:(lra) ltac:(lra) ltac:(lra) ltac:(lra)); lra). pose proof (bG_lip s 0 p Hs ltac:(lra) ltac:(lra) ltac:(lra)).
      apply Rmult_lt_reg_r with (bM s); [exact M|]. unfold Rdiv. rewrite Rmult_assoc, Rinv_l by lra. lra.
    + assert (Lp : PI - e1 < p).
      { destruct (Rlt_dec (PI - e1) p) as [L|L]; [exact L|]. pose proof (cos_decr_1 p (PI - e1) ltac:(lra) ltac:(lra) ltac:(lra) ltac:(lra) ltac:(lra)) as C. replace (cos (PI - e1)) with (- cos e1) in C by (rewrite cos_minus, cos_PI, sin_PI; ring). lra. }
      pose proof (bG_lip s p PI Hs ltac:(lra) ltac:(lra) ltac:(lra)). apply Rmult_lt_reg_r with (bM s); [exact M|]. unfold Rdiv. rewrite (Rmult_assoc _ (/ bM s)), Rinv_l by lra. unfold bM in *. lra.
  - intros u v Hu Huv Hv. apply (integral_val _ _ _ (bG s (2 * asin (sqrt v)) - bG s (2 * asin (sqrt u)))); [field; lra|].
    apply (ftc _ (fun t => bG s (2 * asin (sqrt t)))); [exact Huv|intros x Hx; apply f_cont; lra|]. intros x Hx. replace (b - 1) with (s - 1 / 2) by (unfold s; field). apply bG_asin; [exact Hs|lra].
Qed.
Lemma inv_sig s u : 0 < s -> 0 < u -> u < 1 -> {z | 0 <= z <= PI /\ bG s z - bG s 0 - u * bM s = 0}.
Proof.
  intros Hs U0 U1. pose proof (bM_pos s Hs) as M. pose proof PI_4 as P4. apply (IVT_interv (fun z => bG s z - bG s 0 - u * bM s) 0 PI).
  - intros a Ha. apply derivable_continuous_pt. exists (kn s a - 0 - 0). apply (dlim_minus (fun z => bG s z - bG s 0) (fun _ => u * bM s)); [apply (dlim_minus (bG s) (fun _ => bG s 0)); [apply bG_d; [exact Hs|lra]|apply dlim_const]|apply dlim_const].
  - apply PI_RGT_0.
  - nra.
  - fold (bM s). nra.
Qed.
Definition binv (a b u : R) : R :=
  match Rlt_dec 0 (b - 1 / 2), Rlt_dec 0 u, Rlt_dec u 1 with
  | left H, left H0, left H1 => (1 - cos (proj1_sig (inv_sig (b - 1 / 2) u H H0 H1))) / 2
  | _, right _, _ => 0
  | _, _, _ => 1
  end.
Lemma binv_is : is_betaincinv binc binv.
Proof.
  intros b u Hb Hu. destruct (bet_is b Hb) as (I0 & I1 & _). unfold binv. destruct (Rlt_dec 0 (b - 1 / 2)) as [H|H]; [|lra]. destruct (Rlt_dec 0 u) as [H0|H0]; [|split; [lra|replace u with 0 by lra; exact I0]]. destruct (Rlt_dec u 1) as [H1|H1]; [|split; [lra|replace u with 1 by lra; exact I1]].
  destruct (inv_sig _ u H H0 H1) as [z [Hz Ez]]. cbn [proj1_sig]. pose proof (COS_bound z) as C. split; [lra|]. pose proof (bM_pos _ H) as M. unfold binc. replace (2 * asin (sqrt ((1 - cos z) / 2))) with z.
  - replace (bG (b - 1 / 2) z - bG (b - 1 / 2) 0) with (u * bM (b - 1 / 2)) by lra. field. lra.
  - rewrite <- half_sq. replace (sin (1 / 2 * z) ^ 2) with (sin (1 / 2 * z) * sin (1 / 2 * z)) by ring. rewrite sqrt_square by (apply sin_ge_0; lra). rewrite asin_sin by lra. field.
Qed.
Lemma ex_special : exists g l d beta I J, is_gamma g /\ is_gammaln l g /\ is_digamma d g /\ is_betainc beta I /\ is_betaincinv I J.
Proof. exists gam, gamL, gamD, bet, binc, binv. split; [exact gam_is|]. split; [intros x _; unfold gam; rewrite ln_exp; reflexivity|]. split; [exact gam_digamma|]. split; [exact bet_is|exact binv_is]. Qed.
Lemma ex_cw_ok : cw_ok (PI / 3) (1 / 2) = true.
Proof. apply cw_ok_spec. pose proof PI_RGT_0. lra. Qed.
(** A sample with mean direction 0 and mean resultant length 1/2. *)
Definition ex_cw_s : list (R * R) := [(0, 3); (PI, 1)].
Lemma ex_cw_fit l : exists ll, cw_fit_moments l ex_cw_s = Ok (0, 1, ll, 16 / 10).
Proof.
  assert (V : 0 < wtotal ex_cw_s) by (unfold wtotal, ex_cw_s; simpl; lra).
  unfold cw_fit_moments. rewrite (cw_data_total ex_cw_s); [|discriminate|intros p [<-|[<-|[]]]; simpl; lra|exact V]. cbv beta iota delta [bind].
  assert (P := PI_RGT_0). assert (Ew : cw_wrapped ex_cw_s = ex_cw_s) by (unfold cw_wrapped, ex_cw_s; cbn [map fst snd]; rewrite !wrap_in by lra; reflexivity). rewrite Ew.
  assert (Pw : DescProofs.posw ex_cw_s) by (intros p [<-|[<-|[]]]; simpl; lra). destruct (cw_start ex_cw_s) as [m z] eqn:Es. destruct (cw_start_spec ex_cw_s Pw V m z Es) as (M & Zr & D & Q & _).
  assert (EC : DescProofs.Csum ex_cw_s = 2) by (unfold DescProofs.Csum, ex_cw_s; cbn [map fst snd]; rewrite !Rsum_cons, Rsum_nil, cos_0, cos_PI; ring). assert (ES : DescProofs.Ssum ex_cw_s = 0) by (unfold DescProofs.Ssum, ex_cw_s; cbn [map fst snd]; rewrite !Rsum_cons, Rsum_nil, sin_0, sin_PI; ring).
  assert (EW : wtotal ex_cw_s = 4) by (unfold wtotal, ex_cw_s; simpl; lra). assert (EL : DescProofs.Rlen ex_cw_s = 2) by (unfold DescProofs.Rlen; rewrite EC, ES; replace (2 * 2 + 0 * 0) with (2 * 2) by ring; apply sqrt_square; lra).
  rewrite EC, ES, EW, EL in *. destruct D as [D1 D2]; [lra|]. assert (m = 0) as -> by (destruct (Rle_lt_or_eq_dec 0 m (proj1 M)) as [L|E]; [|congruence]; exfalso; assert (C1 : cos m = 1) by lra; destruct (Rle_dec m PI) as [K|K]; [pose proof (cos_decreasing_1 0 m ltac:(lra) ltac:(lra) ltac:(lra) K L) as C; rewrite cos_0 in C; lra|pose proof (cos_increasing_1 m (2 * PI) ltac:(lra) ltac:(lra) ltac:(lra) ltac:(lra) ltac:(lra)) as C; rewrite cos_2PI in C; lra]).
  assert (Z : z = 1). { assert (E : 1 / (1 + z) = 2 / 4) by (apply Q; lra). assert (z0 : 1 + z <> 0) by lra. assert (1 = 2 / 4 * (1 + z)) by (rewrite <- E; field; exact z0). lra. }
  rewrite Z. unfold wrap_direction. rewrite wrap_in by lra. eexists. f_equal. f_equal. unfold cw_neff. rewrite EW. unfold ex_cw_s. cbn [map fst snd]. rewrite !Rsum_cons, Rsum_nil. field.
Qed.
Lemma ex_bounded : exists minimize, bounded_min minimize /\ exists l, forall s, s <> [] -> (forall p, In p s -> 0 <= snd p) -> 0 < Rsum (map snd s) -> exists r, cw_fit_mle l minimize s = Ok r.
Proof.
  exists (fun obj a b => if Rleb 0 a && Rleb a (2 * PI) && (Rleb (/ 10 ^ 6) b && Rleb b (10 ^ 6)) then Some (a, b, obj a b) else None). split.
  - intros obj a b m z v. destruct (_ && _) eqn:E; [|discriminate]. apply andb_true_iff in E. destruct E as [E1 E2]. apply andb_true_iff in E1. apply andb_true_iff in E2. rewrite !Rleb_true in *. intros K. injection K as <- <- <-. split; [exact E1|]. split; [exact E2|]. split; [reflexivity|]. intros x y -> E3. injection E3 as ->. lra.
  - exists (fun _ => 0). intros s H1 H2 H3. unfold cw_fit_mle. rewrite (cw_data_total s H1 H2 H3). cbv beta iota delta [bind]. destruct (cw_start (cw_wrapped s)) as [m z] eqn:Es.
    destruct (Jp8Proofs.wrapped_sample s) as [_ WT]. fold (cw_wrapped s) in WT. destruct (cw_start_spec (cw_wrapped s) (wrapped_posw s H2) ltac:(unfold DescModel.wtotal in *; lra) m z Es) as (M & Z & _).
    assert (C : / 10 ^ 3 <= clip z (/ 10 ^ 3) (10 ^ 4) <= 10 ^ 4) by (apply clip_range; lra). assert (T : Rleb 0 m && Rleb m (2 * PI) && (Rleb (/ 10 ^ 6) (clip z (/ 10 ^ 3) (10 ^ 4)) && Rleb (clip z (/ 10 ^ 3) (10 ^ 4)) (10 ^ 6)) = true).
    { rewrite !andb_true_iff, !Rleb_true. repeat split; lra. }
    rewrite T. eexists. reflexivity.
Qed.
Lemma ex_cw_far p : In p [(0, 1); (PI / 2, 2)] -> / 10 ^ 15 < 1 + cos (fst p - 0).
Proof. intros [<-|[<-|[]]]; cbn [fst]; rewrite Rminus_0_r; [rewrite cos_0|rewrite cos_PI2]; lra. Qed.
