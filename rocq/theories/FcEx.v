(** Concrete instances for the fits of cardioid, wrapcauchy and triangular. *)
From Coq Require Import String.
From Verif Require Import Prelude NpModel NpProofs CircleSpec IntSpec IntProofs DescModel DescProofs CorrModel DistModel DistSpec DistProofs Dist2Proofs Dist4Proofs Dist6Proofs Dist7Proofs CwModel Cw3Proofs Cw4Proofs FcModel FcSpec FcProofs Fc2Proofs Fc3Proofs Fc4Proofs.
Import ListNotations.
Open Scope R_scope.
Open Scope list_scope.

(** Mean direction 0, mean resultant length 1/4. *)
Definition ex_fc : list (R * R) := [(0, 5); (PI, 3)].
Lemma ex_fc_ok : ex_fc <> [] /\ (forall p, In p ex_fc -> 0 <= snd p) /\ 0 < Rsum (map snd ex_fc).
Proof. split; [discriminate|]. split; [intros p [<-|[<-|[]]]; simpl; lra|simpl; lra]. Qed.
Lemma ex_fc_r : fc_r ex_fc = 1 / 4.
Proof.
  unfold fc_r, ex_fc. cbn [map fst snd]. rewrite !Rsum_cons, !Rsum_nil, cos_0, sin_0, cos_PI, sin_PI. replace ((5 * 1 + (3 * -1 + 0)) / (5 + (3 + 0))) with (1 / 4) by field. replace ((5 * 0 + (3 * 0 + 0)) / (5 + (3 + 0))) with 0 by field. replace (1 / 4 * (1 / 4) + 0 * 0) with (1 / 4 * (1 / 4)) by ring. apply sqrt_square. lra.
Qed.
Lemma ex_car_moments minimize : exists mu ll n, car_fit minimize "Moments" ex_fc = Ok (mu, 1 / 4, ll, n, None) /\ cos mu = 1 /\ n = 32 / 17.
Proof.
  destruct ex_fc_ok as (H1 & H2 & H3). destruct (car_fit_total minimize "Moments" ex_fc H1 H2 H3) as (T & _). destruct (T eq_refl) as [[[[[mu rho] ll] n] g] E]. pose proof (car_fit_moments_spec minimize "Moments" ex_fc mu rho ll n g eq_refl E) as (_ & Er & Ed & _ & En & _). fold (fc_r ex_fc) in Er, Ed. rewrite ex_fc_r in Er, Ed.
  rewrite Rmin_left in Er by lra. subst rho. assert (g = None) as -> by (clear - E; unfold car_fit in E; destruct (cw_data ex_fc); [|discriminate]; cbv beta iota delta [bind] in E; destruct (fc_start w); change (String.eqb (lower "Moments") "moments") with true in E; cbv iota in E; congruence).
  exists mu, ll, n. split; [exact E|]. destruct (Ed ltac:(lra)) as [A _]. unfold ex_fc in A, En. cbn [map fst snd] in A, En. rewrite !Rsum_cons, !Rsum_nil, cos_0, cos_PI in A. rewrite !Rsum_cons, !Rsum_nil in En. split; [lra|]. rewrite En. field.
Qed.
(** The optimiser that stays at its start when that is within the bounds. *)
Definition ex_min (lo hi : R) : minimizer := fun obj grad a b => if Rleb 0 a && Rleb a (2 * PI) && (Rleb lo b && Rleb b hi) then Some (a, b, obj a b, grad a b) else None.
Lemma ex_min_ok lo hi : box_min lo hi (ex_min lo hi).
Proof.
  intros obj grad a b m r v j. unfold ex_min. destruct (_ && _) eqn:E; [|discriminate]. apply andb_true_iff in E. destruct E as [E1 E2]. apply andb_true_iff in E1. apply andb_true_iff in E2. rewrite !Rleb_true in *. intros K. injection K as <- <- <- <-. split; [exact E1|]. split; [exact E2|]. split; [reflexivity|]. split; [reflexivity|]. intros y ->. exists y. split; [reflexivity|lra].
Qed.
Lemma ex_car_mle : exists r, car_fit (ex_min 0 (1 / 2)) "MLE" ex_fc = Ok r.
Proof.
  destruct ex_fc_ok as (H1 & H2 & H3). unfold car_fit. rewrite (cw_data_total ex_fc H1 H2 H3). cbv beta iota delta [bind]. destruct (fc_start (cw_wrapped ex_fc)) as [m r] eqn:Es. destruct (fc_start_wrapped ex_fc m r H2 H3 Es) as (M & R1 & R2 & _). change (String.eqb (lower "MLE") "moments") with false. change (String.eqb (lower "MLE") "mle") with true. cbv iota. destruct (Rleb _ _); [eexists; reflexivity|].
  assert (C : 0 <= clip r 0 (1 / 2) <= 1 / 2) by (apply clip_range; lra). unfold ex_min. assert (T : Rleb 0 m && Rleb m (2 * PI) && (Rleb 0 (clip r 0 (1 / 2)) && Rleb (clip r 0 (1 / 2)) (1 / 2)) = true) by (rewrite !andb_true_iff, !Rleb_true; repeat split; lra). rewrite T. destruct (car_grad _ _ _). eexists. reflexivity.
Qed.
(** Its maximum likelihood estimate: (0, 1/8). *)
Lemma ex_car_stationary : (forall d, In d ex_fc -> 0 < car_pdf 0 (1 / 8) (fst d)) /\
  derivable_pt_lim (fun m => loglik (car_pdf m (1 / 8)) ex_fc) 0 0 /\ derivable_pt_lim (fun r => loglik (car_pdf 0 r) ex_fc) (1 / 8) 0.
Proof.
  pose proof PI_RGT_0 as P. assert (D : forall d, In d ex_fc -> 0 < car_den 0 (1 / 8) (fst d)) by (intros d _; apply car_den_pos; lra). split; [|split].
  - intros d I. rewrite car_pdf_den. apply Rdiv_lt_0_compat; [apply D, I|lra].
  - eapply dlim_eq; [|apply (loglik_car_dmu ex_fc 0 (1 / 8) D)]. unfold car_G1, ex_fc. cbn [map fst snd]. rewrite !Rsum_cons, Rsum_nil, !Rminus_0_r, sin_0, sin_PI. ring.
  - eapply dlim_eq; [|apply (loglik_car_drho ex_fc 0 (1 / 8) D)]. unfold car_G2, ex_fc, car_den. cbn [map fst snd]. rewrite !Rsum_cons, Rsum_nil, !Rminus_0_r, cos_0, cos_PI. field.
Qed.
(** A sample whose wrapped Cauchy maximum likelihood estimate is (0, 1/2). *)
Definition ex_wc_s : list (R * R) := [(0, 8 / 5); (PI / 2, 1); (- (PI / 2), 1)].
Lemma ex_wc_stationary : derivable_pt_lim (fun m => loglik (wc_pdf m (1 / 2)) ex_wc_s) 0 0 /\ derivable_pt_lim (fun r => loglik (wc_pdf 0 r) ex_wc_s) (1 / 2) 0.
Proof.
  split.
  - eapply dlim_eq; [|apply (loglik_wc_dmu ex_wc_s 0 (1 / 2)); lra]. unfold wc_S, ex_wc_s, wc_D. cbn [map fst snd]. rewrite !Rsum_cons, Rsum_nil, !Rminus_0_r, sin_neg, cos_neg, cos_0, sin_0, sin_PI2, cos_PI2. field; repeat split; simpl; lra.
  - eapply dlim_eq; [|apply (loglik_wc_drho ex_wc_s 0 (1 / 2)); lra]. unfold wc_P, wc_Q, ex_wc_s, wc_D. cbn [map fst snd]. rewrite !Rsum_cons, !Rsum_nil, !Rminus_0_r, cos_neg, cos_0, cos_PI2. field; repeat split; simpl; lra.
Qed.
Lemma ex_wc_ok : ex_wc_s <> [] /\ (forall p, In p ex_wc_s -> 0 <= snd p) /\ 0 < Rsum (map snd ex_wc_s).
Proof. split; [discriminate|]. split; [intros p [<-|[<-|[<-|[]]]]; simpl; lra|simpl; lra]. Qed.
Lemma ex_wc_far r : 0 <= r <= 99 / 100 -> forall s m, wc_far s m r.
Proof. intros H s m d _. pose proof (COS_bound (fst d - m)). assert (r * cos (fst d - m) <= r) by nra. assert ((1 / 100) * (1 / 100) <= (1 - r) * (1 - r)) by nra. nra. Qed.
(** A bounded optimiser that also tries (0, 1/2). *)
Definition ex_min2 : minimizer := fun obj grad a b =>
  match obj 0 (1 / 2), obj a b with
  | Fin x, Fin y => if Rleb x y then Some (0, 1 / 2, obj 0 (1 / 2), grad 0 (1 / 2)) else None
  | _, _ => None
  end.
Lemma ex_min2_ok : box_min (/ 10 ^ 9) (1 - / 10 ^ 9) ex_min2.
Proof.
  intros obj grad a b m r v j. unfold ex_min2. pose proof PI_RGT_0 as P. assert (E9 : / 10 ^ 9 <= 1 / 2) by lra. destruct (obj 0 (1 / 2)) as [x| | |] eqn:Ex; try discriminate. destruct (obj a b) as [y| | |]; try discriminate. destruct (Rleb_spec x y) as [L|L]; [|discriminate]. intros K.
  assert (K1 := f_equal (fun o => match o with Some (a, _, _, _) => a | None => 0 end) K). assert (K2 := f_equal (fun o => match o with Some (_, a, _, _) => a | None => 0 end) K). assert (K3 := f_equal (fun o => match o with Some (_, _, a, _) => a | None => NaN end) K). assert (K4 := f_equal (fun o => match o with Some (_, _, _, a) => a | None => (0, 0) end) K). cbv beta iota in K1, K2, K3, K4. subst m r v j. split; [lra|]. split; [lra|]. split; [symmetry; exact Ex|]. split; [reflexivity|]. intros y' E. injection E as <-. exists x. split; [reflexivity|exact L].
Qed.
Lemma ex_wc_mle : exists ll n, wc_fit ex_min2 "numerical" ex_wc_s = Ok (0, 1 / 2, ll, n, Some 0).
Proof.
  destruct ex_wc_ok as (H1 & H2 & H3). pose proof PI_RGT_0 as P0. unfold wc_fit. rewrite (cw_data_total ex_wc_s H1 H2 H3). cbv beta iota delta [bind]. destruct (fc_start (cw_wrapped ex_wc_s)) as [m r] eqn:Es. destruct (fc_start_wrapped ex_wc_s m r H2 H3 Es) as (M & R1 & R2 & _). change (String.eqb (wc_method "numerical") "moments") with false. change (String.eqb (wc_method "numerical") "mle") with true. cbv iota.
  set (rm := clip r 0 (1 - / 10 ^ 12)). assert (Hrm : rm <= 1 / 2).
  { unfold rm, clip. eapply Rle_trans; [apply Rmin_l|]. rewrite Rmax_left by lra. rewrite R1. unfold fc_r, ex_wc_s. cbn [map fst snd]. rewrite !Rsum_cons, !Rsum_nil, sin_neg, cos_neg, cos_0, sin_0, cos_PI2, sin_PI2. replace ((8 / 5 * 1 + (1 * 0 + (1 * 0 + 0))) / (8 / 5 + (1 + (1 + 0)))) with (4 / 9) by field. replace ((8 / 5 * 0 + (1 * 1 + (1 * - (1) + 0))) / (8 / 5 + (1 + (1 + 0)))) with 0 by field. replace (4 / 9 * (4 / 9) + 0 * 0) with (4 / 9 * (4 / 9)) by ring. rewrite sqrt_square by lra. lra. }
  set (st := Rmax (/ 10 ^ 3) (Rmin rm (1 - / 10 ^ 3))). assert (Hst : 0 <= st <= 1 / 2). { unfold st. split; [eapply Rle_trans; [|apply Rmax_l]; lra|]. apply Rmax_lub; [lra|]. eapply Rle_trans; [apply Rmin_l|exact Hrm]. }
  unfold ex_min2. rewrite (wc_nll_lik (cw_wrapped ex_wc_s) 0 (1 / 2)) by (try lra; apply ex_wc_far; lra). rewrite (wc_nll_lik (cw_wrapped ex_wc_s) m st) by (try lra; apply ex_wc_far; lra). rewrite !(wrapped_ll (wc_pdf _ _)) by (intros; apply Dist8Proofs.wc_wrap).
  destruct ex_wc_stationary as [S1 S2]. pose proof (wc_stationary ex_wc_s 0 (1 / 2) H2 ltac:(lra) S1 S2 m st ltac:(lra) ltac:(intros; apply wc_pdf_pos; lra)) as O.
  rewrite (proj2 (Rleb_true (- loglik (wc_pdf 0 (1 / 2)) ex_wc_s) (- loglik (wc_pdf m st) ex_wc_s))) by lra.
  assert (G : wc_grad (cw_wrapped ex_wc_s) 0 (1 / 2) = (0, 0)).
  { assert (D : forall x, wc_den 0 (1 / 2) (wrap_angles x) = wc_D 0 (1 / 2) x). { intros x. unfold wc_den. rewrite Rmax_left; [apply wc_D_wrap|]. apply (ex_wc_far (1 / 2) ltac:(lra) [(wrap_angles x, 1)] 0 (wrap_angles x, 1)). left. reflexivity. }
    assert (Sn : forall x, sin (wrap_angles x - 0) = sin x /\ cos (wrap_angles x - 0) = cos x). { intros x. rewrite Rminus_0_r. destruct (wrap_same x) as [k ->]. rewrite NpProofs.sin_turns, NpProofs.cos_turns. split; reflexivity. }
    unfold wc_grad, cw_wrapped, ex_wc_s. cbn [map fst snd]. rewrite !D. rewrite !(fun x => proj1 (Sn x)), !(fun x => proj2 (Sn x)). unfold wc_D. rewrite !Rsum_cons, !Rsum_nil, !Rminus_0_r, !cos_neg, !sin_neg, cos_0, sin_0, cos_PI2, sin_PI2. rewrite Rmax_left by lra. f_equal; field; repeat split; simpl; lra. }
  rewrite G. rewrite (clip_in (1 / 2)) by lra. unfold wrap_direction. rewrite wrap_in by lra. replace (0 ^ 2 + 0 ^ 2) with 0 by ring. rewrite sqrt_0. eexists. eexists. reflexivity.
Qed.
Lemma ex_wc_moments minimize : exists r, wc_fit minimize "Analytical" ex_wc_s = Ok r.
Proof. destruct ex_wc_ok as (H1 & H2 & H3). destruct (wc_fit_total minimize "Analytical" ex_wc_s H1 H2 H3) as (T & _). apply T. right. left. reflexivity. Qed.
(** triangular: two observations at 0 for each at pi/2. *)
Lemma ex_tri_moments root : exists ll se n, tri_fit root "moments" [(0, 1); (PI / 2, 3)] = Ok (1 / 4, ll, se, n).
Proof.
  pose proof PI_RGT_0 as P. pose proof PI_4 as P4. unfold tri_fit. change (String.eqb "moments" "moments") with true. cbv iota. unfold tri_fit_moments. cbn [existsb map fst snd]. rewrite (proj2 (Rltb_false 1 0)), (proj2 (Rltb_false 3 0)) by lra. cbn [orb]. rewrite !Rsum_cons, !Rsum_nil. rewrite (proj2 (Rleb_false (1 + (3 + 0)) 0)) by lra. cbv beta iota delta [bind].
  rewrite !pymod_small by lra. rewrite cos_0, cos_PI2. replace (1 / (1 + (3 + 0)) * 1 + (3 / (1 + (3 + 0)) * 0 + 0)) with (1 / 4) by field. rewrite clip_in. 2:{ split; [lra|]. apply Rmult_le_reg_r with (PI ^ 2); [apply pow_lt, P|]. unfold Rdiv. rewrite (Rmult_assoc 4), Rinv_l by (apply pow_nonzero; lra). simpl. nra. }
  destruct (tri_diag _ _). do 3 eexists. reflexivity.
Qed.
Lemma ex_tri_pos d : In d [(0, 1); (PI / 2, 3)] -> 0 < tri_at (1 / 4) (fst d).
Proof.
  pose proof PI_RGT_0 as P. pose proof PI_4 as P4. intros [<-|[<-|[]]]; cbn [fst]; unfold tri_at, tri_pdf; rewrite pymod_small by lra; rewrite Rabs_right by lra; unfold Rdiv; repeat apply Rmult_lt_0_compat; try lra; try (apply Rinv_0_lt_compat; lra); simpl; nra.
Qed.
Lemma ex_tri_ok : tri_ok (1 / 4) = true.
Proof.
  pose proof PI_RGT_0 as P. pose proof PI_4 as P4. apply tri_ok_intro. split; [lra|]. apply Rmult_le_reg_r with (PI ^ 2); [apply pow_lt, P|]. unfold Rdiv. rewrite (Rmult_assoc 4), Rinv_l by (apply pow_nonzero; lra). simpl. nra.
Qed.
