(** Concrete data for circular-linear regression. *)
From Verif Require Import Prelude NpModel NpProofs UtilsModel CircleSpec IntSpec IntProofs VonSpec VonProofs Von2Proofs RegModel RegSpec RegClSpec RegProofs Reg2Proofs Reg3Proofs Reg4Proofs Em5Proofs Desc9Proofs Reg9Proofs Reg10Proofs Reg11Proofs Reg12Proofs Reg13Proofs Reg14Proofs Reg15Proofs Reg16Proofs Reg17Proofs.
From Coq Require Import String.

Lemma mean_step_ok i0 i1 solve pinv p l q : Rres (p_beta q) l <> 1 -> exists new ll, mean_step i0 i1 solve pinv p l q = Step new (Mres (p_beta q) l) (One (A1inv (Rres (p_beta q) l))) ll.
Proof.
  intros H. unfold mean_step. fold (Rres (p_beta q) l). fold (Mres (p_beta q) l). destruct (Reqb_spec (Rres (p_beta q) l) 1); [contradiction|]. cbv zeta. eauto.
Qed.
Lemma rdev0 t x : rdev [0] (t, [x]) = t.
Proof. unfold rdev. rewrite dot_inner. cbn. replace (x * 0 + 0) with 0 by ring. rewrite atan_0. ring. Qed.
Lemma grow0 t x : grow [0] (t, [x]) = [2 * x].
Proof. unfold grow. rewrite dot_inner. cbn. f_equal. field. Qed.
Lemma quarter : arctan2 (1/2) (1/2) = PI / 4 /\ 1/2 < hypot (1/2) (1/2) < 3/4.
Proof.
  split.
  - unfold arctan2. destruct (Rltb_spec 0 (1/2)); [|lra]. replace (1/2/(1/2)) with 1 by field. apply atan_1.
  - unfold hypot. replace (1/2 * (1/2) + 1/2 * (1/2)) with (1/2) by field. pose proof (sqrt_sqrt (1/2) ltac:(lra)) as Q. pose proof (sqrt_pos (1/2)). set (s := sqrt (1/2)) in *. clearbody s. split; [destruct (Rle_dec s (1/2)); [exfalso; nra|lra]|destruct (Rle_dec (3/4) s); [exfalso; nra|lra]].
Qed.
Lemma hk : 0 < A1inv (hypot (1/2) (1/2)) < 3.
Proof.
  destruct quarter as [_ Q]. split; [apply A1inv_0; lra|]. apply Rle_lt_trans with (A1inv (3/4)); [apply (A1inv_mono (hypot (1/2) (1/2)) (3/4)); [lra|left; lra]|].
  unfold A1inv. destruct (Rleb_spec 0 (3/4)); [|lra]. destruct (Rltb_spec (3/4) (53/100)); [lra|]. cbn [andb]. destruct (Rltb_spec (3/4) (85/100)); lra.
Qed.

(** ** Two observations *)
Definition th2 : list R := [0; PI / 2].
Definition x2 (c : R) : list (list R) := [[0]; [c]].
Lemma data2 c : cc_data th2 1 (x2 c).
Proof. split; [reflexivity|]. split; [discriminate|]. intros r [<-|[<-|[]]]; reflexivity. Qed.
Lemma res2 c : mean (map (fun o => sin (rdev [0] o)) (combine th2 (x2 c))) = 1/2 /\ mean (map (fun o => cos (rdev [0] o)) (combine th2 (x2 c))) = 1/2.
Proof.
  unfold th2, x2, mean. cbn [combine map List.length INR]. rewrite !rdev0, !Rsum_cons, !Rsum_nil, sin_0, cos_0, sin_PI2, cos_PI2. split; lra.
Qed.
Lemma run2 iv solve pinv c tol : is_iv iv -> right_solve solve ->
  exists cl f B k, cl_run iv solve pinv th2 1 (x2 c) "mean" None None None tol 1 = Ok cl /\ cl_fit cl = Fitted f /\ cl_mt cl = Mean /\ f_mu f = PI / 4 /\ f_kappa f = One k /\
    k = A1inv (hypot (1/2) (1/2)) /\ p_beta (f_par f) = [B] /\ (4 * c ^ 2 * (k * A1 (iv 0%nat) (iv 1%nat) k) + eps8) * B = 2 * c * (k * sin (PI / 4)).
Proof.
  intros Hi Hs. rewrite (cl_run_eval _ _ _ _ _ _ "mean" Mean None None None _ _ (data2 c) eq_refl I I). cbn [cl_loop cl_step].
  set (q := start_par 1 None None None). destruct (res2 c) as [E1 E2]. assert (Er : Rres (p_beta q) (combine th2 (x2 c)) = hypot (1/2) (1/2)) by (unfold Rres; change (p_beta q) with [0]; now rewrite E1, E2).
  destruct quarter as [Qa Qb]. pose proof hk as Hk.
  destruct (mean_step_ok (iv 0%nat) (iv 1%nat) solve pinv 1 (combine th2 (x2 c)) q) as (new & ll & Es); [lra|]. rewrite Es. cbn [bind].
  destruct (mean_step_inv _ _ _ _ _ _ _ _ _ _ _ Es) as (_ & Em & k & Ek & Ek' & _ & _ & _ & Eb). rewrite Er in *.
  assert (Mq : Mres (p_beta q) (combine th2 (x2 c)) = PI / 4) by (unfold Mres; change (p_beta q) with [0]; now rewrite E1, E2). rewrite Mq in *.
  assert (L : forall o, In o (combine th2 (x2 c)) -> List.length (grow (p_beta q) o) = 1%nat /\ 0 <= k * A1 (iv 0%nat) (iv 1%nat) k * 1).
  { intros o Ho. rewrite grow_length. split; [apply (proj1 (data_obs _ _ _ (data2 c)) o Ho)|]. rewrite Rmult_1_r. apply weight_nonneg; [exact Hi|lra]. }
  pose proof (safe_solve_spec solve pinv 1 (fun _ => k * A1 (iv 0%nat) (iv 1%nat) k * 1) (grow (p_beta q)) (combine th2 (x2 c)) _ Hs (mean_rhs_length 1 (p_beta q) (k * A1 (iv 0%nat) (iv 1%nat) k) (fun o => k * sin (rdev (p_beta q) o - PI / 4)) (combine th2 (x2 c))) L) as SS. cbv zeta in SS. rewrite <- Eb in SS. destruct SS as [Lb Sb].
  destruct (p_beta new) as [|B [|? ?]] eqn:En; try discriminate. eexists _, _, B, k. split; [reflexivity|]. split; [reflexivity|]. cbn [cl_mt f_mu f_kappa f_par]. split; [reflexivity|]. split; [reflexivity|]. split; [now rewrite <- Ek|]. split; [exact Ek'|]. split; [exact En|].
  specialize (Sb 0%nat ltac:(lia)). rewrite mean_rhs_nth in Sb; [|lia|apply (start_length 1 None I)|exact (proj1 (data_obs _ _ _ (data2 c)))].
  change (p_beta q) with [0] in Sb. unfold th2, x2 in Sb. cbn [combine map] in Sb. rewrite !grow0, !rdev0 in Sb. cbn [nth inner] in Sb. rewrite !Rsum_cons, !Rsum_nil in Sb.
  replace (PI / 2 - PI / 4) with (PI / 4) in Sb by field. set (W := k * A1 (iv 0%nat) (iv 1%nat) k) in *. ring_simplify in Sb. ring_simplify. lra.
Qed.
Lemma s4 : 0 < sin (PI / 4).
Proof. apply sin_gt_0; pose proof PI_RGT_0; lra. Qed.
Lemma run2_pos iv solve pinv c tol : is_iv iv -> right_solve solve -> 0 < c ->
  exists cl f B k, cl_run iv solve pinv th2 1 (x2 c) "mean" None None None tol 1 = Ok cl /\ cl_fit cl = Fitted f /\ cl_mt cl = Mean /\ f_mu f = PI / 4 /\ f_kappa f = One k /\
    0 < k < 3 /\ p_beta (f_par f) = [B] /\ 0 < B.
Proof.
  intros Hi Hs Hc. destruct (run2 iv solve pinv c tol Hi Hs) as (cl & f & B & k & H1 & H2 & H3 & H4 & H5 & H6 & H7 & H8). pose proof hk as Hk. rewrite <- H6 in Hk.
  exists cl, f, B, k. repeat (split; [assumption|]). pose proof (weight_nonneg iv k Hi ltac:(lra)) as W. pose proof s4. set (w := k * A1 (iv 0%nat) (iv 1%nat) k) in *.
  assert (0 < k * sin (PI / 4)) by nra. assert (0 < 4 * c ^ 2 * w + eps8). { unfold eps8. pose proof (pow2_ge_0 c). nra. }
  destruct (Rle_dec B 0); [|lra]. exfalso. assert (0 < 2 * c * (k * sin (PI / 4))) by nra. nra.
Qed.
(** The reported mu is not the best one for the reported beta. *)
Lemma stale iv solve pinv tol : is_iv iv -> right_solve solve ->
  exists cl f mu', cl_run iv solve pinv th2 1 (x2 1) "mean" None None None tol 1 = Ok cl /\ cl_fit cl = Fitted f /\
    vm_loglik iv (under (cl_loc (cl_mt cl) f) (cl_conc (cl_mt cl) f) th2 (x2 1)) < vm_loglik iv (under (tan_link mu' (p_beta (f_par f))) (cl_conc (cl_mt cl) f) th2 (x2 1)).
Proof.
  intros Hi Hs. destruct (run2_pos iv solve pinv 1 tol Hi Hs ltac:(lra)) as (cl & f & B & k & H1 & H2 & H3 & H4 & H5 & Hk & H7 & HB).
  exists cl, f, (PI / 4 - atan B). split; [exact H1|]. split; [exact H2|]. rewrite H3. unfold cl_loc, cl_conc. rewrite H4, H5, H7, !loglik_sum by exact Hi.
  unfold th2, x2. cbn [combine map fst snd]. rewrite !Rsum_cons, !Rsum_nil. unfold tan_link. cbn [inner].
  replace (0 * B + 0) with 0 by ring. replace (1 * B + 0) with B by ring. rewrite atan_0. set (t := atan B).
  assert (Ht : 0 < t < PI / 2). { split; [rewrite <- atan_0; now apply atan_increasing|apply atan_bound]. }
  apply Rplus_lt_compat_r.
  assert (Cp : 0 < cos (PI / 4 - t)) by (apply cos_gt_0; lra). assert (Ct : cos t < 1). { rewrite <- cos_0. apply cos_decreasing_1; pose proof PI_RGT_0; lra. }
  replace (0 - (PI / 4 + 2 * 0)) with (- ((PI / 4 - t) + t)) by ring. replace (PI / 2 - (PI / 4 + 2 * t)) with ((PI / 4 - t) - t) by field.
  replace (0 - (PI / 4 - t + 2 * 0)) with (- (PI / 4 - t)) by ring. replace (PI / 2 - (PI / 4 - t + 2 * t)) with (PI / 4 - t) by field.
  set (A := PI / 4 - t) in *. rewrite !cos_neg, (cos_plus A t), (cos_minus A t). assert (0 < k * cos A * (1 - cos t)) by (apply Rmult_lt_0_compat; [apply Rmult_lt_0_compat; lra|lra]). nra.
Qed.
(** Measuring the predictor in other units. *)
Lemma units iv solve pinv tol : is_iv iv -> right_solve solve ->
  exists c cl cl' f f' B B', 0 < c /\ cl_run iv solve pinv th2 1 (x2 1) "mean" None None None tol 1 = Ok cl /\ cl_run iv solve pinv th2 1 (x2 c) "mean" None None None tol 1 = Ok cl' /\
    cl_fit cl = Fitted f /\ cl_fit cl' = Fitted f' /\ p_beta (f_par f) = [B] /\ p_beta (f_par f') = [B'] /\ 0 < B /\ c * B' < B / 2.
Proof.
  intros Hi Hs. set (c := / 100000). assert (Hc : 0 < c) by (unfold c; lra).
  destruct (run2 iv solve pinv 1 tol Hi Hs) as (cl & f & B & k & H1 & H2 & _ & _ & _ & H6 & H7 & H8). destruct (run2 iv solve pinv c tol Hi Hs) as (cl' & f' & B' & k' & H1' & H2' & _ & _ & _ & H6' & H7' & H8').
  rewrite <- H6 in H6'. subst k'. exists c, cl, cl', f, f', B, B'. repeat (split; [assumption|]).
  pose proof hk as Hk. rewrite <- H6 in Hk. pose proof (weight_nonneg iv k Hi ltac:(lra)) as W. pose proof (A1_lt1 iv k Hi ltac:(lra)) as A. pose proof s4. set (a := A1 (iv 0%nat) (iv 1%nat) k) in *. set (s := k * sin (PI / 4)) in *.
  assert (0 < s) by (unfold s; nra). assert (W3 : k * a < 3) by nra. set (w := k * a) in *. unfold eps8 in *.
  assert (B0 : 0 < B). { destruct (Rle_dec B 0); [|lra]. exfalso. nra. } split; [exact B0|].
  set (D := c * B'). assert (E : (4 * w + 100) * D = 2 * s). { unfold D. apply Rmult_eq_reg_l with (c); [|lra]. replace (c * ((4 * w + 100) * (c * B'))) with ((4 * c ^ 2 * w + / 100000000) * B') by (unfold c; field). rewrite H8'. ring. }
  assert (E' : (4 * w + / 100000000) * B = 2 * s) by (rewrite <- (Rmult_1_r 4) at 1; nra).
  clearbody D w s. nra.
Qed.

(** ** Four observations *)
Definition th4 : list R := [0; PI / 2; 0; PI / 2].
Definition x4 : list (list R) := [[1]; [1]; [-1]; [-1]].
Lemma data4 : cc_data th4 1 x4.
Proof. split; [reflexivity|]. split; [discriminate|]. intros r [<-|[<-|[<-|[<-|[]]]]]; reflexivity. Qed.
Lemma res4 : mean (map (fun o => sin (rdev [0] o)) (combine th4 x4)) = 1/2 /\ mean (map (fun o => cos (rdev [0] o)) (combine th4 x4)) = 1/2.
Proof.
  unfold th4, x4, mean. cbn [combine map List.length INR]. rewrite !rdev0, !Rsum_cons, !Rsum_nil, sin_0, cos_0, sin_PI2, cos_PI2. split; lra.
Qed.
Lemma step4 iv solve pinv q : is_iv iv -> right_solve solve -> p_beta q = [0] ->
  exists ll, mean_step (iv 0%nat) (iv 1%nat) solve pinv 1 (combine th4 x4) q = Step q (PI / 4) (One (A1inv (hypot (1/2) (1/2)))) ll.
Proof.
  intros Hi Hs Hq. destruct res4 as [E1 E2]. assert (Er : Rres (p_beta q) (combine th4 x4) = hypot (1/2) (1/2)) by (unfold Rres; rewrite Hq; now rewrite E1, E2).
  destruct quarter as [Qa Qb]. pose proof hk as Hk.
  destruct (mean_step_ok (iv 0%nat) (iv 1%nat) solve pinv 1 (combine th4 x4) q) as (new & ll & Es); [lra|]. rewrite Es. exists ll.
  destruct (mean_step_inv _ _ _ _ _ _ _ _ _ _ _ Es) as (_ & Em & k & Ek & Ek' & _ & Ea & Eg & Eb). rewrite Er in *.
  assert (Mq : Mres (p_beta q) (combine th4 x4) = PI / 4) by (unfold Mres; rewrite Hq; now rewrite E1, E2). rewrite Mq in *.
  assert (L : forall o, In o (combine th4 x4) -> List.length (grow (p_beta q) o) = 1%nat /\ 0 <= k * A1 (iv 0%nat) (iv 1%nat) k * 1).
  { intros o Ho. rewrite grow_length. split; [apply (proj1 (data_obs _ _ _ data4) o Ho)|]. rewrite Rmult_1_r. apply weight_nonneg; [exact Hi|lra]. }
  assert (Z : p_beta new = [0]).
  { rewrite Eb. apply (safe_solve_unique solve pinv 1 (fun _ => k * A1 (iv 0%nat) (iv 1%nat) k * 1) (grow (p_beta q)) _ _ [0] Hs (mean_rhs_length 1 _ _ _ _) L eq_refl). intros i Hlt. assert (i = 0%nat) by lia. subst i.
    rewrite mean_rhs_nth; [|lia|now rewrite Hq|exact (proj1 (data_obs _ _ _ data4))]. rewrite Hq. unfold th4, x4. cbn [combine map]. rewrite !grow0, !rdev0. cbn [nth inner]. rewrite !Rsum_cons, !Rsum_nil.
    replace (PI / 2 - PI / 4) with (PI / 4) by field. replace (0 - PI / 4) with (- (PI / 4)) by ring. rewrite sin_neg. ring. }
  f_equal. clear - Z Hq Ea Eg. destruct new, q. cbn in *. congruence.
Qed.
Lemma settled4 iv solve pinv tol it : is_iv iv -> right_solve solve -> 0 < tol -> (2 <= it)%nat ->
  exists c f, cl_run iv solve pinv th4 1 x4 "mean" None None None tol it = Ok c /\ cl_fit c = Fitted f /\
    cl_mt c = Mean /\ f_par f = start_par 1 None None None /\ f_mu f = PI / 4 /\ f_kappa f = One (A1inv (hypot (1/2) (1/2))) /\
    exists ll, mean_step (iv 0%nat) (iv 1%nat) solve pinv 1 (combine th4 x4) (start_par 1 None None None) = Step (start_par 1 None None None) (PI / 4) (One (A1inv (hypot (1/2) (1/2)))) ll /\ f_ll f = ll.
Proof.
  intros Hi Hs Ht Hit. rewrite (cl_run_eval _ _ _ _ _ _ "mean" Mean None None None _ _ data4 eq_refl I I). destruct it as [|[|it]]; [lia|lia|]. cbn [cl_loop cl_step].
  destruct (step4 iv solve pinv (start_par 1 None None None) Hi Hs eq_refl) as [ll Es]. rewrite !Es. replace (ll - ll) with 0 by ring. rewrite Rabs_R0. destruct (Rltb_spec 0 tol); [|lra]. cbn [bind].
  eexists _, _. split; [reflexivity|]. split; [reflexivity|]. cbn. repeat (split; [reflexivity|]). exists ll. auto.
Qed.
Lemma settled4_same iv solve pinv tol : is_iv iv -> right_solve solve -> 0 < tol ->
  exists c c' f, cl_run iv solve pinv th4 1 x4 "mean" None None None tol 2 = Ok c /\ cl_run iv solve pinv th4 1 x4 "mean" None None None tol 3 = Ok c' /\ cl_fit c = Fitted f /\ cl_fit c' = Fitted f /\
    cl_mt c = Mean /\ f_kappa f <> One 0.
Proof.
  intros Hi Hs Ht. destruct (settled4 iv solve pinv tol 2 Hi Hs Ht ltac:(lia)) as (c & f & E & Ef & Em & E1 & E2 & E3 & ll & Es & El).
  destruct (settled4 iv solve pinv tol 3 Hi Hs Ht ltac:(lia)) as (c' & f' & E' & Ef' & Em' & E1' & E2' & E3' & ll' & Es' & El').
  exists c, c', f. rewrite Es in Es'. injection Es' as Q. assert (F : f' = f) by (destruct f, f'; cbn in *; congruence). rewrite F in Ef'. repeat (split; [assumption|]). rewrite E3. intros K. injection K as K. pose proof hk. lra.
Qed.

(** ** The other models at concentration 1 *)
Lemma A1p_1 iv : is_iv iv -> 1/4 < A1p (iv 0%nat) (iv 1%nat) 1.
Proof.
  intros Hi. pose proof (vr_lt iv 1 0 Hi ltac:(lra)) as L. cbn [INR] in L. unfold vr in L. fold (A1 (iv 0%nat) (iv 1%nat) 1) in L. pose proof (A1_pos iv 1 Hi ltac:(lra)) as P.
  unfold A1p. set (a := A1 (iv 0%nat) (iv 1%nat) 1) in *. replace (1 / (2 * 1)) with (1/2) in L by field. replace (a / 1) with a by field. nra.
Qed.
Lemma isclose_quarter a : 1/4 < a -> isclose a 0 = false.
Proof. intros H. unfold isclose, isclose_tol. rewrite Rminus_0_r, Rabs_R0, Rmult_0_r, Rabs_right by lra. destruct (Rleb_spec a (/ 100000000 + 0)); [lra|reflexivity]. Qed.
Definition zpar (b : R) : par := {| p_beta := [b]; p_alpha := 0; p_gamma := [0] |}.
Lemma kap_zero b t x : kap (zpar b) (t, [x]) = 1.
Proof. unfold kap. rewrite dot_inner. cbn. replace (0 + (x * 0 + 0)) with 0 by ring. apply exp_0. Qed.
Lemma conc_ok iv solve pinv b theta rows d : is_iv iv -> cc_data theta 1 rows ->
  exists a g, conc_update (iv 0%nat) (iv 1%nat) solve pinv 1 (combine theta rows) (zpar b) d = Some (a, g).
Proof.
  intros Hi D. unfold conc_update. destruct (existsb _ _) eqn:Ex; [|cbv zeta; eauto]. exfalso. apply existsb_exists in Ex. destruct Ex as (o & Ho & K).
  pose proof (proj1 (data_obs _ _ _ D) o Ho) as L. destruct o as [t x]. cbn [snd] in L. destruct x as [|x [|? ?]]; try discriminate. rewrite kap_zero, isclose_quarter in K; [discriminate|now apply A1p_1].
Qed.
Lemma conc_run iv solve pinv theta rows mt m b0 a0 g0 tol b : is_iv iv -> cc_data theta 1 rows -> type_of mt = Some m -> m <> Mean -> fits_len 1 b0 -> fits_len 1 g0 -> start_par 1 b0 a0 g0 = zpar b ->
  exists c f, cl_run iv solve pinv theta 1 rows mt b0 a0 g0 tol 1 = Ok c /\ cl_fit c = Fitted f /\ cl_mt c = m /\
    cl_step m (iv 0%nat) (iv 1%nat) solve pinv 1 (combine theta rows) (zpar b) = Step (f_par f) (f_mu f) (f_kappa f) (f_ll f).
Proof.
  intros Hi D T Hm Hb Hg E. rewrite (cl_run_eval _ _ _ _ _ _ mt m _ _ _ _ _ D T Hb Hg), E.
  assert (K : exists new mu k ll, cl_step m (iv 0%nat) (iv 1%nat) solve pinv 1 (combine theta rows) (zpar b) = Step new mu k ll).
  { destruct m; [congruence| |]; cbn [cl_step].
    - unfold kappa_step. cbv zeta. edestruct conc_ok as (a & g & ->); [exact Hi|exact D|]. eauto 10.
    - unfold mixed_step. cbv zeta. edestruct conc_ok as (a & g & ->); [exact Hi|exact D|]. eauto 10. }
  destruct K as (new & mu & k & ll & K). cbn [cl_loop]. rewrite K. cbn [bind]. eexists _, _. split; [reflexivity|]. split; [reflexivity|]. split; [reflexivity|]. cbn. reflexivity.
Qed.

(** ** The mixed model moves away from a stationary beta *)
Definition thm : list R := [PI / 2 + PI / 3; PI / 2 - PI / 3; - (PI / 2) + PI / 3; - (PI / 2) - PI / 3].
Lemma datam : cc_data thm 1 x4.
Proof. split; [reflexivity|]. split; [discriminate|]. intros r [<-|[<-|[<-|[<-|[]]]]]; reflexivity. Qed.
Lemma rdev1 t x : x = 1 \/ x = -1 -> rdev [1] (t, [x]) = t - x * (PI / 2) /\ grow [1] (t, [x]) = [x].
Proof.
  intros H. unfold rdev, grow. rewrite dot_inner. cbn. replace (x * 1 + 0) with x by ring. split.
  - destruct H as [-> | ->]; [rewrite atan_1; field|]. replace (-1) with (- (1)) by ring. rewrite atan_opp, atan_1. field.
  - f_equal. destruct H as [-> | ->]; field.
Qed.
Lemma mixed_moves iv solve pinv tol : is_iv iv -> right_solve solve ->
  exists c f B, cl_run iv solve pinv thm 1 x4 "mixed" (Some [1]) (Some 0) (Some [0]) tol 1 = Ok c /\ cl_fit c = Fitted f /\
    (forall e, List.length e = 1%nat -> derivable_pt_lim (fun s => vm_loglik iv (under (tan_link (f_mu f) (along [1] s e)) (log_link 0 [0]) thm x4)) 0 0) /\
    p_beta (f_par f) = [B] /\ B < 1/2.
Proof.
  intros Hi Hs. destruct (conc_run iv solve pinv thm x4 "mixed" Mixed (Some [1]) (Some 0) (Some [0]) tol 1 Hi datam eq_refl ltac:(discriminate) eq_refl eq_refl eq_refl) as (c & f & E & Ef & _ & Es).
  cbn [cl_step] in Es. destruct (mixed_step_inv _ _ _ _ _ _ _ _ _ _ _ Es) as (Em & _ & _ & Eb & _). change (p_beta (zpar 1)) with [1] in *.
  assert (M : f_mu f = 0).
  { rewrite Em. unfold Kmu, thm, x4. cbn [combine map]. rewrite !kap_zero. rewrite !(proj1 (rdev1 _ _ (or_introl eq_refl))), !(proj1 (rdev1 _ _ (or_intror eq_refl))). rewrite !Rsum_cons, !Rsum_nil.
    replace (PI / 2 + PI / 3 - 1 * (PI / 2)) with (PI / 3) by field. replace (PI / 2 - PI / 3 - 1 * (PI / 2)) with (- (PI / 3)) by field.
    replace (- (PI / 2) + PI / 3 - -1 * (PI / 2)) with (PI / 3) by field. replace (- (PI / 2) - PI / 3 - -1 * (PI / 2)) with (- (PI / 3)) by field.
    rewrite sin_neg, cos_neg, cos_PI3. replace (1 * sin (PI / 3) + (1 * - sin (PI / 3) + (1 * sin (PI / 3) + (1 * - sin (PI / 3) + 0)))) with 0 by ring.
    unfold arctan2. destruct (Rltb_spec 0 (1 * (1 / 2) + (1 * (1 / 2) + (1 * (1 / 2) + (1 * (1 / 2) + 0))))); [|lra]. unfold Rdiv at 1. rewrite Rmult_0_l. apply atan_0. }
  rewrite M in *. set (w := A1 (iv 0%nat) (iv 1%nat) 1). assert (W : 0 < w) by (apply A1_pos; [exact Hi|lra]).
  assert (L : forall o, In o (combine thm x4) -> List.length (grow [1] o) = 1%nat /\ 0 <= kap (zpar 1) o * A1 (iv 0%nat) (iv 1%nat) (kap (zpar 1) o)).
  { intros o Ho. rewrite grow_length. split; [apply (proj1 (data_obs _ _ _ datam) o Ho)|]. apply weight_nonneg; [exact Hi|left; apply kap_pos]. }
  pose proof (safe_solve_spec solve pinv 1 (fun o => kap (zpar 1) o * A1 (iv 0%nat) (iv 1%nat) (kap (zpar 1) o)) (grow [1]) (combine thm x4) _ Hs (tmul_length 1 (grow [1]) (fun o => kap (zpar 1) o * A1 (iv 0%nat) (iv 1%nat) (kap (zpar 1) o) * sin (fst o - 0)) (combine thm x4)) L) as SS. cbv zeta in SS. rewrite <- Eb in SS. destruct SS as [Lb Sb].
  destruct (p_beta (f_par f)) as [|B [|? ?]] eqn:En; try discriminate. exists c, f, B. split; [exact E|]. split; [exact Ef|]. rewrite M. split; [|split; [exact En|]].
  - intros e He. eapply dlim_eq; cycle 1.
    + eapply dlim_ext; [|exact (mean_score iv thm x4 0 1 [1] e Hi (eq_sym He))]. intros s. cbv beta. f_equal. unfold under. apply map_ext_in. intros [t x] Ho. cbn [fst snd]. f_equal. unfold log_link.
      assert (Lx := proj1 (data_obs _ _ _ datam) _ Ho). cbn [snd] in Lx. destruct x as [|x [|? ?]]; try discriminate. cbn. replace (0 + (x * 0 + 0)) with 0 by ring. symmetry. apply exp_0.
    + unfold thm, x4. cbn [combine map]. rewrite !(proj1 (rdev1 _ _ (or_introl eq_refl))), !(proj1 (rdev1 _ _ (or_intror eq_refl))), !(proj2 (rdev1 _ _ (or_introl eq_refl))), !(proj2 (rdev1 _ _ (or_intror eq_refl))). rewrite !Rsum_cons, !Rsum_nil.
      replace (PI / 2 + PI / 3 - 1 * (PI / 2) - 0) with (PI / 3) by field. replace (PI / 2 - PI / 3 - 1 * (PI / 2) - 0) with (- (PI / 3)) by field.
      replace (- (PI / 2) + PI / 3 - -1 * (PI / 2) - 0) with (PI / 3) by field. replace (- (PI / 2) - PI / 3 - -1 * (PI / 2) - 0) with (- (PI / 3)) by field.
      rewrite sin_neg. ring.
  - specialize (Sb 0%nat ltac:(lia)). rewrite tmul_nth in Sb by lia. unfold thm, x4 in Sb. cbn [combine map] in Sb. rewrite !kap_zero, !(proj2 (rdev1 _ _ (or_introl eq_refl))), !(proj2 (rdev1 _ _ (or_intror eq_refl))) in Sb. cbn [nth inner fst snd] in Sb. fold w in Sb. rewrite !Rsum_cons, !Rsum_nil in Sb.
    assert (S1 : sin (PI / 2 + PI / 3 - 0) = 1/2) by (rewrite Rminus_0_r, <- (cos_sin (PI / 3)); apply cos_PI3).
    assert (S2 : sin (PI / 2 - PI / 3 - 0) = 1/2) by (rewrite Rminus_0_r, sin_shift; apply cos_PI3).
    assert (S3 : sin (- (PI / 2) + PI / 3 - 0) = - (1/2)) by (replace (- (PI / 2) + PI / 3 - 0) with (- (PI / 2 - PI / 3)) by field; rewrite sin_neg, sin_shift, cos_PI3; reflexivity).
    assert (S4 : sin (- (PI / 2) - PI / 3 - 0) = - (1/2)) by (replace (- (PI / 2) - PI / 3 - 0) with (- (PI / 2 + PI / 3 - 0)) by field; rewrite sin_neg, S1; reflexivity).
    rewrite S1, S2, S3, S4 in Sb. unfold eps8 in Sb. assert (Q : (4 * w + / 100000000) * B = 2 * w) by lra. nra.
Qed.

(** ** Further values *)
Lemma aic2 iv solve pinv tol : is_iv iv -> right_solve solve ->
  exists c c' f f', cl_run iv solve pinv th2 1 (x2 1) "mean" None None None tol 1 = Ok c /\ cl_run iv solve pinv th2 1 (x2 1) "mixed" None None None tol 1 = Ok c' /\
    cl_fit c = Fitted f /\ cl_fit c' = Fitted f' /\ exists a a', cl_aic c = Fin a /\ cl_aic c' = Fin a' /\
    a' - a <> 2 * (f_ll f - f_ll f') + 2 * (INR (2 * 1 + 2) - INR (1 + 2)).
Proof.
  intros Hi Hs. destruct (run2 iv solve pinv 1 tol Hi Hs) as (c & f & B & k & E & Ef & Em & _).
  destruct (conc_run iv solve pinv th2 (x2 1) "mixed" Mixed None None None tol 0 Hi (data2 1) eq_refl ltac:(discriminate) I I eq_refl) as (c' & f' & E' & Ef' & Em' & _).
  exists c, c', f, f'. repeat (split; [assumption|]). destruct (cl_criteria _ _ _ _ _ _ _ _ _ _ _ _ _ _ Hi Hs (data2 1) E Ef) as [A _]. destruct (cl_criteria _ _ _ _ _ _ _ _ _ _ _ _ _ _ Hi Hs (data2 1) E' Ef') as [A' _].
  eexists _, _. split; [exact A|]. split; [exact A'|]. rewrite Em, Em'. cbn [counted]. cbn. lra.
Qed.
Lemma kappa_predict iv solve pinv tol : is_iv iv -> right_solve solve ->
  exists c f, cl_run iv solve pinv th4 1 x4 "kappa" (Some [1]) None None tol 1 = Ok c /\ cl_fit c = Fitted f /\
    cl_loc (cl_mt c) f [1] = f_mu f /\ cl_predict c (X2 1 [[Fin 1]]) = Ok [f_mu f + PI / 2].
Proof.
  intros Hi Hs. destruct (conc_run iv solve pinv th4 x4 "kappa" Kappa (Some [1]) None None tol 1 Hi data4 eq_refl ltac:(discriminate) eq_refl I eq_refl) as (c & f & E & Ef & Em & Es).
  exists c, f. split; [exact E|]. split; [exact Ef|]. rewrite Em. split; [reflexivity|]. cbn [cl_step] in Es. destruct (kappa_step_inv _ _ _ _ _ _ _ _ _ _ _ Es) as (_ & _ & _ & Eb & _).
  unfold cl_predict. rewrite Ef, Eb. change (p_beta (zpar 1)) with [1]. cbn [forallb List.length Nat.eqb andb negb finite_rows finite map]. do 2 f_equal. rewrite dot_inner. cbn [inner]. replace (1 * 1 + 0) with 1 by ring. rewrite atan_1. field.
Qed.
Lemma th2_unbalanced c b a g : ~ balanced (loc0 "kappa" b) (log_link a g) th2 (x2 c).
Proof.
  intros [K _]. unfold loc0, th2, x2 in K. cbn [String.eqb Ascii.eqb Bool.eqb combine map fst snd] in K. rewrite !Rsum_cons, Rsum_nil in K. rewrite !Rminus_0_r, sin_0, sin_PI2 in K. pose proof (exp_pos (a + inner [c] g)) as P. fold (log_link a g [c]) in P. lra.
Qed.
Lemma th2_turned : cl_turned 1 th2 [1; PI / 2 + 1 - 2 * PI].
Proof.
  split; [reflexivity|]. intros [|[|i]] Hi; cbn in Hi |- *; [exists 0%Z; cbn; lra|exists (-1)%Z; cbn; lra|lia].
Qed.
Lemma th2_kappa_run iv solve pinv tol : is_iv iv -> exists c f, cl_run iv solve pinv th2 1 (x2 1) "kappa" None None None tol 1 = Ok c /\ cl_fit c = Fitted f.
Proof.
  intros Hi. destruct (conc_run iv solve pinv th2 (x2 1) "kappa" Kappa None None None tol 0 Hi (data2 1) eq_refl ltac:(discriminate) I I eq_refl) as (c & f & E & Ef & _). eauto.
Qed.
Lemma mixed_run iv solve pinv tol : is_iv iv -> exists c f, cl_run iv solve pinv thm 1 x4 "mixed" (Some [1]) (Some 0) (Some [0]) tol 1 = Ok c /\ cl_fit c = Fitted f.
Proof.
  intros Hi. destruct (conc_run iv solve pinv thm x4 "mixed" Mixed (Some [1]) (Some 0) (Some [0]) tol 1 Hi datam eq_refl ltac:(discriminate) eq_refl eq_refl eq_refl) as (c & f & E & Ef & _). eauto.
Qed.
(** A stationary start of the concentration model: the cosines of the deviations are A1(1). *)
Definition dk (iv : nat -> R -> R) : R := acos (iv 1%nat 1 / iv 0%nat 1).
Lemma kappa_stays iv solve pinv tol : is_iv iv -> right_solve solve ->
  exists c f, cl_run iv solve pinv [dk iv; - dk iv] 1 [[0]; [1]] "kappa" None (Some 0) (Some [0]) tol 1 = Ok c /\ cl_fit c = Fitted f /\ f_mu f = 0 /\ p_alpha (f_par f) = 0 /\ p_gamma (f_par f) = [0].
Proof.
  intros Hi Hs. assert (D : cc_data [dk iv; - dk iv] 1 [[0]; [1]]) by (split; [reflexivity|]; split; [discriminate|]; intros r [<-|[<-|[]]]; reflexivity).
  assert (Ha : 0 < iv 1%nat 1 / iv 0%nat 1 <= 1). { pose proof (A1_pos iv 1 Hi ltac:(lra)). pose proof (A1_lt1 iv 1 Hi ltac:(lra)). unfold A1 in *. lra. }
  assert (Hc : cos (dk iv) = iv 1%nat 1 / iv 0%nat 1) by (apply cos_acos; lra).
  destruct (conc_run iv solve pinv [dk iv; - dk iv] [[0]; [1]] "kappa" Kappa None (Some 0) (Some [0]) tol 0 Hi D eq_refl ltac:(discriminate) I eq_refl eq_refl) as (c & f & E & Ef & _ & Es).
  exists c, f. split; [exact E|]. split; [exact Ef|]. cbn [cl_step] in Es. destruct (kappa_step_inv _ _ _ _ _ _ _ _ _ _ _ Es) as (Em & _).
  assert (M : f_mu f = 0).
  { rewrite Em. unfold Kmu. cbn [combine map fst]. rewrite !kap_zero, !Rsum_cons, !Rsum_nil, sin_neg, cos_neg, Hc. replace (1 * sin (dk iv) + (1 * - sin (dk iv) + 0)) with 0 by ring.
    unfold arctan2. destruct (Rltb_spec 0 (1 * (iv 1%nat 1 / iv 0%nat 1) + (1 * (iv 1%nat 1 / iv 0%nat 1) + 0))); [|lra]. unfold Rdiv at 1. rewrite Rmult_0_l. apply atan_0. }
  split; [exact M|]. apply (kappa_fixed iv solve pinv _ 1 _ None 0 [0] tol c f Hi Hs D E Ef). intros da dg Hl. rewrite M.
  eapply dlim_eq; [|exact (conc_score iv [dk iv; - dk iv] [[0]; [1]] (fun _ => 0) (zpar 0) da dg Hi (eq_sym Hl))].
  cbn [combine map fst snd]. rewrite !kap_zero, !Rsum_cons, !Rsum_nil. unfold A1. rewrite !Rminus_0_r, cos_neg, Hc. ring.
Qed.
Lemma stale_full iv solve pinv tol : is_iv iv -> right_solve solve ->
  exists theta p rows c f k mu', cc_data theta p rows /\ cl_run iv solve pinv theta p rows "mean" None None None tol 1 = Ok c /\ cl_fit c = Fitted f /\ f_kappa f = One k /\
    vm_loglik iv (under (tan_link (f_mu f) (p_beta (f_par f))) (fun _ => k) theta rows) < vm_loglik iv (under (tan_link mu' (p_beta (f_par f))) (fun _ => k) theta rows).
Proof.
  intros Hi Hs. destruct (stale iv solve pinv tol Hi Hs) as (c & f & mu' & E & Ef & L). destruct (run2_pos iv solve pinv 1 tol Hi Hs ltac:(lra)) as (c2 & f2 & B & k & E2 & Ef2 & Em & _ & Ek & _).
  rewrite E in E2. injection E2 as <-. rewrite Ef in Ef2. injection Ef2 as <-. exists th2, 1%nat, (x2 1), c, f, k, mu'. split; [apply data2|]. split; [exact E|]. split; [exact Ef|]. split; [exact Ek|].
  rewrite Em in L. unfold cl_loc, cl_conc in L. now rewrite Ek in L.
Qed.
Lemma ll_constant iv solve pinv tol : is_iv iv -> right_solve solve -> 0 < tol ->
  exists theta p rows c c' f k, cc_data theta p rows /\ cl_run iv solve pinv theta p rows "mean" None None None tol 2 = Ok c /\ cl_run iv solve pinv theta p rows "mean" None None None tol 3 = Ok c' /\
    cl_fit c = Fitted f /\ cl_fit c' = Fitted f /\ f_kappa f = One k /\
    f_ll f <> vm_loglik iv (under (tan_link (f_mu f) (p_beta (f_par f))) (fun _ => k) theta rows).
Proof.
  intros Hi Hs Ht. destruct (settled4_same iv solve pinv tol Hi Hs Ht) as (c & c' & f & E & E' & Ef & Ef' & Em & _). pose proof (proj1 (cl_settled _ _ _ _ _ _ _ _ _ _ _ _ _ _ _ Hi data4 E E' Ef Ef')) as L.
  destruct (settled4 iv solve pinv tol 2 Hi Hs Ht ltac:(lia)) as (c2 & f2 & E2 & Ef2 & _ & _ & _ & Ek & _). rewrite E in E2. injection E2 as <-. rewrite Ef in Ef2. injection Ef2 as <-.
  exists th4, 1%nat, x4, c, c', f, (A1inv (hypot (1/2) (1/2))). split; [exact data4|]. repeat (split; [assumption|]). rewrite Em in L. unfold cl_loc, cl_conc in L. rewrite Ek in L. rewrite L. change (List.length th4) with 4%nat.
  assert (P : 0 < ln (2 * PI)). { rewrite <- ln_1. apply ln_increasing; [lra|]. pose proof PI2_1. lra. } replace (INR 4) with 4 by (cbn; lra). lra.
Qed.
Lemma stays4 iv solve pinv tol : is_iv iv -> right_solve solve ->
  exists c f, cl_run iv solve pinv th4 1 x4 "mean" (Some [0]) None None tol 1 = Ok c /\ cl_fit c = Fitted f /\ p_beta (f_par f) = [0] /\ exists k, f_kappa f = One k /\ 0 < k.
Proof.
  intros Hi Hs. rewrite (cl_run_eval _ _ _ _ _ _ "mean" Mean (Some [0]) None None _ _ data4 eq_refl eq_refl I). cbn [cl_loop cl_step].
  destruct (step4 iv solve pinv (start_par 1 (Some [0]) None None) Hi Hs eq_refl) as [ll Es]. rewrite Es. cbn [bind]. eexists _, _. split; [reflexivity|]. split; [reflexivity|]. cbn [f_par p_beta f_kappa]. split; [reflexivity|]. eexists. split; [reflexivity|]. apply hk.
Qed.
Lemma units_full iv solve pinv tol : is_iv iv -> right_solve solve ->
  exists theta rows c cl cl' f f' B B', 0 < c /\ cc_data theta 1 rows /\
    cl_run iv solve pinv theta 1 rows "mean" None None None tol 1 = Ok cl /\ cl_run iv solve pinv theta 1 (map (map (Rmult c)) rows) "mean" None None None tol 1 = Ok cl' /\
    cl_fit cl = Fitted f /\ cl_fit cl' = Fitted f' /\ p_beta (f_par f) = [B] /\ p_beta (f_par f') = [B'] /\ 0 < B /\ c * B' < B / 2.
Proof.
  intros Hi Hs. destruct (units iv solve pinv tol Hi Hs) as (c & cl & cl' & f & f' & B & B' & Hc & E & E' & H). exists th2, (x2 1), c, cl, cl', f, f', B, B'. split; [exact Hc|]. split; [apply data2|]. split; [exact E|]. split; [|exact H].
  replace (map (map (Rmult c)) (x2 1)) with (x2 c); [exact E'|]. unfold x2. cbn. now rewrite Rmult_0_r, Rmult_1_r.
Qed.
Lemma nan_fit iv solve pinv tol it : (1 <= it)%nat ->
  exists theta p rows, cc_data theta p rows /\ cl_run iv solve pinv theta p rows "mean" None None None tol 0 = Err UnboundLocalError /\
    exists c, cl_run iv solve pinv theta p rows "mean" None None None tol it = Ok c /\ cl_fit c = NanFit.
Proof.
  intros Hit. assert (D : cc_data (repeat 1 3) 1 [[0]; [1]; [2]]) by (split; [reflexivity|]; split; [discriminate|]; intros r [<-|[<-|[<-|[]]]]; reflexivity).
  exists (repeat 1 3), 1%nat, [[0]; [1]; [2]]. split; [exact D|]. split.
  - rewrite (cl_run_eval _ _ _ _ _ _ "mean" Mean None None None _ _ D eq_refl I I). reflexivity.
  - apply (cl_constant iv solve pinv 1 3 1 [[0]; [1]; [2]] None None None tol it D (or_introl eq_refl) I Hit).
Qed.
Lemma cl_ses_full iv solve pinv inv theta p rows mt b0 a0 g0 tol it c f : is_iv iv -> right_solve solve -> right_inv inv -> cc_data theta p rows ->
  cl_run iv solve pinv theta p rows mt b0 a0 g0 tol it = Ok c -> cl_fit c = Fitted f -> f_kappa f <> One 0 ->
  let s := standard_errors (iv 0%nat) (iv 1%nat) inv pinv (cl_mt c) p (cl_obs c) f in
  let good x := exists v, 0 < v /\ x = Fin v in
  match se_beta s with Some l => List.length l = p /\ Forall good l | None => True end /\
  match se_ag s with Some (a, l) => good a /\ List.length l = p /\ Forall good l | None => True end /\
  good (se_mu s) /\ Forall good (se_kappa s) /\ List.length (se_kappa s) = (if String.eqb mt "mean" then 1%nat else List.length theta) /\
  (se_beta s = None <-> mt = "kappa"%string) /\ (se_ag s = None <-> mt = "mean"%string).
Proof.
  intros Hi Hs Hv D E Ef Hk s good. destruct (cl_ses _ _ _ _ _ _ _ _ _ _ _ _ _ _ _ Hi Hs Hv D E Ef Hk) as (S1 & S2 & S3 & S4). fold s in S1, S2, S3, S4.
  destruct (cl_run_inv _ _ _ _ _ _ _ _ _ _ _ _ _ D E) as (T & Hb & Hg & _ & _ & El). rewrite Ef in El.
  destruct (loop_inv (fun _ => True) _ _ _ ltac:(auto) _ _ _ _ I El) as [(_ & _ & X)|(q' & new & _ & Es & _)]; [discriminate|].
  assert (Ln : List.length (combine theta rows) = List.length theta) by (rewrite combine_length; destruct D as (L & _); lia).
  assert (Ld : forall from A, List.length (diag from p A) = p) by (intros; unfold diag; now rewrite map_length, seq_length).
  subst s. unfold standard_errors in *. revert T. unfold type_of. destruct (cl_mt c); cbn [cl_step] in Es.
  - destruct (mean_step_inv _ _ _ _ _ _ _ _ _ _ _ Es) as (_ & _ & k & Ek & _). rewrite Ek in *. cbn [se_beta se_ag se_mu se_kappa] in *. destruct (String.eqb_spec mt "mean") as [->|]; [|destruct (String.eqb mt "kappa"); [discriminate|]; destruct (String.eqb mt "mixed"); discriminate].
    split; [auto|]. split; [auto|]. split; [auto|]. split; [auto|]. split; [reflexivity|]. split; split; congruence.
  - destruct (kappa_step_inv _ _ _ _ _ _ _ _ _ _ _ Es) as (_ & Ek & _). rewrite Ek in *. cbn [se_beta se_ag se_mu se_kappa] in *. destruct (String.eqb_spec mt "mean"); [discriminate|]. destruct (String.eqb_spec mt "kappa") as [->|]; [|destruct (String.eqb mt "mixed"); discriminate].
    unfold se_ag_of in *. split; [auto|]. split; [split; [apply S2|split; [apply Ld|apply S2]]|]. split; [auto|]. split; [auto|]. split; [rewrite !map_length; exact Ln|]. split; split; congruence.
  - destruct (mixed_step_inv _ _ _ _ _ _ _ _ _ _ _ Es) as (_ & Ek & _). rewrite Ek in *. cbn [se_beta se_ag se_mu se_kappa] in *. destruct (String.eqb_spec mt "mean"); [discriminate|]. destruct (String.eqb_spec mt "kappa"); [discriminate|]. destruct (String.eqb_spec mt "mixed") as [->|]; [|discriminate].
    unfold se_ag_of in *. split; [auto|]. split; [split; [apply S2|split; [apply Ld|apply S2]]|]. split; [auto|]. split; [auto|]. split; [rewrite !map_length; exact Ln|]. split; split; congruence.
Qed.
