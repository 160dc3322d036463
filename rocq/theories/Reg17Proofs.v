(** Inputs, AIC and BIC, predictions. *)
From Verif Require Import Prelude NpModel NpProofs UtilsModel CircleSpec IntSpec IntProofs VonSpec VonProofs RegModel RegSpec RegClSpec RegProofs Reg2Proofs Reg3Proofs Reg4Proofs Em5Proofs Desc9Proofs Reg9Proofs Reg10Proofs Reg11Proofs Reg12Proofs Reg13Proofs Reg14Proofs Reg15Proofs Reg16Proofs.
From Coq Require Import String.

Definition start_ok (p : nat) (v : option (list fl)) : Prop := match v with None => True | Some l => List.length l = p /\ numbers l end.
Definition known (mt : string) : Prop := mt = "mean"%string \/ mt = "kappa"%string \/ mt = "mixed"%string.
Definition cl_good (theta : list fl) (p : nat) (rows : list (list fl)) (mt : string) (b0 g0 : option (list fl)) : Prop :=
  theta <> [] /\ numbers theta /\ (forall r, In r rows -> List.length r = p /\ numbers r) /\ List.length theta = List.length rows /\
  known mt /\ start_ok p b0 /\ start_ok p g0.
Lemma numbers_map v : numbers (map Fin v).
Proof. intros x Hx. apply in_map_iff in Hx. destruct Hx as (u & <- & _). eauto. Qed.
Lemma numbers_inv l : numbers l -> exists v, l = map Fin v.
Proof. intros H. pose proof (finite_spec l) as F. destruct (finite l); [eauto|contradiction]. Qed.
Lemma numbers_rows_inv l : (forall r, In r l -> numbers r) -> exists v, l = map (map Fin) v.
Proof. intros H. pose proof (finite_rows_spec l) as F. destruct (finite_rows l); [eauto|contradiction]. Qed.
Lemma known_spec mt : match type_of mt with Some _ => known mt | None => ~ known mt end.
Proof.
  unfold type_of, known. destruct (String.eqb_spec mt "mean"); [auto|]. destruct (String.eqb_spec mt "kappa"); [auto|]. destruct (String.eqb_spec mt "mixed"); [auto|]. tauto.
Qed.
Lemma coerce_spec v p : match coerce_vector v p with Ok _ => start_ok p v | Err e => e = ValueError /\ ~ start_ok p v end.
Proof.
  destruct v as [l|]; cbn; [|exact I]. destruct (Nat.eqb_spec (List.length l) p); cbn; [|split; [reflexivity|tauto]]. pose proof (finite_spec l) as F. destruct (finite l); [subst; split; [reflexivity|apply numbers_map]|split; [reflexivity|tauto]].
Qed.
Lemma start_ok_num p v : start_ok p v -> exists u, v = option_map (map Fin) u /\ fits_len p u.
Proof.
  destruct v as [l|]; cbn; [|intros _; exists None; split; [reflexivity|exact I]]. intros (H & N). destruct (numbers_inv l N) as (u & ->). exists (Some u). split; [reflexivity|]. cbn. now rewrite map_length in H.
Qed.
(** Bad inputs raise ValueError. *)
Lemma cl_bad i0 i1 solve pinv theta p rows mt b0 a0 g0 tol it : ~ cl_good theta p rows mt b0 g0 ->
  CLRegression i0 i1 solve pinv None None (Some theta) (Some (X2 p rows)) mt b0 a0 g0 tol it = Err ValueError.
Proof.
  intros N. unfold CLRegression, cl_source. cbn [bind fst snd]. unfold cl_prepare. destruct theta as [|t0 th]; [reflexivity|]. set (theta := t0 :: th) in *.
  pose proof (finite_spec theta) as Ft. destruct (finite theta) as [t|]; [|reflexivity].
  destruct (forallb (fun r : list fl => Nat.eqb (List.length r) p) rows) eqn:El; cbn [negb bind]; [|reflexivity].
  destruct (Nat.eqb_spec (List.length rows) (List.length t)) as [L|]; cbn [negb bind]; [|reflexivity].
  pose proof (finite_rows_spec rows) as Fr. destruct (finite_rows rows) as [m|]; [|reflexivity]. cbn [bind].
  pose proof (known_spec mt) as T. destruct (type_of mt) as [k|]; [|reflexivity].
  pose proof (coerce_spec b0 p) as B. destruct (coerce_vector b0 p) as [b|e]; [|destruct B as [-> _]; reflexivity]. cbn [bind].
  pose proof (coerce_spec g0 p) as G. destruct (coerce_vector g0 p) as [g|e]; [|destruct G as [-> _]; reflexivity].
  elim N. split; [unfold theta; discriminate|]. split; [rewrite Ft; apply numbers_map|]. split; [|split; [rewrite Ft, map_length; auto|auto]].
  intros r Hr. split; [apply Nat.eqb_eq; exact (proj1 (forallb_forall _ _) El r Hr)|]. subst. apply in_map_iff in Hr. destruct Hr as (v & <- & _). apply numbers_map.
Qed.
Lemma good_run iv solve pinv theta p rows mt b0 a0 g0 tol it : cl_good theta p rows mt b0 g0 ->
  exists m theta' rows' b g, type_of mt = Some m /\ fits_len p b /\ fits_len p g /\ cc_data theta' p rows' /\ theta = map Fin theta' /\ rows = map (map Fin) rows' /\
  CLRegression (iv 0%nat) (iv 1%nat) solve pinv None None (Some theta) (Some (X2 p rows)) mt b0 a0 g0 tol it = cl_run iv solve pinv theta' p rows' mt b a0 g tol it.
Proof.
  intros (Hn & Ht & Hr & L & K & B & G). destruct (numbers_inv theta Ht) as (t & ->). destruct (numbers_rows_inv rows ltac:(intros; now apply Hr)) as (rs & ->).
  destruct (start_ok_num _ _ B) as (b & -> & Hb). destruct (start_ok_num _ _ G) as (g & -> & Hg). pose proof (known_spec mt) as T. destruct (type_of mt) as [m|]; [|contradiction].
  exists m, t, rs, b, g. split; [reflexivity|]. split; [auto|]. split; [auto|]. split; [|split; [reflexivity|split; reflexivity]].
  rewrite !map_length in L. split; [auto|]. split; [intros ->; destruct t; [apply Hn; reflexivity|discriminate]|]. intros r Hin. rewrite <- (map_length Fin). apply (Hr (map Fin r)). now apply in_map.
Qed.
Lemma loop_outcomes m i0 i1 solve pinv p l tol it : forall q old last, (1 <= it)%nat \/ last <> None ->
  match cl_loop (cl_step m i0 i1 solve pinv p l) tol it q old last with
  | Ok NanFit => m = Mean | Ok (Fitted _) => True | Err e => e = ValueError /\ m <> Mean end.
Proof.
  induction it as [|it IH]; intros q old last H; cbn [cl_loop].
  - destruct last as [[[mu k] ll]|]; [exact I|]. destruct H; [lia|congruence].
  - destruct (cl_step m i0 i1 solve pinv p l q) as [new mu k ll|e|] eqn:Es.
    + destruct (match old with None => false | Some o => Rltb (Rabs (ll - o)) tol end); [exact I|]. apply IH. right. discriminate.
    + destruct m; cbn [cl_step] in Es; unfold mean_step, kappa_step, mixed_step in Es; cbv zeta in Es.
      * destruct (Reqb _ 1); discriminate.
      * destruct (conc_update _ _ _ _ _ _ _ _) as [[a g]|]; [discriminate|]. injection Es as <-. split; [reflexivity|discriminate].
      * destruct (conc_update _ _ _ _ _ _ _ _) as [[a g]|]; [discriminate|]. injection Es as <-. split; [reflexivity|discriminate].
    + destruct m; cbn [cl_step] in Es; unfold kappa_step, mixed_step in Es; cbv zeta in Es; [reflexivity| |];
      destruct (conc_update _ _ _ _ _ _ _ _) as [[a g]|]; discriminate.
Qed.
(** Good inputs and at least one iteration: the mean model always gives an object; the others
    give one with numbers or raise ValueError. *)
Lemma cl_good_outcomes iv solve pinv theta p rows mt b0 a0 g0 tol it : cl_good theta p rows mt b0 g0 -> (1 <= it)%nat ->
  match CLRegression (iv 0%nat) (iv 1%nat) solve pinv None None (Some theta) (Some (X2 p rows)) mt b0 a0 g0 tol it with
  | Ok c => mt = "mean"%string \/ exists f, cl_fit c = Fitted f
  | Err e => e = ValueError /\ mt <> "mean"%string
  end.
Proof.
  intros H Hit. destruct (good_run iv solve pinv theta p rows mt b0 a0 g0 tol it H) as (m & t & rs & b & g & T & Hb & Hg & D & _ & _ & ->).
  rewrite (cl_run_eval _ _ _ _ _ _ _ m _ _ _ _ _ D T Hb Hg). pose proof (loop_outcomes m (iv 0%nat) (iv 1%nat) solve pinv p (combine t rs) tol it (start_par p b a0 g) None None (or_introl Hit)) as LO.
  destruct (cl_loop _ _ _ _ _ _) as [[f|]|e]; cbn [bind cl_fit].
  - right. eauto.
  - left. subst m. revert T. unfold type_of. destruct (String.eqb_spec mt "mean"); [auto|]. destruct (String.eqb mt "kappa"); [discriminate|]. destruct (String.eqb mt "mixed"); discriminate.
  - destruct LO as [-> Hm]. split; [reflexivity|]. intros ->. injection T. congruence.
Qed.
Lemma cl_no_iteration iv solve pinv theta p rows mt b0 a0 g0 tol : cl_good theta p rows mt b0 g0 ->
  CLRegression (iv 0%nat) (iv 1%nat) solve pinv None None (Some theta) (Some (X2 p rows)) mt b0 a0 g0 tol 0 = Err UnboundLocalError.
Proof.
  intros H. destruct (good_run iv solve pinv theta p rows mt b0 a0 g0 tol 0%nat H) as (m & t & rs & b & g & T & Hb & Hg & D & _ & _ & ->).
  now rewrite (cl_run_eval _ _ _ _ _ _ _ m _ _ _ _ _ D T Hb Hg).
Qed.
(** A single predictor as a one-dimensional array. *)
Lemma cl_one_dim i0 i1 solve pinv theta l mt b0 a0 g0 tol it :
  CLRegression i0 i1 solve pinv None None (Some theta) (Some (X1 l)) mt b0 a0 g0 tol it =
  CLRegression i0 i1 solve pinv None None (Some theta) (Some (X2 1 (map (fun x => [x]) l))) mt b0 a0 g0 tol it.
Proof.
  unfold CLRegression, cl_source. cbn [bind fst snd]. unfold cl_prepare. destruct theta as [|t0 th]; [reflexivity|]. destruct (finite (t0 :: th)) as [t|]; [|reflexivity].
  assert (F : forallb (fun r : list fl => Nat.eqb (List.length r) 1) (map (fun x => [x]) l) = true) by (induction l; cbn; auto). rewrite F. cbn [negb]. rewrite map_length.
  assert (G : finite_rows (map (fun x => [x]) l) = match finite l with Some v => Some (map (fun x => [x]) v) | None => None end).
  { clear. induction l as [|x l IH]; cbn; [reflexivity|]. rewrite IH. destruct x; try reflexivity. destruct (finite l); reflexivity. }
  rewrite G. destruct (negb _); [reflexivity|]. destruct (finite l); reflexivity.
Qed.
Lemma inner_zero x p : inner x (repeat 0 p) = 0.
Proof. revert p. induction x as [|y x IH]; intros [|p]; cbn; try reflexivity. rewrite IH. ring. Qed.
Lemma dot_zero x p : dot x (repeat 0 p) = 0.
Proof. rewrite dot_inner. apply inner_zero. Qed.
(** A constant response. *)
Lemma cl_constant iv solve pinv t n p rows b0 a0 g0 tol it : cc_data (repeat t n) p rows -> b0 = None \/ b0 = Some (repeat 0 p) -> fits_len p g0 -> (1 <= it)%nat ->
  exists c, cl_run iv solve pinv (repeat t n) p rows "mean" b0 a0 g0 tol it = Ok c /\ cl_fit c = NanFit.
Proof.
  intros D Hb Hg Hit. assert (Hb' : fits_len p b0) by (destruct Hb as [->| ->]; cbn; [exact I|apply repeat_length]). rewrite (cl_run_eval _ _ _ _ _ _ "mean" Mean _ _ _ _ _ D eq_refl Hb' Hg).
  destruct it as [|it]; [lia|]. cbn [cl_loop cl_step]. unfold mean_step. assert (Eb : p_beta (start_par p b0 a0 g0) = repeat 0 p) by (destruct Hb as [->| ->]; reflexivity). rewrite Eb.
  assert (V : forall o, In o (combine (repeat t n) rows) -> rdev (repeat 0 p) o = t).
  { intros [a x] Ho. unfold rdev. apply in_combine_l in Ho. apply repeat_spec in Ho. subst a. cbn [fst snd].
    rewrite dot_zero, atan_0. ring. }
  destruct (data_obs _ _ _ D) as [_ Hne]. set (l := combine (repeat t n) rows) in *.
  assert (M : forall F : R -> R, mean (map (fun o => F (rdev (repeat 0 p) o)) l) = F t).
  { intros F. unfold mean. rewrite (map_ext_in _ (fun _ => F t) l) by (intros o Ho; now rewrite V). rewrite Rsum_map_const, map_length. field. destruct l; [congruence|]. cbn [List.length]. rewrite S_INR. pose proof (pos_INR (List.length l)). lra. }
  rewrite (M sin), (M cos). assert (H1 : hypot (sin t) (cos t) = 1). { unfold hypot. pose proof (sin2_cos2 t) as T. unfold Rsqr in T. replace (sin t * sin t + cos t * cos t) with 1 by lra. apply sqrt_1. }
  rewrite H1. destruct (Reqb_spec 1 1); [|lra]. cbn [bind]. eexists. split; reflexivity.
Qed.

(** ** AIC and BIC *)
Definition counted (m : cl_type) (p : nat) : nat := match m with Mean => p | Kappa => p + 1 | Mixed => 2 * p + 1 end.
Lemma fit_sized iv solve pinv theta p rows mt b0 a0 g0 tol it c f : is_iv iv -> right_solve solve -> cc_data theta p rows ->
  cl_run iv solve pinv theta p rows mt b0 a0 g0 tol it = Ok c -> cl_fit c = Fitted f -> sized p (f_par f).
Proof.
  intros Hi Hs D E Ef. destruct (cl_run_inv _ _ _ _ _ _ _ _ _ _ _ _ _ D E) as (_ & Hb & Hg & _ & _ & El). rewrite Ef in El. destruct (data_obs _ _ _ D) as [Ho Hne].
  destruct (loop_inv (sized p) _ _ _ (fun q new mu k ll Hq Es => step_sized _ _ _ _ _ _ _ _ _ _ _ Hi Hs Ho Hne Hq Es) _ _ _ _ (start_sized p b0 a0 g0 Hb Hg) El) as [(_ & _ & X)|(q' & new & Hq & Es & [->| ->])]; [discriminate|exact Hq|].
  exact (step_sized _ _ _ _ _ _ _ _ _ _ _ Hi Hs Ho Hne Hq Es).
Qed.
Lemma cl_criteria iv solve pinv theta p rows mt b0 a0 g0 tol it c f : is_iv iv -> right_solve solve -> cc_data theta p rows ->
  cl_run iv solve pinv theta p rows mt b0 a0 g0 tol it = Ok c -> cl_fit c = Fitted f ->
  let k := INR (counted (cl_mt c) p) in
  cl_aic c = Fin (2 * k - 2 * f_ll f) /\ cl_bic c = Fin (k * ln (INR (List.length theta)) - 2 * f_ll f).
Proof.
  intros Hi Hs D E Ef k. destruct (fit_sized _ _ _ _ _ _ _ _ _ _ _ _ _ _ Hi Hs D E Ef) as [S1 S2]. destruct (cl_run_inv _ _ _ _ _ _ _ _ _ _ _ _ _ D E) as (_ & _ & _ & _ & Eo & _).
  assert (Ek : cl_nparams (cl_mt c) f = counted (cl_mt c) p) by (destruct (cl_mt c); cbn; rewrite ?S1, ?S2; lia).
  assert (L : List.length (cl_obs c) = List.length theta). { rewrite Eo. destruct D as (L & _). etransitivity; [apply combine_length|]. unfold vec in *. lia. }
  unfold cl_aic, cl_bic. rewrite Ef, Ek, L. subst k. split; f_equal; ring.
Qed.

(** ** Predictions *)
Lemma cl_predict_rows iv solve pinv theta p rows mt b0 a0 g0 tol it c f new : is_iv iv -> right_solve solve -> cc_data theta p rows ->
  cl_run iv solve pinv theta p rows mt b0 a0 g0 tol it = Ok c -> cl_fit c = Fitted f -> mt <> "kappa"%string \/ b0 = None ->
  (forall r, In r new -> List.length r = p) -> cl_predict c (X2 p (map (map Fin) new)) = Ok (map (cl_loc (cl_mt c) f) new).
Proof.
  intros Hi Hs D E Ef Hk Hn. destruct (fit_sized _ _ _ _ _ _ _ _ _ _ _ _ _ _ Hi Hs D E Ef) as [S1 S2]. unfold cl_predict. rewrite Ef, S1.
  rewrite forallb_len by auto. cbn [negb]. rewrite Nat.eqb_refl. cbn [negb]. rewrite finite_rows_map. f_equal. apply map_ext_in. intros r Hr.
  destruct (cl_run_inv _ _ _ _ _ _ _ _ _ _ _ _ _ D E) as (T & Hb & Hg & _ & _ & El). unfold cl_loc, tan_link. rewrite dot_inner.
  destruct (cl_mt c); [reflexivity| |reflexivity].
  destruct Hk as [Hk|Hk]. { exfalso. revert T. unfold type_of. destruct (String.eqb mt "mean"); [discriminate|]. destruct (String.eqb_spec mt "kappa"); [contradiction|]. destruct (String.eqb mt "mixed"); discriminate. }
  subst b0. rewrite Ef in El.
  assert (Z : p_beta (f_par f) = repeat 0 p).
  { assert (K : forall q new0 mu k ll, p_beta q = repeat 0 p -> cl_step Kappa (iv 0%nat) (iv 1%nat) solve pinv p (combine theta rows) q = Step new0 mu k ll -> p_beta new0 = repeat 0 p).
    { cbn [cl_step]. intros q new0 mu k ll Hq Es. destruct (kappa_step_inv _ _ _ _ _ _ _ _ _ _ _ Es) as (_ & _ & _ & X & _). congruence. }
    destruct (loop_inv (fun q => p_beta q = repeat 0 p) _ _ _ K (start_par p None a0 g0) _ _ _ eq_refl El) as [(_ & _ & X)|(q' & new0 & Hq & Es & [->| ->])]; [discriminate|exact Hq|exact (K _ _ _ _ _ Hq Es)]. }
  rewrite Z, inner_zero, atan_0. ring.
Qed.
Lemma cl_predict_bad c f X : cl_fit c = Fitted f -> 
  let ok := match X with X0 _ => False | X1 l => List.length (p_beta (f_par f)) = 1%nat /\ numbers l
            | X2 p rows => p = List.length (p_beta (f_par f)) /\ forall r, In r rows -> List.length r = p /\ numbers r end in
  (ok -> exists v, cl_predict c X = Ok v) /\ (~ ok -> cl_predict c X = Err (match X with X0 _ => IndexError | _ => ValueError end)).
Proof.
  intros Ef ok. unfold cl_predict. rewrite Ef. destruct X as [x|l|p rows]; cbn in ok.
  - split; [intros []|reflexivity].
  - destruct (Nat.eqb_spec 1 (List.length (p_beta (f_par f)))) as [L|L]; cbn [negb]; [|split; [intros [H _]; congruence|reflexivity]].
    pose proof (finite_spec l) as F. destruct (finite l) as [v|]; [split; [intros; eexists; reflexivity|]|split; [intros [_ H]; contradiction|reflexivity]].
    intros N. elim N. split; [auto|]. subst. apply numbers_map.
  - destruct (forallb (fun r : list fl => Nat.eqb (List.length r) p) rows) eqn:El; cbn [negb].
    2:{ split; [|reflexivity]. intros (_ & H). assert (K : forallb (fun r : list fl => Nat.eqb (List.length r) p) rows = true) by (apply forallb_forall; intros r Hr; apply Nat.eqb_eq, (H r Hr)). congruence. }
    destruct (Nat.eqb_spec p (List.length (p_beta (f_par f)))); cbn [negb]; [|split; [intros [H _]; congruence|reflexivity]].
    pose proof (finite_rows_spec rows) as Fr. destruct (finite_rows rows) as [m|]; [split; [intros; eexists; reflexivity|]|split; [intros [_ H]; elim Fr; intros r Hr; apply (H r Hr)|reflexivity]].
    intros N. elim N. split; [auto|]. intros r Hr. split; [apply Nat.eqb_eq; exact (proj1 (forallb_forall _ _) El r Hr)|]. subst. apply in_map_iff in Hr. destruct Hr as (v & <- & _). apply numbers_map.
Qed.
Lemma cl_predict_one c l : cl_predict c (X1 l) = cl_predict c (X2 1 (map (fun x => [x]) l)).
Proof.
  unfold cl_predict. destruct (cl_fit c); [|reflexivity].
  assert (F : forallb (fun r : list fl => Nat.eqb (List.length r) 1) (map (fun x => [x]) l) = true) by (induction l; cbn; auto). rewrite F. cbn [negb].
  assert (G : finite_rows (map (fun x => [x]) l) = match finite l with Some v => Some (map (fun x => [x]) v) | None => None end).
  { clear. induction l as [|x l IH]; cbn; [reflexivity|]. rewrite IH. destruct x; try reflexivity. destruct (finite l); reflexivity. }
  rewrite G. destruct (negb _); [reflexivity|]. destruct (finite l); reflexivity.
Qed.

(** ** Turning, without reference to the iterations *)
Definition loc0 (mt : string) (b : list R) : list R -> R := if String.eqb mt "kappa" then fun _ => 0 else tan_link 0 b.
Lemma Kzero_balanced mt m q theta (rows : list (list R)) : type_of mt = Some m -> m <> Mean ->
  Kzero q (dev_of m q) (combine theta rows) -> balanced (loc0 mt (p_beta q)) (log_link (p_alpha q) (p_gamma q)) theta rows.
Proof.
  intros T Hm [K1 K2].
  assert (D : forall o, dev_of m q o = fst o - loc0 mt (p_beta q) (snd o)).
  { intros o. unfold loc0. revert T. unfold type_of. destruct (String.eqb_spec mt "mean"); [intros T; injection T; congruence|]. destruct (String.eqb mt "kappa").
    - intros T. injection T as <-. cbn. ring.
    - destruct (String.eqb mt "mixed"); [|discriminate]. intros T. injection T as <-. cbn. unfold rdev, tan_link. rewrite dot_inner. ring. }
  assert (K : forall o, kap q o = log_link (p_alpha q) (p_gamma q) (snd o)) by (intros o; unfold kap, log_link; now rewrite dot_inner).
  split; [etransitivity; [|exact K1]|etransitivity; [|exact K2]]; apply Rsum_map_ext; intros o _; now rewrite K, D.
Qed.
Lemma cl_turned_other iv solve pinv d theta theta' p rows mt b0 a0 g0 tol it c f : cc_data theta p rows -> cl_turned d theta theta' -> mt <> "mean"%string ->
  ~ balanced (loc0 mt (start p b0)) (log_link (match a0 with Some a => a | None => 0 end) (start p g0)) theta rows ->
  (forall n c0 f0, (0 < n < it)%nat -> cl_run iv solve pinv theta p rows mt b0 a0 g0 0 n = Ok c0 -> cl_fit c0 = Fitted f0 ->
     ~ balanced (loc0 mt (p_beta (f_par f0))) (log_link (p_alpha (f_par f0)) (p_gamma (f_par f0))) theta rows) ->
  cl_run iv solve pinv theta p rows mt b0 a0 g0 tol it = Ok c -> cl_fit c = Fitted f ->
  exists c' f', cl_run iv solve pinv theta' p rows mt b0 a0 g0 tol it = Ok c' /\ cl_fit c' = Fitted f' /\
    f_par f' = f_par f /\ f_kappa f' = f_kappa f /\ f_ll f' = f_ll f /\ same_dir (f_mu f') (f_mu f + d).
Proof.
  intros D H Nm Z0 Z E Ef. destruct (cl_run_inv _ _ _ _ _ _ _ _ _ _ _ _ _ D E) as (T & _). pose proof (type_not_mean _ _ T Nm) as Hm.
  apply (cl_conc_turned iv solve pinv d theta theta' p rows mt (cl_mt c) b0 a0 g0 tol it c f D H T Nm); auto.
  - intros K. apply Z0. exact (Kzero_balanced mt (cl_mt c) _ _ _ T Hm K).
  - intros n c0 f0 Hn E0 Ef0 K. apply (Z n c0 f0 Hn E0 Ef0). exact (Kzero_balanced mt (cl_mt c) _ _ _ T Hm K).
Qed.
