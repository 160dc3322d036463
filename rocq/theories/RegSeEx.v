(** Concrete data for the standard errors of circular-linear regression. *)
From Coq Require Import String.
From Verif Require Import Prelude NpModel NpProofs UtilsModel CircleSpec IntSpec IntProofs DistProofs Dist2Proofs Dist5Proofs VonSpec VonProofs RegModel RegSpec RegClSpec RegSeSpec RegProofs Reg4Proofs Reg9Proofs Reg10Proofs Reg11Proofs Reg12Proofs Reg13Proofs Reg14Proofs Reg17Proofs Reg18Proofs Reg19Proofs RegClEx.

Lemma one_gram inv pinv w g l : right_inv inv -> (forall o, In o l -> List.length (g o) = 1%nat /\ 0 <= w o) -> 0 < Rsum (map (fun o => w o * (nth 0 (g o) 0 * nth 0 (g o) 0)) l) ->
  exists v, diag 0 1 (safe_inverse inv pinv (gridge 1 w g l)) = [Fin v] /\ 0 < v /\ v ^ 2 * Rsum (map (fun o => w o * (nth 0 (g o) 0 * nth 0 (g o) 0)) l) < 1.
Proof.
  intros Hv Hg P. destruct (gram_inverse inv pinv 1 w g l Hv Hg) as [_ Q]. specialize (Q 0%nat 0%nat ltac:(lia) ltac:(lia)). cbn [seq map Nat.eqb] in Q. rewrite Rsum_cons, Rsum_nil in Q.
  change (entry (gram 1 w g l) 0 0) with (ent (gram 1 w g l) 0 0) in Q. unfold gram in Q. rewrite ent_mat_of in Q by lia. cbn [nth] in Q.
  rewrite (diag_root inv pinv 1 w g l 0 1 Hv Hg ltac:(lia)). unfold root_diag. cbn [seq map]. eexists. split; [reflexivity|].
  set (S0 := Rsum (map (fun o => w o * (nth 0 (g o) 0 * nth 0 (g o) 0)) l)) in *. set (B := entry _ 0 0) in *. clearbody S0 B.
  assert (HB : 0 < B). { destruct (Rle_dec B 0); [|lra]. exfalso. assert (0 < S0 + / 10 ^ 8) by (assert (0 < / 10 ^ 8) by (apply Rinv_0_lt_compat; lra); lra). nra. }
  split; [now apply sqrt_lt_R0|]. rewrite pow2_sqrt by lra. assert (0 < / 10 ^ 8) by (apply Rinv_0_lt_compat; lra). nra.
Qed.
(** With predictors 0 and 1, half the variance of beta is missing. *)
Lemma se_beta_short iv solve pinv inv tol : is_iv iv -> right_solve solve -> right_inv inv ->
  exists theta p rows c f k A B v, cc_data theta p rows /\ cl_run iv solve pinv theta p rows "mean" None None None tol 1 = Ok c /\ cl_fit c = Fitted f /\ f_kappa f = One k /\
    information iv (S p) (fun e s => tan_link (f_mu f + s * nth 0 e 0) (along (p_beta (f_par f)) s (tl e))) (fun _ _ _ => k) rows A /\ inverse_of (S p) 0 A B /\
    se_beta (standard_errors (iv 0%nat) (iv 1%nat) inv pinv Mean p (cl_obs c) f) = Some [Fin v] /\ 0 < v /\ 2 * v ^ 2 < entry B 1 1.
Proof.
  intros Hi Hs Hv. destruct (run2_pos iv solve pinv 1 tol Hi Hs ltac:(lra)) as (c & f & b & k & E & Ef & Em & Emu & Ek & Hk & Eb & Hb).
  set (a := A1 (iv 0%nat) (iv 1%nat) k). assert (Ha : 0 < a) by (apply A1_pos; [exact Hi|lra]). set (h := 2 / (1 + b ^ 2)). assert (Hh : 0 < h) by (unfold h; apply Rdiv_lt_0_compat; nra).
  set (w := k * a). assert (Hw : 0 < w) by (unfold w; nra).
  assert (G0 : growx [b] [0] = [0]) by (unfold growx; cbn [map inner]; f_equal; unfold Rdiv; ring).
  assert (G1 : growx [b] [1] = [h]) by (unfold growx, h; cbn [map inner]; f_equal; replace (1 * b + 0) with b by ring; unfold Rdiv; ring).
  destruct (cl_run_inv _ _ _ _ _ _ _ _ _ _ _ _ _ (data2 1) E) as (_ & _ & _ & _ & Eo & _).
  destruct (one_gram inv pinv (fun _ => w * 1) (grow [b]) (combine th2 (x2 1)) Hv) as (v & Ev & Pv & Bv).
  { intros o Ho. rewrite grow_length. split; [apply (proj1 (data_obs _ _ _ (data2 1)) o Ho)|lra]. }
  { unfold th2, x2. cbn [combine map]. rewrite !grow_x. cbn [snd]. rewrite G0, G1, !Rsum_cons, !Rsum_nil. cbn [nth]. assert (0 < w * (h * h)) by (apply Rmult_lt_0_compat; nra). lra. }
  exists th2, 1%nat, (x2 1), c, f, k, [[2 * w; w * h]; [w * h; w * h ^ 2]], [[/ w; - / (w * h)]; [- / (w * h); 2 / (w * h ^ 2)]], v.
  split; [apply data2|]. split; [exact E|]. split; [exact Ef|]. split; [exact Ek|]. split; [|split; [|split; [|split; [exact Pv|]]]].
  - split.
    + split; [split; [reflexivity|intros r [<-|[<-|[]]]; reflexivity]|]. intros [|[|i]] [|[|j]] Hlt Hlt'; try lia; reflexivity.
    + intros e He. destruct e as [|dm [|db [|? ?]]]; try discriminate. cbn [nth tl]. rewrite Eb.
      eapply fisher_eq; [|apply (fisher_tan iv (f_mu f) dm [b] [db] (fun _ _ => k) (fun _ => 0) (x2 1) Hi eq_refl)].
      * unfold x2. cbn [map]. rewrite G0, G1, !Rsum_cons, !Rsum_nil. fold a. unfold quad_form. cbn [seq map]. rewrite !Rsum_cons, !Rsum_nil. unfold entry. cbn [nth inner]. unfold w. ring.
      * intros x _. split; [apply dlim_const|lra].
  - split; [split; [reflexivity|intros r [<-|[<-|[]]]; reflexivity]|]. intros [|[|i]] [|[|j]] Hlt Hlt'; try lia; cbn [seq map Nat.eqb]; rewrite !Rsum_cons, !Rsum_nil; unfold entry; cbn [nth]; field; split; lra.
  - rewrite Eo. unfold standard_errors. rewrite Ek, ridge_scaled. cbn [se_beta]. fold a w. rewrite Eb. f_equal. exact Ev.
  - cbn [entry nth]. unfold entry. cbn [nth]. unfold th2, x2 in Bv. cbn [combine map] in Bv. rewrite !grow_x in Bv. cbn [snd] in Bv. rewrite G0, G1, !Rsum_cons, !Rsum_nil in Bv. cbn [nth] in Bv.
    apply (Rmult_lt_reg_r (w * h ^ 2)); [apply Rmult_lt_0_compat; [lra|apply pow_lt; lra]|]. replace (2 / (w * h ^ 2) * (w * h ^ 2)) with 2 by (field; split; lra). nra.
Qed.

(** A settled run of the concentration model. *)
Lemma kappa_step1 iv solve pinv : is_iv iv -> right_solve solve ->
  exists ll, cl_step Kappa (iv 0%nat) (iv 1%nat) solve pinv 1 (combine [dk iv; - dk iv] [[0]; [1]]) (zpar 0) = Step (zpar 0) 0 (Each [1; 1]) ll.
Proof.
  intros Hi Hs. assert (D : cc_data [dk iv; - dk iv] 1 [[0]; [1]]) by (split; [reflexivity|]; split; [discriminate|]; intros r [<-|[<-|[]]]; reflexivity).
  destruct (kappa_stays iv solve pinv 1 Hi Hs) as (c & f & E & Ef & M & Ha & Hg).
  destruct (conc_run iv solve pinv [dk iv; - dk iv] [[0]; [1]] "kappa" Kappa None (Some 0) (Some [0]) 1 0 Hi D eq_refl ltac:(discriminate) I eq_refl eq_refl) as (c' & f' & E' & Ef' & _ & Es).
  rewrite E in E'. injection E' as <-. rewrite Ef in Ef'. injection Ef' as <-. rewrite Es. exists (f_ll f). cbn [cl_step] in Es. destruct (kappa_step_inv _ _ _ _ _ _ _ _ _ _ _ Es) as (_ & Ek & _ & Eb & _).
  rewrite M, Ek. cbn [combine map]. rewrite !kap_zero. f_equal. destruct (f_par f) as [pb pa pg]. cbn in *. subst. reflexivity.
Qed.
Lemma kappa_settled iv solve pinv tol : is_iv iv -> right_solve solve -> 0 < tol ->
  exists c c' f, cl_run iv solve pinv [dk iv; - dk iv] 1 [[0]; [1]] "kappa" None (Some 0) (Some [0]) tol 2 = Ok c /\ cl_run iv solve pinv [dk iv; - dk iv] 1 [[0]; [1]] "kappa" None (Some 0) (Some [0]) tol 3 = Ok c' /\
    cl_fit c = Fitted f /\ cl_fit c' = Fitted f /\ cl_obs c = combine [dk iv; - dk iv] [[0]; [1]] /\ cl_mt c = Kappa /\ f_par f = zpar 0 /\ f_mu f = 0 /\ f_kappa f = Each [1; 1].
Proof.
  intros Hi Hs Ht. assert (D : cc_data [dk iv; - dk iv] 1 [[0]; [1]]) by (split; [reflexivity|]; split; [discriminate|]; intros r [<-|[<-|[]]]; reflexivity).
  rewrite !(cl_run_eval _ _ _ _ _ _ "kappa" Kappa None (Some 0) (Some [0]) _ _ D eq_refl I eq_refl). change (start_par 1 None (Some 0) (Some [0])) with (zpar 0).
  destruct (kappa_step1 iv solve pinv Hi Hs) as [ll Es]. cbn [cl_loop]. rewrite !Es. replace (ll - ll) with 0 by ring. rewrite Rabs_R0. destruct (Rltb_spec 0 tol); [|lra]. cbn [bind].
  eexists _, _, _. repeat (split; [reflexivity|]). reflexivity.
Qed.
(** The standard errors of the concentrations are not those the likelihood gives. *)
Lemma se_kappa_short iv solve pinv inv tol : is_iv iv -> right_solve solve -> right_inv inv -> 0 < tol ->
  exists theta p rows a0 g0 c c' f A B, cc_data theta p rows /\ cl_run iv solve pinv theta p rows "kappa" None a0 g0 tol 2 = Ok c /\ cl_run iv solve pinv theta p rows "kappa" None a0 g0 tol 3 = Ok c' /\
    cl_fit c = Fitted f /\ cl_fit c' = Fitted f /\
    information iv (S p) (fun _ _ _ => f_mu f) (fun e s => log_link (p_alpha (f_par f) + s * nth 0 e 0) (along (p_gamma (f_par f)) s (tl e))) rows A /\ inverse_of (S p) 0 A B /\
    forall i, (i < List.length rows)%nat -> let x := nth i rows [] in exists v, nth i (se_kappa (standard_errors (iv 0%nat) (iv 1%nat) inv pinv Kappa p (cl_obs c) f)) NaN = Fin v /\ 0 < v /\
      2 * v ^ 2 = log_link (p_alpha (f_par f)) (p_gamma (f_par f)) x ^ 2 * quad_form (S p) B (1 :: x).
Proof.
  intros Hi Hs Hv Ht. assert (D : cc_data [dk iv; - dk iv] 1 [[0]; [1]]) by (split; [reflexivity|]; split; [discriminate|]; intros r [<-|[<-|[]]]; reflexivity).
  destruct (kappa_settled iv solve pinv tol Hi Hs Ht) as (c & c' & f & E & E' & Ef & Ef' & Eo & Em & Ep & Emu & Ek). pose proof (A1p_1 iv Hi) as Pa. set (a := A1p (iv 0%nat) (iv 1%nat) 1) in *.
  exists [dk iv; - dk iv], 1%nat, [[0]; [1]], (Some 0), (Some [0]), c, c', f, [[2 * a; a]; [a; a]], [[/ a; - / a]; [- / a; 2 / a]].
  split; [exact D|]. split; [exact E|]. split; [exact E'|]. split; [exact Ef|]. split; [exact Ef'|]. rewrite Ep. cbn [zpar p_alpha p_gamma].
  assert (K1 : forall x, log_link 0 [0] [x] = 1) by (intros x; unfold log_link; cbn [inner]; replace (0 + (x * 0 + 0)) with 0 by ring; apply exp_0).
  split; [|split].
  - split.
    + split; [split; [reflexivity|intros r [<-|[<-|[]]]; reflexivity]|]. intros [|[|i]] [|[|j]] Hlt Hlt'; try lia; reflexivity.
    + intros e He. destruct e as [|da [|dg [|? ?]]]; try discriminate. cbn [nth tl].
      eapply fisher_ext; [|eapply fisher_eq; [|apply (fisher_loc iv (f_mu f) 0 (fun s => log_link (0 + s * da) (along [0] s [dg])) (fun x => log_link 0 [0] x * inner (1 :: x) [da; dg]) [[0]; [1]] Hi)]].
      * intros s x _. cbv beta. split; [ring|reflexivity].
      * cbn [map]. rewrite !Rmult_0_l, !Rplus_0_l, !along_0, !K1, !Rsum_cons, !Rsum_nil. fold a. unfold quad_form. cbn [seq map]. rewrite !Rsum_cons, !Rsum_nil. unfold entry. cbn [nth inner]. ring.
      * intros x _. split; [now apply log_link_d|apply exp_pos].
  - split; [split; [reflexivity|intros r [<-|[<-|[]]]; reflexivity]|]. intros [|[|i]] [|[|j]] Hlt Hlt'; try lia; cbn [seq map Nat.eqb]; rewrite !Rsum_cons, !Rsum_nil; unfold entry; cbn [nth]; field; lra.
  - rewrite Eo. unfold standard_errors. rewrite Ek. cbn [se_kappa combine List.length map INR]. fold a.
    assert (M : Rmax ((1 + 1) * a) small = 2 * a) by (rewrite Rmax_left; [ring|unfold small; lra]). rewrite M.
    assert (Q : 0 < sqrt (1 / (2 * a)) /\ 2 * sqrt (1 / (2 * a)) ^ 2 = / a).
    { assert (0 < 1 / (2 * a)) by (apply Rdiv_lt_0_compat; lra). split; [now apply sqrt_lt_R0|]. rewrite pow2_sqrt by lra. field. lra. }
    destruct Q as [Q1 Q2]. intros [|[|i]] Hlt; [| |cbn in Hlt; lia]; cbn [nth]; cbv zeta; eexists; (split; [reflexivity|]); (split; [exact Q1|]); rewrite Q2, K1; unfold quad_form; cbn [seq map]; rewrite !Rsum_cons, !Rsum_nil; unfold entry; cbn [nth]; field; lra.
Qed.

(** ** The standard errors of a run *)
Lemma mean_ses_run : forall iv solve pinv inv theta p rows b0 a0 g0 tol it c f k, is_iv iv -> right_solve solve -> right_inv inv -> cc_data theta p rows ->
  cl_run iv solve pinv theta p rows "mean" b0 a0 g0 tol it = Ok c -> cl_fit c = Fitted f -> f_kappa f = One k -> k <> 0 ->
  let s := standard_errors (iv 0%nat) (iv 1%nat) inv pinv (cl_mt c) p (cl_obs c) f in
  let b := p_beta (f_par f) in let mu := f_mu f in
  (exists A B, information iv p (fun e s => tan_link mu (along b s e)) (fun _ _ _ => k) rows A /\ inverse_of p (/ 10 ^ 8) A B /\ se_beta s = Some (root_diag B (seq 0 p))) /\
  (exists v, fisher iv (fun s => tan_link (mu + s) b) (fun _ _ => k) rows v /\ se_mu s = Fin (1 / sqrt (Rmax ((1 - INR p / INR (List.length theta)) * v) (/ 10 ^ 12)))) /\
  (exists v, se_kappa s = [Fin (1 / sqrt (Rmax v (/ 10 ^ 12)))] /\
     forall dm db, List.length db = p -> exists u, forall dk, fisher iv (fun s => tan_link (mu + s * dm) (along b s db)) (fun s _ => k + s * dk) rows (u + v * dk ^ 2)).
Proof.
  intros iv solve pinv inv theta p rows b0 a0 g0 tol it c f k Hi Hs Hv D E Ef Ek Hk. destruct (fit_sized _ _ _ _ _ _ _ _ _ _ _ _ _ _ Hi Hs D E Ef) as [Lb _].
  destruct (cl_run_inv _ _ _ _ _ _ _ _ _ _ _ _ _ D E) as (T & Hb & Hg & _ & Eo & El). cbn in T. injection T as T. rewrite <- T, Eo.
  apply mean_ses; auto. destruct (data_obs _ _ _ D) as [Hl Hn]. rewrite Ef, <- T in El.
  destruct (loop_inv (fun _ => True) _ _ _ ltac:(auto) _ _ _ _ I El) as [(_ & _ & K)|(q' & new & _ & Es & _)]; [discriminate|]. cbn [cl_step] in Es.
  destruct (mean_step_inv _ _ _ _ _ _ _ _ _ _ _ Es) as (Hr & _ & k' & Ek' & Ekr & _). rewrite Ek in Ek'. injection Ek' as ->. pose proof (Rres_bounds (p_beta q') _ Hn) as B. assert (0 <= k') by (rewrite Ekr; apply A1inv_nonneg; lra). lra.
Qed.
Lemma conc_ses_run : forall iv solve pinv inv theta p rows mt b0 a0 g0 tol it c c' f, is_iv iv -> right_solve solve -> right_inv inv -> cc_data theta p rows -> mt <> "mean"%string ->
  cl_run iv solve pinv theta p rows mt b0 a0 g0 tol it = Ok c -> cl_run iv solve pinv theta p rows mt b0 a0 g0 tol (S it) = Ok c' ->
  cl_fit c = Fitted f -> cl_fit c' = Fitted f ->
  let s := standard_errors (iv 0%nat) (iv 1%nat) inv pinv (cl_mt c) p (cl_obs c) f in
  let b := p_beta (f_par f) in let a := p_alpha (f_par f) in let g := p_gamma (f_par f) in let mu := f_mu f in
  let loc m b := if String.eqb mt "kappa" then fun _ => m else tan_link m b in
  (exists A B, symmetric (S p) A /\
     (forall dm db, List.length db = p -> exists u, forall da dg, List.length dg = p ->
        fisher iv (fun s => loc (mu + s * dm) (along b s db)) (fun s => log_link (a + s * da) (along g s dg)) rows (u + quad_form (S p) A (da :: dg))) /\
     inverse_of (S p) (/ 10 ^ 8) A B /\ se_ag s = Some (Fin (sqrt (entry B 0 0)), root_diag B (seq 1 p))) /\
  (exists v, fisher iv (fun s => loc (mu + s) b) (fun _ => log_link a g) rows v /\ se_mu s = Fin (1 / sqrt (Rmax (v - 1 / 2) (/ 10 ^ 12)))) /\
  (mt = "mixed"%string -> exists A B, information iv p (fun e s => tan_link mu (along b s e)) (fun _ _ => log_link a g) rows A /\ inverse_of p (/ 10 ^ 8) A B /\ se_beta s = Some (root_diag B (seq 0 p))) /\
  (List.length (se_kappa s) = List.length rows /\ forall i, (i < List.length rows)%nat -> exists v,
     fisher iv (fun _ => loc mu b) (fun s x => log_link a g x + s) [nth i rows []] v /\ nth i (se_kappa s) NaN = Fin (1 / sqrt (Rmax (INR (List.length rows) * v) (/ 10 ^ 12)))).
Proof.
  intros iv solve pinv inv theta p rows mt b0 a0 g0 tol it c c' f Hi Hs Hv D Hmt E E' Ef Ef'. destruct (fit_sized _ _ _ _ _ _ _ _ _ _ _ _ _ _ Hi Hs D E Ef) as [Lb Lg].
  destruct (cl_run_inv _ _ _ _ _ _ _ _ _ _ _ _ _ D E) as (T & _ & _ & _ & Eo & _). rewrite Eo. destruct (cl_settled _ _ _ _ _ _ _ _ _ _ _ _ _ _ _ Hi D E E' Ef Ef') as (_ & _ & _ & K).
  unfold type_of in T. destruct (String.eqb_spec mt "mean"); [contradiction|]. destruct (String.eqb_spec mt "kappa") as [->|N].
  - injection T as T. rewrite <- T in *. cbn [String.eqb Ascii.eqb Bool.eqb]. destruct (conc_ses iv inv pinv Kappa theta p rows f Hi Hv D Lb Lg ltac:(discriminate) K) as (H1 & H2 & _ & H4). cbv zeta. cbn [cloc] in *. split; [exact H1|]. split; [exact H2|]. split; [discriminate|exact H4].
  - destruct (String.eqb_spec mt "mixed") as [->|]; [|discriminate]. injection T as T. rewrite <- T in *. destruct (conc_ses iv inv pinv Mixed theta p rows f Hi Hv D Lb Lg ltac:(discriminate) K) as (H1 & H2 & H3 & H4). cbv zeta. cbn [cloc] in *. split; [exact H1|]. split; [exact H2|]. split; [intros _; exact (H3 eq_refl)|exact H4].
Qed.
