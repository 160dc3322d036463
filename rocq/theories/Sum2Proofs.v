From Coq Require Import String List.
From Verif Require Import Prelude NpModel NpProofs UtilsModel UtilsProofs CircleSpec IntSpec VonSpec VonProofs ClusModel RegModel RegSpec RegClSpec RegSeSpec RegProofs Reg3Proofs Reg4Proofs
  Reg9Proofs Reg10Proofs Reg11Proofs Reg12Proofs Reg13Proofs Reg14Proofs Reg15Proofs Reg16Proofs Reg17Proofs Reg18Proofs Reg19Proofs Reg20Proofs RegEx RegClEx RegSeEx RegClProps SumModel SumSpec SumProofs.
Import ListNotations.
Open Scope R_scope.
Open Scope list_scope.

(** * A negative coefficient with a positive t value *)
Lemma falling iv solve pinv inv Phi tol : is_iv iv -> right_solve solve -> right_inv inv -> symmetric_cdf Phi ->
  exists c f B r t, cl_run iv solve pinv th2 1 (x2 (-1)) "mean" None None None tol 1 = Ok c /\ cl_fit c = Fitted f /\ f_kappa f <> One 0 /\
    p_beta (f_par f) = [B] /\ beta_table Phi (cl_mt c) f (standard_errors (iv 0%nat) (iv 1%nat) inv pinv (cl_mt c) 1 (cl_obs c) f) = Some [r] /\
    r_est r = B /\ B < 0 /\ r_t r = Fin t /\ 0 < t.
Proof.
  intros Hi Hs Hv HP. destruct (run2 iv solve pinv (-1) tol Hi Hs) as (c & f & B & k & H1 & H2 & H3 & H4 & H5 & H6 & H7 & H8). pose proof hk as Hk. rewrite <- H6 in Hk.
  assert (HB : B < 0).
  { pose proof (weight_nonneg iv k Hi ltac:(lra)) as W. pose proof s4. set (w := k * A1 (iv 0%nat) (iv 1%nat) k) in *.
    assert (0 < k * sin (PI / 4)) by nra. assert (0 < 4 * (-1) ^ 2 * w + eps8) by (unfold eps8; lra).
    destruct (Rlt_dec B 0); [auto|]. exfalso. nra. }
  assert (NK : f_kappa f <> One 0) by (rewrite H5; intros Q; injection Q; lra).
  pose proof (cl_tables Phi iv solve pinv inv th2 1 (x2 (-1)) "mean" None None None tol 1 c f HP Hi Hs Hv (data2 (-1)) H1 H2 NK) as [T _].
  destruct (beta_table Phi (cl_mt c) f _) as [rows|] eqn:ET; [|discriminate]. destruct T as (_ & l & El & (L1 & L2 & T) & Lr). rewrite H7 in *.
  destruct (T 0%nat ltac:(cbn; lia)) as (s & r & _ & Ps & Er & (R1 & _ & R3 & _)). cbn [nth] in *.
  destruct rows as [|r0 [|? ?]]; try discriminate. cbn in Er. injection Er as ->.
  exists c, f, B, r, (Rabs B / s). split; [exact H1|]. split; [exact H2|]. split; [exact NK|]. split; [exact H7|]. split; [exact ET|]. split; [exact R1|]. split; [exact HB|]. split; [exact R3|].
  apply Rmult_lt_0_compat; [apply Rabs_pos_lt; lra|now apply Rinv_0_lt_compat].
Qed.
(** Such a law: the logistic one. *)
Lemma ex_symmetric : exists Phi, symmetric_cdf Phi.
Proof.
  exists (fun x => / (1 + exp (- x))). assert (P : forall x, 0 < exp x) by exact exp_pos. split; [|split].
  - intros x. specialize (P (- x)). split; [apply Rinv_0_lt_compat; lra|]. rewrite <- Rinv_1. apply Rinv_lt_contravar; lra.
  - intros x y H. pose proof (P (- x)). pose proof (P (- y)). apply Rinv_lt_contravar; [nra|]. apply Rplus_lt_compat_l, exp_increasing. lra.
  - intros x. rewrite Ropp_involutive, exp_Ropp. pose proof (P x). field. split; lra.
Qed.

(** * The table of circular-circular regression *)
Lemma label_cos jk : stands_for (cc_label "cos" jk) (fun x => cos (INR (snd jk) * nth (fst jk) x 0)).
Proof.
  destruct jk as [j h]. unfold cc_label, xname. cbn [fst snd append].
  apply (sf_cos (show_nat (S (S j)) (S j)) (show_nat (S h) h) j h); apply decimal_show; lia.
Qed.
Lemma label_sin jk : stands_for (cc_label "sin" jk) (fun x => sin (INR (snd jk) * nth (fst jk) x 0)).
Proof.
  destruct jk as [j h]. unfold cc_label, xname. cbn [fst snd append].
  apply (sf_sin (show_nat (S (S j)) (S j)) (show_nat (S h) h) j h); apply decimal_show; lia.
Qed.
Lemma combine_map {A B C} (f : A -> B) (g : A -> C) l : combine (map f l) (map g l) = map (fun a => (f a, g a)) l.
Proof. induction l; cbn; congruence. Qed.
Lemma cc_table_sum c : exists hs, Forall2 (fun r h => stands_for (fst (fst r)) h) (cc_table c) hs /\
  forall x, row_sum (fun r => snd (fst r)) (cc_table c) hs x = trig_poly (cc_lab c) (cc_cos c) x /\
            row_sum (fun r => snd r) (cc_table c) hs x = trig_poly (cc_lab c) (cc_sin c) x.
Proof.
  set (n := List.length (cc_lab c)). set (lab := fun i => nth i (cc_lab c) (0, 0)%nat).
  set (hc := map (fun i x => cos (INR (snd (lab i)) * nth (fst (lab i)) x 0)) (seq 0 n)).
  set (hsn := map (fun i x => sin (INR (snd (lab i)) * nth (fst (lab i)) x 0)) (seq 0 n)).
  exists ((fun _ => 1) :: hc ++ hsn). split.
  - unfold cc_table. constructor; [exact sf_one|]. apply Forall2_app; unfold cc_rows, hc, hsn; fold n; (induction (seq 0 n) as [|i l IH]; cbn [map]; constructor; [|exact IH]); cbn [fst]; [apply label_cos|apply label_sin].
  - intros x.
    assert (G : forall v b, (forall lb i, v (lb, nth i (cc_cos c) 0, nth i (cc_sin c) 0) = nth i b 0) -> row_sum v (cc_table c) ((fun _ => 1) :: hc ++ hsn) x = trig_poly (cc_lab c) b x).
    { intros v b H. unfold row_sum, cc_table. cbn [combine map fst snd]. rewrite Rsum_cons, H.
      assert (CA : forall (a1 : list (string * R * R)) a2 (b1 : list (list R -> R)) b2, List.length a1 = List.length b1 -> combine (a1 ++ a2) (b1 ++ b2) = combine a1 b1 ++ combine a2 b2).
      { clear. induction a1 as [|y a1 IH]; intros a2 [|z b1] b2 L; try discriminate; [reflexivity|]. cbn. f_equal. apply IH. cbn in L. lia. }
      rewrite CA by (unfold cc_rows, hc; now rewrite !map_length). rewrite map_app, Rsum_app. unfold cc_rows, hc, hsn. fold n. rewrite !combine_map, !map_map. cbn [fst snd].
      unfold trig_poly. fold n. rewrite Rmult_1_r. f_equal. rewrite <- Rsum_map_plus. apply Rsum_map_ext. intros i _. rewrite !H. unfold lab. destruct (nth i (cc_lab c) (0, 0)%nat) as [j k]. reflexivity. }
    split; apply G; auto.
Qed.
Lemma cc_table_fit lstsq inv pinv chi2 theta p rows order level c : List.length theta = List.length rows -> (forall r, In r rows -> List.length r = p) ->
  CCRegression lstsq inv pinv chi2 None None (Some (map Fin theta)) (Some (X2 p (map (map Fin) rows))) order level = Ok c ->
  List.length (cc_table c) = (1 + 2 * (p * Z.to_nat order))%nat /\
  exists hs, Forall2 (fun r h => stands_for (fst (fst r)) h) (cc_table c) hs /\
  forall i, (i < List.length theta)%nat ->
    let f := nth i (cc_fitted c) 0 in let x := nth i rows [] in
    let C := row_sum (fun r => snd (fst r)) (cc_table c) hs x in let S := row_sum (fun r => snd r) (cc_table c) hs x in
    0 <= f < 2 * PI /\ C = sqrt (C * C + S * S) * cos f /\ S = sqrt (C * C + S * S) * sin f.
Proof.
  intros L Hp E. split.
  - destruct (cc_inv _ _ _ _ _ _ _ _ _ _ Hp E) as (_ & _ & _ & _ & _ & EL & _). unfold cc_table, cc_rows. cbn [List.length]. rewrite app_length, !map_length, !seq_length, EL, labels_length. lia.
  - destruct (cc_table_sum c) as (hs & F & Q). exists hs. split; [exact F|]. intros i Hi. cbv zeta. destruct (Q (nth i rows [])) as [-> ->].
    destruct (cc_directions _ _ _ _ _ _ _ _ _ _ L Hp E) as (_ & _ & D). destruct (D i Hi) as (D1 & _ & _ & D2 & D3). auto.
Qed.
(** * The names *)
Definition two_x : list (list R) := [[0; 1]; [1; 0]].
Lemma two_x_fit lstsq inv pinv chi2 : exists c, CCRegression lstsq inv pinv chi2 None None (Some (map Fin th2)) (Some (X2 2 (map (map Fin) two_x))) 1 (1 / 20) = Ok c.
Proof.
  rewrite cc_arrays by (intros r [<-|[<-|[]]]; reflexivity). cbn [Z.ltb Z.compare Pos.compare Pos.compare_cont].
  destruct (Rltb_spec 0 (1 / 20)); [|lra]. destruct (Rltb_spec (1 / 20) 1); [|lra]. cbn [andb negb]. unfold cc_fit. cbn [th2 two_x map List.length Nat.eqb negb]. eexists. reflexivity.
Qed.
Lemma misnamed lstsq inv pinv chi2 : exists theta rows c, CCRegression lstsq inv pinv chi2 None None (Some (map Fin theta)) (Some (X2 2 (map (map Fin) rows))) 1 (1 / 20) = Ok c /\
  cc_names 2 = ["x0"; "x1"]%string /\ nth_error (cc_table c) 1 = Some ("cos(x1,k=1)"%string, nth 1 (cc_cos c) 0, nth 1 (cc_sin c) 0) /\ nth_error (cc_lab c) 0 = Some (0, 1)%nat.
Proof.
  destruct (two_x_fit lstsq inv pinv chi2) as (c & E). exists th2, two_x, c. split; [exact E|]. split; [reflexivity|].
  destruct (cc_inv lstsq inv pinv chi2 th2 2 two_x 1 (1 / 20) c ltac:(intros r [<-|[<-|[]]]; reflexivity) E) as (_ & _ & _ & _ & _ & EL & _).
  unfold cc_table, cc_rows. rewrite EL. split; reflexivity.
Qed.
Lemma row_order Phi g g' b b' s s' r r' p p' : symmetric_cdf Phi -> 0 < s -> 0 < s' -> wald_row Phi g b s r -> wald_row Phi g' b' s' r' ->
  r_p r = Fin p -> r_p r' = Fin p' -> (p < p' <-> Rabs b' / s' < Rabs b / s).
Proof.
  intros (_ & M & _) Hs Hs' (_ & _ & _ & q & E & -> & _) (_ & _ & _ & q' & E' & -> & _) P P'.
  assert (p = 2 * Phi (- (Rabs b / s))) by congruence. assert (p' = 2 * Phi (- (Rabs b' / s'))) by congruence. subst p p'.
  split; intros H.
  - destruct (Rlt_le_dec (Rabs b' / s') (Rabs b / s)) as [|[Q|Q]]; auto; [|rewrite Q in H; lra].
    pose proof (M (- (Rabs b' / s')) (- (Rabs b / s)) ltac:(lra)). lra.
  - pose proof (M (- (Rabs b / s)) (- (Rabs b' / s')) ltac:(lra)). lra.
Qed.
Lemma ex_tables : exists Phi iv solve inv, symmetric_cdf Phi /\ is_iv iv /\ right_solve solve /\ right_inv inv /\ forall pinv,
  exists c f, cl_run iv solve pinv th2 1 (x2 (-1)) "mean" None None None (1 / 100) 1 = Ok c /\ cl_fit c = Fitted f /\ f_kappa f <> One 0.
Proof.
  destruct ex_symmetric as (Phi & HP). destruct cl_oracles as (iv & solve & inv & Hi & Hs & Hv). exists Phi, iv, solve, inv. repeat (split; [assumption|]).
  intros pinv. destruct (falling iv solve pinv inv Phi (1 / 100) Hi Hs Hv HP) as (c & f & _ & _ & _ & A & B & C & _). eauto.
Qed.
