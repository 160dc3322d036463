(** Circular-circular regression: design matrix, least squares, rho. *)
From Verif Require Import Prelude NpModel UtilsModel NpProofs RegModel CircleSpec RegSpec RegProofs Reg2Proofs.

Lemma sum_nth {A} (F : A -> R) (l : list A) d : Rsum (map F l) = sumn (length l) (fun i => F (nth i l d)).
Proof.
  induction l as [|a l IH]; [reflexivity|]. cbn [length map]. rewrite sumn_S, Rsum_cons, IH. reflexivity.
Qed.
Lemma sumn_app p q f : sumn (p + q) f = sumn p f + sumn q (fun j => f (p + j)%nat).
Proof.
  revert f. induction p as [|p IH]; intros f; [rewrite sumn_0, Rplus_0_l; reflexivity|].
  cbn [plus]. rewrite !sumn_S, IH. cbn [plus]. lra.
Qed.

(** The finite arrays of the statements. *)
Lemma finite_map v : finite (map Fin v) = Some v.
Proof. induction v as [|x v IH]; [reflexivity|]. cbn [map finite]. now rewrite IH. Qed.
Lemma finite_rows_map m : finite_rows (map (map Fin) m) = Some m.
Proof. induction m as [|r m IH]; [reflexivity|]. cbn [map finite_rows]. now rewrite finite_map, IH. Qed.
Lemma forallb_len p (m : list (list R)) : (forall r, In r m -> length r = p) -> forallb (fun r : list fl => Nat.eqb (length r) p) (map (map Fin) m) = true.
Proof.
  intros H. apply forallb_forall. intros r Hr. apply in_map_iff in Hr. destruct Hr as (s & <- & Hs). rewrite map_length. apply Nat.eqb_eq. auto.
Qed.

Definition wr (x : R) : R := pymod x (2 * PI).
Lemma cos_wr (k : nat) x : cos (INR k * wr x) = cos (INR k * x).
Proof.
  unfold wr, pymod. set (z := Rfloor (x / (2 * PI))). replace (INR k * (x - 2 * PI * IZR z)) with (INR k * x + 2 * PI * IZR (- (Z.of_nat k * z))).
  - apply cos_turns.
  - rewrite opp_IZR, mult_IZR, <- INR_IZR_INZ. ring.
Qed.
Lemma sin_wr (k : nat) x : sin (INR k * wr x) = sin (INR k * x).
Proof.
  unfold wr, pymod. set (z := Rfloor (x / (2 * PI))). replace (INR k * (x - 2 * PI * IZR z)) with (INR k * x + 2 * PI * IZR (- (Z.of_nat k * z))).
  - apply sin_turns.
  - rewrite opp_IZR, mult_IZR, <- INR_IZR_INZ. ring.
Qed.
Lemma wr_same x : same_dir x (wr x).
Proof. exists (Rfloor (x / (2 * PI))). unfold wr, pymod. ring. Qed.
Lemma wr_range x : 0 <= wr x < 2 * PI.
Proof. pose proof PI_RGT_0. unfold wr. apply pymod_range. lra. Qed.
Lemma nth_map_wr j (x : list R) : nth j (map wr x) 0 = wr (nth j x 0).
Proof.
  pose proof PI_RGT_0. assert (E : wr 0 = 0).
  { pose proof (wr_range 0). apply (same_dir_unique 0); [lra|lra|]. destruct (wr_same 0) as [k Hk]. exists (- k)%Z. rewrite opp_IZR. lra. }
  rewrite <- E at 1. apply map_nth.
Qed.
Lemma row_wr p order x : cc_row p order (map wr x) = cc_row p order x.
Proof.
  unfold cc_row. f_equal. f_equal; apply map_ext; intros [j k]; cbn [fst snd]; rewrite nth_map_wr; [apply cos_wr|apply sin_wr].
Qed.
Lemma wrow_wr p order x : cc_wrow p order (map wr x) = cc_wrow p order x.
Proof.
  unfold cc_wrow. f_equal; apply map_ext; intros j; rewrite nth_map_wr; [apply cos_wr|apply sin_wr].
Qed.
Lemma row_length p order x : length (cc_row p order x) = (1 + 2 * length (cc_labels p order))%nat.
Proof. unfold cc_row. cbn [length]. rewrite app_length, !map_length. lia. Qed.
Lemma labels_length p order : length (cc_labels p order) = (p * order)%nat.
Proof.
  unfold cc_labels. enough (G : forall s, length (flat_map (fun j => map (fun k => (j, k)) (seq 1 order)) (seq s p)) = (p * order)%nat) by apply G.
  induction p as [|p IH]; intros s; [reflexivity|]. cbn [seq flat_map]. rewrite app_length, map_length, seq_length, IH. lia.
Qed.

(** A row against coefficients is the trigonometric polynomial. *)
Lemma inner_app u1 u2 v : inner (u1 ++ u2) v = inner u1 v + inner u2 (skipn (length u1) v).
Proof.
  revert v. induction u1 as [|a u IH]; intros [|b v]; cbn [app inner length skipn]; try lra.
  - destruct u2; cbn; lra.
  - rewrite IH. lra.
Qed.
Lemma nth_skipn_ {A} k (l : list A) i d : nth i (skipn k l) d = nth (k + i) l d.
Proof. revert l. induction k as [|k IH]; intros [|a l]; cbn [skipn plus nth]; auto. destruct i; reflexivity. Qed.
Lemma row_poly p order b x : inner (cc_row p order x) b = trig_poly (cc_labels p order) b x.
Proof.
  unfold cc_row, trig_poly. set (L := cc_labels p order). rewrite (Rsum_map_ext _ (fun i => nth (1 + i) b 0 * cos (INR (snd (nth i L (0, 0)%nat)) * nth (fst (nth i L (0, 0)%nat)) x 0)
     + nth (1 + length L + i) b 0 * sin (INR (snd (nth i L (0, 0)%nat)) * nth (fst (nth i L (0, 0)%nat)) x 0))).
  2:{ intros i _. destruct (nth i L (0, 0)%nat). reflexivity. }
  rewrite Rsum_map_plus.
  set (F := fun jk : nat * nat => cos (INR (snd jk) * nth (fst jk) x 0)). set (G := fun jk : nat * nat => sin (INR (snd jk) * nth (fst jk) x 0)).
  assert (K : forall (H : nat * nat -> R) v, inner (map H L) v = sumn (length L) (fun i => H (nth i L (0, 0)%nat) * nth i v 0)).
  { intros H v. rewrite (inner_sum (length L)) by apply map_length. apply sumn_ext. intros i Hi. f_equal.
    rewrite (nth_indep _ 0 (H (0, 0)%nat)) by (now rewrite map_length). apply map_nth. }
  destruct b as [|b0 b].
  - assert (Z : forall k, nth k (@nil R) 0 = 0) by (intros [|k]; reflexivity). cbn [inner]. rewrite Z.
    assert (Q : forall (c : nat -> nat) (H : nat -> R), Rsum (map (fun i => nth (c i) (@nil R) 0 * H i) (seq 0 (length L))) = 0).
    { intros c H. transitivity (Rsum (map (fun _ : nat => 0) (seq 0 (length L)))); [apply Rsum_map_ext; intros; rewrite Z; ring|rewrite Rsum_map_const; ring]. }
    rewrite (Q (fun i => 1 + i)%nat), (Q (fun i => 1 + length L + i)%nat). ring.
  - cbn [inner nth]. rewrite inner_app, !K, map_length. rewrite Rmult_1_l. unfold sumn. f_equal. f_equal; apply Rsum_map_ext; intros i _.
    + cbn [plus nth]. unfold F. ring.
    + rewrite nth_skipn_. cbn [plus nth]. unfold G. ring.
Qed.

(** ** The constructor on finite arrays *)
Lemma cc_arrays lstsq inv pinv chi2 theta p rows order level : (forall r, In r rows -> length r = p) ->
  CCRegression lstsq inv pinv chi2 None None (Some (map Fin theta)) (Some (X2 p (map (map Fin) rows))) order level =
  if (order <? 1)%Z then Err ValueError
  else if negb (Rltb 0 level && Rltb level 1) then Err ValueError
  else cc_fit lstsq inv pinv chi2 (map wr theta) p (map (map wr) rows) (Z.to_nat order) level.
Proof.
  intros H. unfold CCRegression. cbn [bind fst snd]. unfold cc_theta. rewrite finite_map. cbn [bind]. unfold cc_x.
  rewrite forallb_len by exact H. cbn [negb]. rewrite finite_rows_map. reflexivity.
Qed.
Definition design (p order : nat) (rows : list (list R)) : list (list R) := map (cc_row p order) rows.
Lemma design_wr p order rows : map (cc_row p order) (map (map wr) rows) = design p order rows.
Proof. unfold design. rewrite map_map. apply map_ext. intros r. apply row_wr. Qed.
Lemma design_shaped p order rows : shaped (length rows) (1 + 2 * (p * order)) (design p order rows).
Proof.
  split; [apply map_length|]. intros r Hr. apply in_map_iff in Hr. destruct Hr as (x & <- & _). rewrite row_length, labels_length. reflexivity.
Qed.
Lemma map_cos_wr th : map cos (map wr th) = map cos th.
Proof. rewrite map_map. apply map_ext. intros x. pose proof (cos_wr 1 x) as E. cbn [INR] in E. now rewrite !Rmult_1_l in E. Qed.
Lemma map_sin_wr th : map sin (map wr th) = map sin th.
Proof. rewrite map_map. apply map_ext. intros x. pose proof (sin_wr 1 x) as E. cbn [INR] in E. now rewrite !Rmult_1_l in E. Qed.
(** The fitted cosines and sines. *)
Definition fitc (lstsq : mat -> vec -> vec) p order theta rows : vec := mv (design p order rows) (lstsq (design p order rows) (map cos theta)).
Definition fits (lstsq : mat -> vec -> vec) p order theta rows : vec := mv (design p order rows) (lstsq (design p order rows) (map sin theta)).
Lemma cc_inv lstsq inv pinv chi2 theta p rows order level c : (forall r, In r rows -> length r = p) ->
  CCRegression lstsq inv pinv chi2 None None (Some (map Fin theta)) (Some (X2 p (map (map Fin) rows))) order level = Ok c ->
  let o := Z.to_nat order in
  (1 <= order)%Z /\ 0 < level < 1 /\ length theta = length rows /\
  cc_cos c = lstsq (design p o rows) (map cos theta) /\ cc_sin c = lstsq (design p o rows) (map sin theta) /\
  cc_lab c = cc_labels p o /\
  cc_fitted c = map2 (fun s c => wr (arctan2 s c)) (fits lstsq p o theta rows) (fitc lstsq p o theta rows) /\
  cc_residuals c = map2 (fun t f => arctan2 (sin (t - f)) (cos (t - f))) (map wr theta) (cc_fitted c) /\
  cc_rho c = match rows with [] => NaN | _ => Fin (clip (sqrt (mean (map2 (fun c s => c ^ 2 + s ^ 2) (fitc lstsq p o theta rows) (fits lstsq p o theta rows)))) 0 1) end /\
  cc_p c = (if Nat.eqb (length rows) 0 || Nat.eqb p 0 then None else
     let N := cc_N inv pinv (length rows) (1 + 2 * (p * o)) (2 * p) (design p o rows) (map (cc_wrow p o) rows) in
     Some (1 - chi2 (cc_T N (length rows) o (vsub (map cos theta) (fitc lstsq p o theta rows))) (2 * p)%nat,
           1 - chi2 (cc_T N (length rows) o (vsub (map sin theta) (fits lstsq p o theta rows))) (2 * p)%nat)) /\
  cc_message c = match cc_p c with None => NoHarmonics | Some (p1, p2) => if Rltb level p1 && Rltb level p2 then NotSignificant else Significant end.
Proof.
  intros H E. cbv zeta. rewrite cc_arrays in E by exact H. destruct (order <? 1)%Z eqn:Eo; [discriminate|]. apply Z.ltb_ge in Eo.
  destruct (Rltb_spec 0 level); [|discriminate]. destruct (Rltb_spec level 1); [|discriminate]. cbn [andb negb] in E.
  unfold cc_fit in E. rewrite !map_length in E. destruct (Nat.eqb_spec (length theta) (length rows)) as [El|]; [|discriminate]. cbn [negb] in E.
  rewrite design_wr, map_cos_wr, map_sin_wr in E. rewrite row_length, labels_length in E.
  assert (EW : map (cc_wrow p (Z.to_nat order)) (map (map wr) rows) = map (cc_wrow p (Z.to_nat order)) rows) by (rewrite map_map; apply map_ext; intros; apply wrow_wr).
  rewrite EW in E. apply (f_equal (fun r => match r with Ok x => x | Err _ => c end)) in E. cbv beta iota zeta in E. subst c.
  cbn [cc_cos cc_sin cc_lab cc_fitted cc_residuals cc_rho cc_p cc_message].
  split; [lia|]. split; [lra|]. split; [exact El|]. repeat (split; [reflexivity|]). split; [destruct rows; reflexivity|]. split; reflexivity.
Qed.
