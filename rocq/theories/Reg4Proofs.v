(** Circular-circular regression: fitted directions, residuals, rho and its invariances. *)
From Verif Require Import Prelude NpModel UtilsModel NpProofs RegModel CircleSpec RegSpec RegProofs Reg2Proofs Reg3Proofs.

Lemma nth_map_d {A B} (f : A -> B) l i a b : (i < length l)%nat -> nth i (map f l) b = f (nth i l a).
Proof. intros H. rewrite (nth_indep _ b (f a)) by (now rewrite map_length). apply map_nth. Qed.
Lemma map2_nth {A B C} (f : A -> B -> C) u v i a b c : length u = length v -> (i < length u)%nat -> nth i (map2 f u v) c = f (nth i u a) (nth i v b).
Proof.
  intros H Hi. unfold map2. rewrite (nth_map_d _ _ _ (a, b)) by (rewrite combine_length; lia). rewrite combine_nth by exact H. reflexivity.
Qed.
Lemma mv_length A x : length (mv A x) = length A.
Proof. apply map_length. Qed.
Lemma design_length p o rows : length (design p o rows) = length rows.
Proof. apply map_length. Qed.
Lemma design_nth p o rows i : (i < length rows)%nat -> nth i (design p o rows) [] = cc_row p o (nth i rows []).
Proof. intros H. apply (nth_map_d (cc_row p o) rows i [] [] H). Qed.
Lemma fit_nth p o rows b i : (i < length rows)%nat -> nth i (mv (design p o rows) b) 0 = trig_poly (cc_labels p o) b (nth i rows []).
Proof.
  intros Hi. rewrite mv_nth by (rewrite design_length; exact Hi). rewrite (design_nth p o rows i Hi). apply row_poly.
Qed.
Lemma combine_sum p o (g : R -> R) theta rows (F : R -> list R -> R) : length theta = length rows ->
  Rsum (map (fun e => F (snd e) (fst e)) (combine (design p o rows) (map g theta))) =
  sumn (length rows) (fun i => F (g (nth i theta 0)) (cc_row p o (nth i rows []))).
Proof.
  intros H. rewrite (sum_nth _ _ (cc_row p o [], g 0)). rewrite combine_length, map_length, design_length, H, Nat.min_id.
  apply sumn_ext. intros i Hi. rewrite combine_nth by (rewrite design_length, map_length; congruence). cbn [fst snd].
  rewrite (nth_map_d (cc_row p o) rows i []) by exact Hi. rewrite (nth_map_d g theta i 0) by lia. reflexivity.
Qed.
Lemma obs_sum theta rows (F : R -> list R -> R) : length theta = length rows ->
  Rsum (map (fun o => F (fst o) (snd o)) (combine theta rows)) = sumn (length rows) (fun i => F (nth i theta 0) (nth i rows [])).
Proof.
  intros H. rewrite (sum_nth _ _ (0, [])). rewrite combine_length, H, Nat.min_id. apply sumn_ext. intros i Hi. now rewrite combine_nth.
Qed.
(** Orthogonality and optimality, response by response. *)
Lemma cc_orth lstsq p o (g : R -> R) theta rows : right_lstsq lstsq -> length theta = length rows -> rows <> [] ->
  let b := lstsq (design p o rows) (map g theta) in
  length b = (1 + 2 * (p * o))%nat /\
  forall d, length d = (1 + 2 * (p * o))%nat ->
    sumn (length rows) (fun i => (g (nth i theta 0) - trig_poly (cc_labels p o) b (nth i rows [])) * trig_poly (cc_labels p o) d (nth i rows [])) = 0.
Proof.
  intros H El Hr. cbv zeta. assert (Hn : (0 < length rows)%nat) by (destruct rows; [congruence|cbn; lia]).
  destruct (lstsq_orth lstsq (length rows) (1 + 2 * (p * o)) (design p o rows) (map g theta) H Hn (design_shaped p o rows)) as [Hl Ho]; [now rewrite map_length|].
  split; [exact Hl|]. intros d Hd. specialize (Ho d Hd). set (b := lstsq (design p o rows) (map g theta)) in *.
  rewrite (combine_sum p o g theta rows (fun y r => (y - inner r b) * inner r d)) in Ho by exact El.
  etransitivity; [|exact Ho]. apply sumn_ext. intros i Hi. cbv beta. rewrite !row_poly. reflexivity.
Qed.
Lemma trig_rss_sumn lab g theta rows b : length theta = length rows ->
  trig_rss lab g (combine theta rows) b = sumn (length rows) (fun i => (g (nth i theta 0) - trig_poly lab b (nth i rows [])) ^ 2).
Proof. intros H. unfold trig_rss. apply (obs_sum theta rows (fun t x => (g t - trig_poly lab b x) ^ 2) H). Qed.
Lemma trig_poly_lc p o b d c x : length b = length d ->
  trig_poly (cc_labels p o) (lc b d c) x = trig_poly (cc_labels p o) b x + c * trig_poly (cc_labels p o) d x.
Proof. intros H. rewrite <- !row_poly. apply lc_inner. exact H. Qed.
(** Two functions of the observations that are both projections of the responses on one space. *)
Lemma proj_unique n (y f g : nat -> R) : sumn n (fun i => (y i - f i) * (f i - g i)) = 0 -> sumn n (fun i => (y i - g i) * (f i - g i)) = 0 ->
  forall i, (i < n)%nat -> f i = g i.
Proof.
  intros H1 H2 i Hi. assert (E : sumn n (fun i => (f i - g i) * (f i - g i)) = 0).
  { rewrite (sumn_ext _ _ (fun i => (y i - g i) * (f i - g i) - (y i - f i) * (f i - g i))) by (intros; ring). rewrite sumn_minus. lra. }
  assert (D := sumn_zero n _ (fun j _ => Rle_0_sqr (f j - g j)) E i Hi). unfold Rsqr in D. nra.
Qed.
Lemma cc_min lstsq p o g theta rows b' : right_lstsq lstsq -> length theta = length rows -> rows <> [] ->
  let b := lstsq (design p o rows) (map g theta) in length b' = length b ->
  trig_rss (cc_labels p o) g (combine theta rows) b <= trig_rss (cc_labels p o) g (combine theta rows) b'.
Proof.
  intros H El Hr b Hb'. destruct (cc_orth lstsq p o g theta rows H El Hr) as [Hl Ho]. fold b in Hl, Ho. rewrite !trig_rss_sumn by exact El.
  specialize (Ho (lc b' b (-1)) ltac:(rewrite lc_length; congruence)).
  rewrite (sumn_ext (length rows) (fun i => (g (nth i theta 0) - trig_poly (cc_labels p o) b' (nth i rows [])) ^ 2)
    (fun i => ((g (nth i theta 0) - trig_poly (cc_labels p o) b (nth i rows [])) ^ 2 + (trig_poly (cc_labels p o) (lc b' b (-1)) (nth i rows [])) ^ 2)
       - 2 * ((g (nth i theta 0) - trig_poly (cc_labels p o) b (nth i rows [])) * trig_poly (cc_labels p o) (lc b' b (-1)) (nth i rows [])))).
  - rewrite sumn_minus, sumn_scal, Ho, sumn_plus. assert (0 <= sumn (length rows) (fun i => trig_poly (cc_labels p o) (lc b' b (-1)) (nth i rows []) ^ 2)); [|lra].
    apply sumn_nonneg. intros. apply pow2_ge_0.
  - intros i _. rewrite trig_poly_lc by congruence. ring.
Qed.
(** Pythagoras. *)
Lemma cc_pyth lstsq p o g theta rows : right_lstsq lstsq -> length theta = length rows -> rows <> [] ->
  let b := lstsq (design p o rows) (map g theta) in
  sumn (length rows) (fun i => trig_poly (cc_labels p o) b (nth i rows []) ^ 2) =
  sumn (length rows) (fun i => g (nth i theta 0) ^ 2) - trig_rss (cc_labels p o) g (combine theta rows) b.
Proof.
  intros H El Hr b. destruct (cc_orth lstsq p o g theta rows H El Hr) as [Hl Ho]. fold b in Hl, Ho. rewrite trig_rss_sumn by exact El.
  specialize (Ho b Hl). rewrite <- sumn_minus.
  rewrite (sumn_ext _ (fun i => g (nth i theta 0) ^ 2 - _ ) (fun i => trig_poly (cc_labels p o) b (nth i rows []) ^ 2 + 2 * ((g (nth i theta 0) - trig_poly (cc_labels p o) b (nth i rows [])) * trig_poly (cc_labels p o) b (nth i rows [])))) by (intros; ring).
  rewrite sumn_plus, sumn_scal, Ho. ring.
Qed.

Definition cc_data (theta : list R) (p : nat) (rows : list (list R)) : Prop := length theta = length rows /\ rows <> [] /\ forall r, In r rows -> length r = p.

Lemma cc_least_squares lstsq inv pinv chi2 theta p rows order level c : right_lstsq lstsq -> cc_data theta p rows ->
  CCRegression lstsq inv pinv chi2 None None (Some (map Fin theta)) (Some (X2 p (map (map Fin) rows))) order level = Ok c ->
  length (cc_cos c) = (1 + 2 * length (cc_lab c))%nat /\ length (cc_sin c) = (1 + 2 * length (cc_lab c))%nat /\
  forall b, length b = (1 + 2 * length (cc_lab c))%nat ->
    trig_rss (cc_lab c) cos (combine theta rows) (cc_cos c) <= trig_rss (cc_lab c) cos (combine theta rows) b /\
    trig_rss (cc_lab c) sin (combine theta rows) (cc_sin c) <= trig_rss (cc_lab c) sin (combine theta rows) b.
Proof.
  intros H (El & Hr & Hp) E. destruct (cc_inv _ _ _ _ _ _ _ _ _ _ Hp E) as (_ & _ & _ & Ec & Es & Eb & _).
  rewrite Ec, Es, Eb. rewrite labels_length. set (o := Z.to_nat order).
  destruct (cc_orth lstsq p o cos theta rows H El Hr) as [L1 _]. destruct (cc_orth lstsq p o sin theta rows H El Hr) as [L2 _].
  split; [exact L1|]. split; [exact L2|]. intros b Hb. split; apply cc_min; auto; congruence.
Qed.

Lemma cc_rho_spec lstsq inv pinv chi2 theta p rows order level c : right_lstsq lstsq -> cc_data theta p rows ->
  CCRegression lstsq inv pinv chi2 None None (Some (map Fin theta)) (Some (X2 p (map (map Fin) rows))) order level = Ok c ->
  exists rho, cc_rho c = Fin rho /\ 0 <= rho <= 1 /\
    INR (length theta) * (1 - rho ^ 2) = trig_rss (cc_lab c) cos (combine theta rows) (cc_cos c) + trig_rss (cc_lab c) sin (combine theta rows) (cc_sin c).
Proof.
  intros H (El & Hr & Hp) E. destruct (cc_inv _ _ _ _ _ _ _ _ _ _ Hp E) as (_ & _ & _ & Ec & Es & Eb & _ & _ & Er & _).
  rewrite Ec, Es, Eb. set (o := Z.to_nat order) in *.
  pose proof (cc_pyth lstsq p o cos theta rows H El Hr) as P1. pose proof (cc_pyth lstsq p o sin theta rows H El Hr) as P2. cbv zeta in P1, P2.
  set (RC := trig_rss (cc_labels p o) cos _ _) in *. set (RS := trig_rss (cc_labels p o) sin _ _) in *.
  assert (R0 : 0 <= RC /\ 0 <= RS) by (split; apply Rsum_map_nonneg; intros; apply pow2_ge_0).
  assert (Hn : 0 < INR (length rows)) by (apply lt_0_INR; destruct rows; [congruence|cbn; lia]).
  assert (Et : sumn (length rows) (fun i => cos (nth i theta 0) ^ 2) + sumn (length rows) (fun i => sin (nth i theta 0) ^ 2) = INR (length rows)).
  { rewrite <- sumn_plus. rewrite (sumn_ext _ _ (fun _ => 1)). - unfold sumn. rewrite Rsum_map_const, seq_length. ring.
    - intros i _. pose proof (sin2_cos2 (nth i theta 0)). unfold Rsqr in *. lra. }
  set (m := mean (map2 (fun c s : R => c ^ 2 + s ^ 2) (fitc lstsq p o theta rows) (fits lstsq p o theta rows))) in *.
  assert (Em : m * INR (length rows) = INR (length rows) - (RC + RS)).
  { unfold m, mean. rewrite map2_length by (unfold fitc, fits; rewrite !mv_length; reflexivity). unfold fitc at 2. rewrite mv_length, design_length.
    replace (Rsum _) with (INR (length rows) - (RC + RS)); [field; lra|].
    unfold map2. rewrite (sum_nth _ _ (0, 0)). rewrite combine_length. unfold fitc at 1, fits at 1. rewrite !mv_length, !design_length, Nat.min_id.
    rewrite <- Et. transitivity (sumn (length rows) (fun i => trig_poly (cc_labels p o) (lstsq (design p o rows) (map cos theta)) (nth i rows []) ^ 2) +
       sumn (length rows) (fun i => trig_poly (cc_labels p o) (lstsq (design p o rows) (map sin theta)) (nth i rows []) ^ 2)); [lra|].
    rewrite <- sumn_plus. apply sumn_ext. intros i Hi. rewrite combine_nth by (unfold fitc, fits; rewrite !mv_length; reflexivity). cbn [fst snd].
    unfold fitc, fits. rewrite !fit_nth by exact Hi. reflexivity. }
  assert (Hm : 0 <= m).
  { unfold m, mean. apply Rmult_le_pos.
    - apply Rsum_nonneg. intros x Hx. unfold map2 in Hx. apply in_map_iff in Hx. destruct Hx as ([a b] & <- & _). cbn [fst snd]. pose proof (pow2_ge_0 a). pose proof (pow2_ge_0 b). lra.
    - apply Rlt_le, Rinv_0_lt_compat. rewrite map2_length by (unfold fitc, fits; rewrite !mv_length; reflexivity). unfold fitc. rewrite mv_length, design_length. exact Hn. }
  assert (Hm1 : m <= 1) by nra.
  exists (sqrt m). rewrite Er. destruct rows as [|r0 rows0]; [congruence|]. fold m. split.
  - f_equal. assert (0 <= sqrt m) by apply sqrt_pos. assert (sqrt m <= 1) by (rewrite <- sqrt_1; apply sqrt_le_1; lra). unfold clip. rewrite Rmax_left, Rmin_left; lra.
  - split; [split; [apply sqrt_pos|rewrite <- sqrt_1; apply sqrt_le_1; lra]|]. rewrite El. replace (sqrt m ^ 2) with m by (cbn; rewrite Rmult_1_r, sqrt_sqrt; auto). lra.
Qed.

(** Fitted directions and residuals. *)
Lemma cc_directions lstsq inv pinv chi2 theta p rows order level c : length theta = length rows -> (forall r, In r rows -> length r = p) ->
  CCRegression lstsq inv pinv chi2 None None (Some (map Fin theta)) (Some (X2 p (map (map Fin) rows))) order level = Ok c ->
  length (cc_fitted c) = length theta /\ length (cc_residuals c) = length theta /\
  forall i, (i < length theta)%nat ->
    let f := nth i (cc_fitted c) 0 in let r := nth i (cc_residuals c) 0 in let x := nth i rows [] in
    let C := trig_poly (cc_lab c) (cc_cos c) x in let S := trig_poly (cc_lab c) (cc_sin c) x in
    0 <= f < 2 * PI /\ - PI < r <= PI /\ same_dir (nth i theta 0) (f + r) /\
    C = sqrt (C * C + S * S) * cos f /\ S = sqrt (C * C + S * S) * sin f.
Proof.
  intros El Hp E. destruct (cc_inv _ _ _ _ _ _ _ _ _ _ Hp E) as (_ & _ & _ & Ec & Es & Eb & Ef & Ere & _).
  set (o := Z.to_nat order) in *.
  assert (Lf : length (cc_fitted c) = length theta).
  { rewrite Ef, map2_length by (unfold fitc, fits; rewrite !mv_length; reflexivity). unfold fits. rewrite mv_length, design_length. congruence. }
  assert (Lr : length (cc_residuals c) = length theta) by (rewrite Ere, map2_length; rewrite !map_length; congruence).
  split; [exact Lf|]. split; [exact Lr|]. intros i Hi. cbv zeta.
  assert (Ei : nth i (cc_fitted c) 0 = wr (arctan2 (trig_poly (cc_labels p o) (cc_sin c) (nth i rows [])) (trig_poly (cc_labels p o) (cc_cos c) (nth i rows [])))).
  { rewrite Ef, Ec, Es. rewrite (map2_nth _ _ _ _ 0 0); [|unfold fitc, fits; rewrite !mv_length; reflexivity|unfold fits; rewrite mv_length, design_length; lia].
    unfold fitc, fits. rewrite !fit_nth by lia. reflexivity. }
  rewrite Eb. set (C := trig_poly (cc_labels p o) (cc_cos c) (nth i rows [])) in *. set (S := trig_poly (cc_labels p o) (cc_sin c) (nth i rows [])) in *.
  assert (Hr : nth i (cc_residuals c) 0 = arctan2 (sin (wr (nth i theta 0) - nth i (cc_fitted c) 0)) (cos (wr (nth i theta 0) - nth i (cc_fitted c) 0))).
  { rewrite Ere at 1. rewrite (map2_nth _ _ _ _ 0 0); [|rewrite map_length; congruence|rewrite map_length; exact Hi]. rewrite (nth_map_d wr _ _ 0) by exact Hi. reflexivity. }
  split; [rewrite Ei; apply wr_range|]. split; [rewrite Hr; apply arctan2_range|]. split.
  - set (f := nth i (cc_fitted c) 0) in *. set (t := nth i theta 0) in *.
    assert (D : same_dir (nth i (cc_residuals c) 0) (wr t - f)) by (rewrite Hr; apply (arctan2_unique 1); lra).
    destruct D as [a Ha]. destruct (wr_same t) as [k Hk]. exists (k - a)%Z. rewrite minus_IZR, Ha. lra.
  - rewrite Ei. set (a := arctan2 S C). destruct (wr_same a) as [k Hk].
    assert (Ew : cos (wr a) = cos a /\ sin (wr a) = sin a) by (rewrite Hk at 2 4; rewrite cos_turns, sin_turns; auto). destruct Ew as [-> ->].
    destruct (Req_EM_T C 0) as [Z1|N1]; [destruct (Req_EM_T S 0) as [Z2|N2]|].
    + rewrite Z1, Z2. replace (0 * 0 + 0 * 0) with 0 by ring. rewrite sqrt_0. lra.
    + apply (arctan2_polar S C). now right.
    + apply (arctan2_polar S C). now left.
Qed.
