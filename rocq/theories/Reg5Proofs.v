(** Circular-circular regression: turning and reflecting, reordering, nested orders. *)
From Verif Require Import Prelude NpModel UtilsModel NpProofs RegModel CircleSpec RegSpec RegProofs Reg2Proofs Reg3Proofs Reg4Proofs.

Definition sign (e : R) : Prop := e = 1 \/ e = -1.
Lemma sign_sq e : sign e -> e * e = 1.
Proof. intros [->| ->]; lra. Qed.
Lemma cos_sgn e x : sign e -> cos (e * x) = cos x.
Proof. intros [->| ->]; [f_equal; lra|]. replace (-1 * x) with (- x) by ring. apply cos_neg. Qed.
Lemma sin_sgn e x : sign e -> sin (e * x) = e * sin x.
Proof. intros [->| ->]; [rewrite !Rmult_1_l; reflexivity|]. replace (-1 * x) with (- x) by ring. rewrite sin_neg. ring. Qed.
Lemma cos_moved (k : nat) e d x x' : sign e -> same_dir x' (e * x + d) ->
  cos (INR k * x') = cos (INR k * d) * cos (INR k * x) - e * sin (INR k * d) * sin (INR k * x) /\
  sin (INR k * x') = sin (INR k * d) * cos (INR k * x) + e * cos (INR k * d) * sin (INR k * x).
Proof.
  intros He [z ->]. replace (INR k * (e * x + d + 2 * PI * IZR z)) with (e * (INR k * x) + INR k * d + 2 * PI * IZR (Z.of_nat k * z)) by (rewrite mult_IZR, <- INR_IZR_INZ; ring).
  rewrite cos_turns, sin_turns, cos_plus, sin_plus, cos_sgn, sin_sgn by exact He. split; ring.
Qed.

Definition moved (e : R) (d : nat -> R) (x x' : list R) : Prop := forall j, same_dir (nth j x' 0) (e * nth j x 0 + d j).
Lemma moved_back e d x x' : sign e -> moved e d x x' -> moved e (fun j => - e * d j) x' x.
Proof.
  intros He H j. destruct (H j) as [z Hz]. destruct He as [->| ->]; [exists (- z)%Z|exists z]; rewrite Hz; [rewrite opp_IZR|]; ring.
Qed.
Lemma trig_poly_nth lab b x :
  trig_poly lab b x = nth 0 b 0 + sumn (length lab) (fun i => nth (1 + i) b 0 * cos (INR (snd (nth i lab (0, 0)%nat)) * nth (fst (nth i lab (0, 0)%nat)) x 0)
    + nth (1 + length lab + i) b 0 * sin (INR (snd (nth i lab (0, 0)%nat)) * nth (fst (nth i lab (0, 0)%nat)) x 0)).
Proof. unfold trig_poly, sumn. f_equal. apply Rsum_map_ext. intros i _. destruct (nth i lab (0, 0)%nat). reflexivity. Qed.
(** The coefficients of a moved polynomial. *)
Lemma poly_moved e d lab b : sign e -> length b = (1 + 2 * length lab)%nat -> exists b', length b' = length b /\
  forall x x', moved e d x x' -> trig_poly lab b x' = trig_poly lab b' x.
Proof.
  intros He Hb. set (L := length lab).
  set (kk i := snd (nth i lab (0, 0)%nat)). set (jj i := fst (nth i lab (0, 0)%nat)).
  set (u i := nth (1 + i) b 0 * cos (INR (kk i) * d (jj i)) + nth (1 + L + i) b 0 * sin (INR (kk i) * d (jj i))).
  set (v i := - e * nth (1 + i) b 0 * sin (INR (kk i) * d (jj i)) + e * nth (1 + L + i) b 0 * cos (INR (kk i) * d (jj i))).
  exists (nth 0 b 0 :: vec_of L u ++ vec_of L v). split.
  - cbn [length]. rewrite app_length, !vec_of_length, Hb. unfold L. lia.
  - intros x x' Hm. rewrite !trig_poly_nth. fold L. cbn [nth]. f_equal. apply sumn_ext. intros i Hi. fold (kk i) (jj i).
    cbn [plus nth]. rewrite (app_nth1 (vec_of L u)) by (rewrite vec_of_length; exact Hi). rewrite (app_nth2 (vec_of L u)) by (rewrite vec_of_length; lia).
    rewrite vec_of_length. replace (L + i - L)%nat with i by lia. rewrite !nth_vec_of by exact Hi.
    destruct (cos_moved (kk i) e (d (jj i)) _ _ He (Hm (jj i))) as [-> ->]. unfold u, v. cbn [plus nth]. ring.
Qed.

(** The fitted cosines and sines of moved data. *)
Definition moved_data (e d : R) (e' : R) (dx : nat -> R) (theta : list R) (rows : list (list R)) (theta' : list R) (rows' : list (list R)) : Prop :=
  length theta' = length theta /\ length rows' = length rows /\
  forall i, (i < length theta)%nat -> same_dir (nth i theta' 0) (e * nth i theta 0 + d) /\ moved e' dx (nth i rows []) (nth i rows' []).
Lemma fit_moved lstsq p o e d e' dx theta rows theta' rows' (g : R -> R) ac bs :
  right_lstsq lstsq -> sign e' -> length theta = length rows -> rows <> [] -> moved_data e d e' dx theta rows theta' rows' ->
  (forall i, (i < length theta)%nat -> g (nth i theta' 0) = ac * cos (nth i theta 0) + bs * sin (nth i theta 0)) ->
  forall i, (i < length theta)%nat ->
  trig_poly (cc_labels p o) (lstsq (design p o rows') (map g theta')) (nth i rows' []) =
  ac * trig_poly (cc_labels p o) (lstsq (design p o rows) (map cos theta)) (nth i rows [])
  + bs * trig_poly (cc_labels p o) (lstsq (design p o rows) (map sin theta)) (nth i rows []).
Proof.
  intros H He El Hr (L1 & L2 & Hm) Hg. assert (Hr' : rows' <> []) by (intros ->; apply Hr; destruct rows; [reflexivity|discriminate]).
  assert (El' : length theta' = length rows') by congruence.
  destruct (cc_orth lstsq p o g theta' rows' H El' Hr') as [Lb Ob]. destruct (cc_orth lstsq p o cos theta rows H El Hr) as [Lc Oc]. destruct (cc_orth lstsq p o sin theta rows H El Hr) as [Ls Os].
  set (b := lstsq (design p o rows') (map g theta')) in *. set (c := lstsq (design p o rows) (map cos theta)) in *. set (s := lstsq (design p o rows) (map sin theta)) in *.
  assert (Hlab : (1 + 2 * (p * o))%nat = (1 + 2 * length (cc_labels p o))%nat) by (now rewrite labels_length).
  destruct (poly_moved e' dx (cc_labels p o) b He ltac:(congruence)) as (b1 & Lb1 & Hb1).
  set (m := lc (vec_of (1 + 2 * (p * o)) (fun j => ac * nth j c 0 + bs * nth j s 0)) b1 (-1)).
  assert (Hv : forall x, trig_poly (cc_labels p o) (vec_of (1 + 2 * (p * o)) (fun j => ac * nth j c 0 + bs * nth j s 0)) x = ac * trig_poly (cc_labels p o) c x + bs * trig_poly (cc_labels p o) s x).
  { intros x. rewrite <- !row_poly. now apply inner_comb. }
  assert (Lm : length m = (1 + 2 * (p * o))%nat) by (unfold m; rewrite lc_length; apply vec_of_length).
  destruct (poly_moved e' (fun j => - e' * dx j) (cc_labels p o) m He ltac:(congruence)) as (m' & Lm' & Hm').
  intros i Hi. rewrite El in Hi. symmetry.
  apply (proj_unique (length rows) (fun i => g (nth i theta' 0)) (fun i => ac * trig_poly (cc_labels p o) c (nth i rows []) + bs * trig_poly (cc_labels p o) s (nth i rows [])) (fun i => trig_poly (cc_labels p o) b (nth i rows' []))); [| |exact Hi].
  - rewrite (sumn_ext _ _ (fun i => ac * ((cos (nth i theta 0) - trig_poly (cc_labels p o) c (nth i rows [])) * trig_poly (cc_labels p o) m (nth i rows []))
       + bs * ((sin (nth i theta 0) - trig_poly (cc_labels p o) s (nth i rows [])) * trig_poly (cc_labels p o) m (nth i rows [])))).
    + rewrite sumn_plus, !sumn_scal, (Oc m Lm), (Os m Lm). ring.
    + intros k Hk. rewrite <- El in Hk. destruct (Hm k Hk) as [_ Hx]. rewrite (Hg k Hk). unfold m. rewrite trig_poly_lc by (rewrite vec_of_length; congruence). rewrite Hv.
      rewrite (Hb1 _ _ Hx). ring.
  - rewrite <- L2. specialize (Ob m' ltac:(congruence)). etransitivity; [|exact Ob]. apply sumn_ext. intros k Hk. rewrite L2, <- El in Hk. destruct (Hm k Hk) as [_ Hx].
    f_equal. rewrite <- (Hm' _ _ (moved_back e' dx _ _ He Hx)). unfold m. rewrite trig_poly_lc by (rewrite vec_of_length; congruence). rewrite Hv, (Hb1 _ _ Hx). ring.
Qed.

Lemma dir_scaled e d f f' C S C' S' : sign e -> (C <> 0 \/ S <> 0) ->
  C = sqrt (C * C + S * S) * cos f -> S = sqrt (C * C + S * S) * sin f -> C' = sqrt (C' * C' + S' * S') * cos f' -> S' = sqrt (C' * C' + S' * S') * sin f' ->
  C' = cos d * C - e * sin d * S -> S' = sin d * C + e * cos d * S -> same_dir f' (e * f + d).
Proof.
  intros He N E1 E2 E3 E4 E5 E6.
  assert (Q : C' * C' + S' * S' = C * C + S * S).
  { rewrite E5, E6. pose proof (sin2_cos2 d) as T. unfold Rsqr in T. pose proof (sign_sq e He).
    replace ((cos d * C - e * sin d * S) * (cos d * C - e * sin d * S) + (sin d * C + e * cos d * S) * (sin d * C + e * cos d * S))
      with ((sin d * sin d + cos d * cos d) * (C * C) + (e * e) * (sin d * sin d + cos d * cos d) * (S * S)) by ring. rewrite T, H. ring. }
  set (r := sqrt (C * C + S * S)) in *. assert (Hr : 0 < r).
  { apply sqrt_lt_R0. destruct N; [assert (0 < C * C) by nra; assert (0 <= S * S) by nra; lra|assert (0 < S * S) by nra; assert (0 <= C * C) by nra; lra]. }
  rewrite Q in E3, E4. fold r in E3, E4. apply cos_sin_same_dir.
  - apply (Rmult_eq_reg_l r); [|lra]. rewrite <- E3, E5, cos_plus, cos_sgn, sin_sgn by exact He. rewrite E1 at 1. rewrite E2 at 1. ring.
  - apply (Rmult_eq_reg_l r); [|lra]. rewrite <- E4, E6, sin_plus, cos_sgn, sin_sgn by exact He. rewrite E1 at 1. rewrite E2 at 1. ring.
Qed.

Lemma cc_moved lstsq inv pinv chi2 e d e' dx theta p rows theta' rows' order level c c' :
  right_lstsq lstsq -> sign e -> sign e' -> cc_data theta p rows -> cc_data theta' p rows' -> moved_data e d e' dx theta rows theta' rows' ->
  CCRegression lstsq inv pinv chi2 None None (Some (map Fin theta)) (Some (X2 p (map (map Fin) rows))) order level = Ok c ->
  CCRegression lstsq inv pinv chi2 None None (Some (map Fin theta')) (Some (X2 p (map (map Fin) rows'))) order level = Ok c' ->
  cc_rho c' = cc_rho c /\
  forall i, (i < length theta)%nat ->
    trig_poly (cc_lab c) (cc_cos c) (nth i rows []) <> 0 \/ trig_poly (cc_lab c) (cc_sin c) (nth i rows []) <> 0 ->
    same_dir (nth i (cc_fitted c') 0) (e * nth i (cc_fitted c) 0 + d) /\ same_dir (nth i (cc_residuals c') 0) (e * nth i (cc_residuals c) 0).
Proof.
  intros H He He' D D' M E E'. pose proof D as (El & Hr & Hp). pose proof D' as (El' & Hr' & Hp'). pose proof M as (L1 & L2 & Hm).
  destruct (cc_inv _ _ _ _ _ _ _ _ _ _ Hp E) as (_ & _ & _ & Ec & Es & Eb & _).
  destruct (cc_inv _ _ _ _ _ _ _ _ _ _ Hp' E') as (_ & _ & _ & Ec' & Es' & Eb' & _).
  set (o := Z.to_nat order) in *.
  assert (FC : forall i, (i < length theta)%nat -> trig_poly (cc_lab c') (cc_cos c') (nth i rows' []) =
     cos d * trig_poly (cc_lab c) (cc_cos c) (nth i rows []) + (- e * sin d) * trig_poly (cc_lab c) (cc_sin c) (nth i rows [])).
  { rewrite Eb, Eb', Ec, Ec', Es. apply (fit_moved lstsq p o e d e' dx); auto. intros i Hi. destruct (Hm i Hi) as [Ht _].
    destruct (cos_moved 1 e d _ _ He Ht) as [K _]. cbn [INR] in K. rewrite !Rmult_1_l in K. rewrite K. ring. }
  assert (FS : forall i, (i < length theta)%nat -> trig_poly (cc_lab c') (cc_sin c') (nth i rows' []) =
     sin d * trig_poly (cc_lab c) (cc_cos c) (nth i rows []) + (e * cos d) * trig_poly (cc_lab c) (cc_sin c) (nth i rows [])).
  { rewrite Eb, Eb', Ec, Es, Es'. apply (fit_moved lstsq p o e d e' dx); auto. intros i Hi. destruct (Hm i Hi) as [Ht _].
    destruct (cos_moved 1 e d _ _ He Ht) as [_ K]. cbn [INR] in K. rewrite !Rmult_1_l in K. rewrite K. ring. }
  split.
  - destruct (cc_rho_spec _ _ _ _ _ _ _ _ _ _ H D E) as (rho & -> & Hrho & Q). destruct (cc_rho_spec _ _ _ _ _ _ _ _ _ _ H D' E') as (rho' & -> & Hrho' & Q').
    f_equal. rewrite !trig_rss_sumn in Q, Q' by auto. rewrite L2, <- El, L1, <- sumn_plus in Q'. rewrite <- El, <- sumn_plus in Q.
    assert (Heq : INR (length theta) * (1 - rho' ^ 2) = INR (length theta) * (1 - rho ^ 2)).
    { rewrite Q, Q'. apply sumn_ext. intros i Hi. rewrite (FC i Hi), (FS i Hi). destruct (Hm i Hi) as [Ht _].
      destruct (cos_moved 1 e d _ _ He Ht) as [K1 K2]. cbn [INR] in K1, K2. rewrite !Rmult_1_l in K1, K2. rewrite K1, K2.
      set (ct := cos (nth i theta 0)). set (st := sin (nth i theta 0)). set (pc := trig_poly (cc_lab c) (cc_cos c) (nth i rows [])). set (ps := trig_poly (cc_lab c) (cc_sin c) (nth i rows [])).
      pose proof (sin2_cos2 d) as T. unfold Rsqr in T. pose proof (sign_sq e He) as T2.
      replace ((cos d * ct - e * sin d * st - (cos d * pc + - e * sin d * ps)) ^ 2 + (sin d * ct + e * cos d * st - (sin d * pc + e * cos d * ps)) ^ 2)
        with ((sin d * sin d + cos d * cos d) * (ct - pc) ^ 2 + e * e * (sin d * sin d + cos d * cos d) * (st - ps) ^ 2) by ring. rewrite T, T2. ring. }
    assert (Hn : 0 < INR (length theta)) by (apply lt_0_INR; rewrite El; destruct rows; [congruence|cbn; lia]).
    apply Rmult_eq_reg_l in Heq; [|lra]. nra.
  - intros i Hi N. destruct (cc_directions _ _ _ _ _ _ _ _ _ _ El Hp E) as (_ & _ & K). destruct (K i Hi) as (_ & _ & S1 & P1 & P2).
    destruct (cc_directions _ _ _ _ _ _ _ _ _ _ El' Hp' E') as (_ & _ & K'). destruct (K' i ltac:(lia)) as (_ & _ & S1' & P1' & P2').
    assert (Hf : same_dir (nth i (cc_fitted c') 0) (e * nth i (cc_fitted c) 0 + d)).
    { apply (dir_scaled e d _ _ (trig_poly (cc_lab c) (cc_cos c) (nth i rows [])) (trig_poly (cc_lab c) (cc_sin c) (nth i rows []))
         (trig_poly (cc_lab c') (cc_cos c') (nth i rows' [])) (trig_poly (cc_lab c') (cc_sin c') (nth i rows' []))); auto.
      rewrite (FC i Hi). ring. }
    split; [exact Hf|]. destruct (Hm i Hi) as [Ht _]. destruct Ht as [z1 Hz1]. destruct Hf as [z2 Hz2]. destruct S1 as [z3 Hz3]. destruct S1' as [z4 Hz4].
    destruct He as [->| ->]; [exists (z3 + z1 - z2 - z4)%Z|exists (- z3 + z1 - z2 - z4)%Z]; rewrite ?minus_IZR, ?plus_IZR, ?opp_IZR; lra.
Qed.

(** The order of the observations. *)
Lemma cc_reordered lstsq inv pinv chi2 theta p rows theta' rows' order level c c' :
  right_lstsq lstsq -> cc_data theta p rows -> cc_data theta' p rows' -> Permutation (combine theta rows) (combine theta' rows') ->
  CCRegression lstsq inv pinv chi2 None None (Some (map Fin theta)) (Some (X2 p (map (map Fin) rows))) order level = Ok c ->
  CCRegression lstsq inv pinv chi2 None None (Some (map Fin theta')) (Some (X2 p (map (map Fin) rows'))) order level = Ok c' ->
  cc_rho c' = cc_rho c.
Proof.
  intros H D D' P E E'. pose proof D as (El & Hr & Hp). pose proof D' as (El' & Hr' & Hp').
  destruct (cc_rho_spec _ _ _ _ _ _ _ _ _ _ H D E) as (rho & -> & Hrho & Q). destruct (cc_rho_spec _ _ _ _ _ _ _ _ _ _ H D' E') as (rho' & -> & Hrho' & Q').
  destruct (cc_least_squares _ _ _ _ _ _ _ _ _ _ H D E) as (Lc & Ls & Mn). destruct (cc_least_squares _ _ _ _ _ _ _ _ _ _ H D' E') as (Lc' & Ls' & Mn').
  destruct (cc_inv _ _ _ _ _ _ _ _ _ _ Hp E) as (_ & _ & _ & _ & _ & Eb & _). destruct (cc_inv _ _ _ _ _ _ _ _ _ _ Hp' E') as (_ & _ & _ & _ & _ & Eb' & _).
  rewrite Eb' in *. rewrite Eb in *. set (lab := cc_labels p (Z.to_nat order)) in *.
  assert (T : forall g b, trig_rss lab g (combine theta rows) b = trig_rss lab g (combine theta' rows') b) by (intros; apply Rsum_perm, Permutation_map, P).
  destruct (Mn (cc_cos c') ltac:(congruence)) as [A1 _]. destruct (Mn (cc_sin c') ltac:(congruence)) as [_ A2].
  destruct (Mn' (cc_cos c) ltac:(congruence)) as [A3 _]. destruct (Mn' (cc_sin c) ltac:(congruence)) as [_ A4].
  rewrite !T in Q, A1, A2. assert (Hn : length theta' = length theta) by (apply Permutation_length in P; rewrite !combine_length in P; lia).
  assert (0 < INR (length theta)) by (apply lt_0_INR; rewrite El; destruct rows; [congruence|cbn; lia]).
  f_equal. rewrite Hn in Q'. assert (trig_rss lab cos (combine theta' rows') (cc_cos c) = trig_rss lab cos (combine theta' rows') (cc_cos c')) by lra.
  assert (trig_rss lab sin (combine theta' rows') (cc_sin c) = trig_rss lab sin (combine theta' rows') (cc_sin c')) by lra.
  assert (1 - rho ^ 2 = 1 - rho' ^ 2) by (apply (Rmult_eq_reg_l (INR (length theta))); lra). nra.
Qed.

(** Nested orders. *)
Lemma in_labels p o j k : In (j, k) (cc_labels p o) <-> (j < p)%nat /\ (1 <= k <= o)%nat.
Proof.
  unfold cc_labels. rewrite in_flat_map. split.
  - intros (i & Hi & H). apply in_seq in Hi. apply in_map_iff in H. destruct H as (q & E & Hq). apply in_seq in Hq. injection E as <- <-. lia.
  - intros [Hj Hk]. exists j. split; [apply in_seq; lia|]. apply in_map_iff. exists k. split; [reflexivity|apply in_seq; lia].
Qed.
Definition spans (p o : nat) (f : list R -> R) : Prop := exists b, length b = (1 + 2 * (p * o))%nat /\ forall x, f x = trig_poly (cc_labels p o) b x.
Lemma spans_lin p o f g c : spans p o f -> spans p o g -> spans p o (fun x => f x + c * g x).
Proof.
  intros (b & Lb & Hb) (d & Ld & Hd). exists (lc b d c). split; [rewrite lc_length; exact Lb|]. intros x. rewrite Hb, Hd. symmetry. apply trig_poly_lc. congruence.
Qed.
Lemma spans_unit p o m : (m < 1 + 2 * (p * o))%nat -> spans p o (fun x => nth m (cc_row p o x) 0).
Proof.
  intros Hm. exists (vec_of (1 + 2 * (p * o)) (fun k => if Nat.eqb m k then 1 else 0)). split; [apply vec_of_length|]. intros x. rewrite <- row_poly.
  rewrite inner_sym, inner_vec_of. symmetry. apply (sumn_delta (1 + 2 * (p * o)) m (fun k => nth k (cc_row p o x) 0) Hm).
Qed.
Lemma spans_ext p o f g : (forall x, f x = g x) -> spans p o f -> spans p o g.
Proof. intros H (b & Lb & Hb). exists b. split; [exact Lb|]. intros x. rewrite <- H. apply Hb. Qed.
Lemma spans_label p o j k : In (j, k) (cc_labels p o) -> spans p o (fun x => cos (INR k * nth j x 0)) /\ spans p o (fun x => sin (INR k * nth j x 0)).
Proof.
  intros Hin. destruct (In_nth _ _ (0, 0)%nat Hin) as (i & Hi & Ei). pose proof Hi as Hi'. rewrite labels_length in Hi'. split.
  - apply (spans_ext p o (fun x => nth (1 + i) (cc_row p o x) 0)); [|apply spans_unit; lia]. intros x. unfold cc_row. cbn [plus nth].
    rewrite app_nth1 by (now rewrite map_length). rewrite (nth_map_d _ _ _ (0, 0)%nat) by exact Hi. rewrite Ei. reflexivity.
  - apply (spans_ext p o (fun x => nth (1 + (length (cc_labels p o) + i)) (cc_row p o x) 0)); [|apply spans_unit; rewrite labels_length; lia]. intros x. unfold cc_row. cbn [plus nth].
    rewrite app_nth2 by (rewrite map_length; lia). rewrite map_length. replace (length (cc_labels p o) + i - length (cc_labels p o))%nat with i by lia.
    rewrite (nth_map_d _ _ _ (0, 0)%nat) by exact Hi. rewrite Ei. reflexivity.
Qed.
Lemma spans_sum p o {A} (F : A -> list R -> R) l : (forall a, In a l -> spans p o (F a)) -> spans p o (fun x => Rsum (map (fun a => F a x) l)).
Proof.
  induction l as [|a l IH]; intros H.
  - exists (repeat 0 (1 + 2 * (p * o))). split; [apply repeat_length|]. intros x. cbn [map]. rewrite Rsum_nil, <- row_poly.
    generalize (cc_row p o x). generalize (1 + 2 * (p * o))%nat. induction n as [|n IH]; intros [|y r]; cbn [repeat inner]; try lra. rewrite <- IH. lra.
  - apply (spans_ext p o (fun x => Rsum (map (fun a => F a x) l) + 1 * F a x)); [intros; cbn [map]; rewrite Rsum_cons; lra|].
    apply spans_lin; [apply IH; intros; apply H; now right|apply H; now left].
Qed.
Lemma spans_scal p o c f : spans p o f -> spans p o (fun x => c * f x).
Proof.
  intros H. apply (spans_ext p o (fun x => Rsum (map (fun a : unit => 0) []) + c * f x)); [intros; cbn; lra|].
  apply (spans_lin p o (fun _ => Rsum (map (fun a : unit => 0) []))); [|exact H]. apply (spans_sum p o (fun (_ : unit) _ => 0)). intros a [].
Qed.
Lemma spans_mono p o o' b : (o <= o')%nat -> length b = (1 + 2 * (p * o))%nat -> spans p o' (trig_poly (cc_labels p o) b).
Proof.
  intros Ho Lb. set (lab := cc_labels p o).
  apply (spans_ext p o' (fun x => Rsum (map (fun i => nth (1 + i) b 0 * cos (INR (snd (nth i lab (0, 0)%nat)) * nth (fst (nth i lab (0, 0)%nat)) x 0)
     + nth (1 + length lab + i) b 0 * sin (INR (snd (nth i lab (0, 0)%nat)) * nth (fst (nth i lab (0, 0)%nat)) x 0)) (seq 0 (length lab))) + nth 0 b 0 * nth 0 (cc_row p o' x) 0)).
  - intros x. rewrite trig_poly_nth. fold lab. unfold sumn, cc_row. cbn [nth]. lra.
  - apply spans_lin; [|apply spans_unit; lia].
    apply (spans_sum p o' (fun i x => nth (1 + i) b 0 * cos (INR (snd (nth i lab (0, 0)%nat)) * nth (fst (nth i lab (0, 0)%nat)) x 0)
     + nth (1 + length lab + i) b 0 * sin (INR (snd (nth i lab (0, 0)%nat)) * nth (fst (nth i lab (0, 0)%nat)) x 0))).
    intros i Hi. apply in_seq in Hi.
    assert (Hin : In (fst (nth i lab (0, 0)%nat), snd (nth i lab (0, 0)%nat)) (cc_labels p o')).
    { assert (K : In (nth i lab (0, 0)%nat) lab) by (apply nth_In; lia). rewrite (surjective_pairing (nth i lab (0, 0)%nat)) in K. unfold lab in K at 3. apply in_labels in K. apply in_labels. fold lab in K. lia. }
    destruct (spans_label p o' _ _ Hin) as [Kc Ks]. apply (spans_lin p o' _ _ _ (spans_scal p o' _ _ Kc) Ks).
Qed.
Lemma cc_nested lstsq inv pinv chi2 theta p rows order order' level c c' :
  right_lstsq lstsq -> cc_data theta p rows -> (order <= order')%Z ->
  CCRegression lstsq inv pinv chi2 None None (Some (map Fin theta)) (Some (X2 p (map (map Fin) rows))) order level = Ok c ->
  CCRegression lstsq inv pinv chi2 None None (Some (map Fin theta)) (Some (X2 p (map (map Fin) rows))) order' level = Ok c' ->
  exists rho rho', cc_rho c = Fin rho /\ cc_rho c' = Fin rho' /\ rho <= rho'.
Proof.
  intros H D Ho E E'. pose proof D as (El & Hr & Hp).
  destruct (cc_rho_spec _ _ _ _ _ _ _ _ _ _ H D E) as (rho & Er & Hrho & Q). destruct (cc_rho_spec _ _ _ _ _ _ _ _ _ _ H D E') as (rho' & Er' & Hrho' & Q').
  destruct (cc_least_squares _ _ _ _ _ _ _ _ _ _ H D E) as (Lc & Ls & _). destruct (cc_least_squares _ _ _ _ _ _ _ _ _ _ H D E') as (Lc' & Ls' & Mn').
  destruct (cc_inv _ _ _ _ _ _ _ _ _ _ Hp E) as (Ho1 & _ & _ & _ & _ & Eb & _). destruct (cc_inv _ _ _ _ _ _ _ _ _ _ Hp E') as (_ & _ & _ & _ & _ & Eb' & _).
  rewrite Eb' in *. rewrite Eb in *. rewrite labels_length in *.
  destruct (spans_mono p (Z.to_nat order) (Z.to_nat order') (cc_cos c) ltac:(lia) Lc) as (b1 & Lb1 & Hb1).
  destruct (spans_mono p (Z.to_nat order) (Z.to_nat order') (cc_sin c) ltac:(lia) Ls) as (b2 & Lb2 & Hb2).
  destruct (Mn' b1 Lb1) as [A1 _]. destruct (Mn' b2 Lb2) as [_ A2].
  assert (T1 : trig_rss (cc_labels p (Z.to_nat order')) cos (combine theta rows) b1 = trig_rss (cc_labels p (Z.to_nat order)) cos (combine theta rows) (cc_cos c)) by (apply Rsum_map_ext; intros; now rewrite Hb1).
  assert (T2 : trig_rss (cc_labels p (Z.to_nat order')) sin (combine theta rows) b2 = trig_rss (cc_labels p (Z.to_nat order)) sin (combine theta rows) (cc_sin c)) by (apply Rsum_map_ext; intros; now rewrite Hb2).
  exists rho, rho'. split; [exact Er|]. split; [exact Er'|].
  assert (0 < INR (length theta)) by (apply lt_0_INR; rewrite El; destruct rows; [congruence|cbn; lia]).
  assert (1 - rho' ^ 2 <= 1 - rho ^ 2) by (apply (Rmult_le_reg_l (INR (length theta))); lra). nra.
Qed.
