(** Property theorems for circular-circular regression (C173-C180). *)
From Coq Require Import String.
From Verif Require Import Prelude NpModel UtilsModel CircleSpec RegModel RegSpec RegProofs Reg2Proofs Reg3Proofs Reg4Proofs Reg5Proofs Reg6Proofs Reg7Proofs Reg8Proofs Reg9Proofs RegEx.

(** The data of these theorems: as many directions as rows of predictors, at least one, and
    every row of p numbers. *)
Example data_is_met : cc_data th12 1 x12 /\ cc_data thx 2 cross.
Proof. exact (conj (proj1 th12_data) cross_data). Qed.
Example oracles_exist : exists lstsq inv, right_lstsq lstsq /\ right_inv inv.
Proof. exact oracles. Qed.

(** ** C173: fitted directions and residuals *)
(** At each observation the fitted direction, in [0, 2 pi), is the direction of the two fitted
    polynomials (with the coefficients and the labels the object reports), the residual lies in
    (-pi, pi], and fitted direction and residual add up to the observed direction. *)
Theorem C173_directions : forall lstsq inv pinv chi2 theta p rows order level c,
  List.length theta = List.length rows -> (forall r, In r rows -> List.length r = p) ->
  CCRegression lstsq inv pinv chi2 None None (Some (map Fin theta)) (Some (X2 p (map (map Fin) rows))) order level = Ok c ->
  List.length (cc_fitted c) = List.length theta /\ List.length (cc_residuals c) = List.length theta /\
  forall i, (i < List.length theta)%nat ->
    let f := nth i (cc_fitted c) 0 in let r := nth i (cc_residuals c) 0 in let x := nth i rows [] in
    let C := trig_poly (cc_lab c) (cc_cos c) x in let S := trig_poly (cc_lab c) (cc_sin c) x in
    0 <= f < 2 * PI /\ - PI < r <= PI /\ same_dir (nth i theta 0) (f + r) /\
    C = sqrt (C * C + S * S) * cos f /\ S = sqrt (C * C + S * S) * sin f.
Proof. exact cc_directions. Qed.
Print Assumptions C173_directions.
(** The labels are every pair of a predictor and a harmonic up to the order, once. *)
Theorem C173_labels : forall lstsq inv pinv chi2 theta p rows order level c,
  (forall r, In r rows -> List.length r = p) ->
  CCRegression lstsq inv pinv chi2 None None (Some (map Fin theta)) (Some (X2 p (map (map Fin) rows))) order level = Ok c ->
  NoDup (cc_lab c) /\ List.length (cc_lab c) = (p * Z.to_nat order)%nat /\ forall j k, In (j, k) (cc_lab c) <-> (j < p)%nat /\ (1 <= k <= Z.to_nat order)%nat.
Proof.
  intros lstsq inv pinv chi2 theta p rows order level c Hp E. destruct (cc_inv _ _ _ _ _ _ _ _ _ _ Hp E) as (_ & _ & _ & _ & _ & -> & _).
  split; [apply labels_nodup|]. split; [apply labels_length|]. intros. apply in_labels.
Qed.
Print Assumptions C173_labels.

(** ** C174: least squares and rho *)
Theorem C174_least_squares : forall lstsq inv pinv chi2 theta p rows order level c,
  right_lstsq lstsq -> cc_data theta p rows ->
  CCRegression lstsq inv pinv chi2 None None (Some (map Fin theta)) (Some (X2 p (map (map Fin) rows))) order level = Ok c ->
  List.length (cc_cos c) = (1 + 2 * List.length (cc_lab c))%nat /\ List.length (cc_sin c) = (1 + 2 * List.length (cc_lab c))%nat /\
  forall b, List.length b = (1 + 2 * List.length (cc_lab c))%nat ->
    trig_rss (cc_lab c) cos (combine theta rows) (cc_cos c) <= trig_rss (cc_lab c) cos (combine theta rows) b /\
    trig_rss (cc_lab c) sin (combine theta rows) (cc_sin c) <= trig_rss (cc_lab c) sin (combine theta rows) b.
Proof. exact cc_least_squares. Qed.
Print Assumptions C174_least_squares.
(** rho^2 is one minus the mean squared distance between the observed and the fitted point. *)
Theorem C174_rho : forall lstsq inv pinv chi2 theta p rows order level c,
  right_lstsq lstsq -> cc_data theta p rows ->
  CCRegression lstsq inv pinv chi2 None None (Some (map Fin theta)) (Some (X2 p (map (map Fin) rows))) order level = Ok c ->
  exists rho, cc_rho c = Fin rho /\ 0 <= rho <= 1 /\
    INR (List.length theta) * (1 - rho ^ 2) =
    trig_rss (cc_lab c) cos (combine theta rows) (cc_cos c) + trig_rss (cc_lab c) sin (combine theta rows) (cc_sin c).
Proof. exact cc_rho_spec. Qed.
Print Assumptions C174_rho.
Example C174_value : forall lstsq inv pinv chi2, right_lstsq lstsq -> exists c rho,
  CCRegression lstsq inv pinv chi2 None None (Some (map Fin th12)) (Some (X2 1 (map (map Fin) x12))) 1 (1 / 20) = Ok c /\ cc_rho c = Fin rho /\ rho ^ 2 = 1 / 18.
Proof. exact th12_rho. Qed.

(** ** C175: turning, reflecting and reordering *)
(** The responses turned by d (and reflected if e = -1), each predictor turned by its own angle
    (and all reflected if e' = -1), angles written in any full turn: rho is the same, the fitted
    directions turn with the responses and the residuals are those of the responses - wherever
    the fitted point is not the origin. *)
Theorem C175_turned : forall lstsq inv pinv chi2 e d e' dx theta p rows theta' rows' order level c c',
  right_lstsq lstsq -> e = 1 \/ e = -1 -> e' = 1 \/ e' = -1 -> cc_data theta p rows -> cc_data theta' p rows' ->
  List.length theta' = List.length theta /\ List.length rows' = List.length rows /\
  (forall i, (i < List.length theta)%nat -> same_dir (nth i theta' 0) (e * nth i theta 0 + d) /\
     forall j, same_dir (nth j (nth i rows' []) 0) (e' * nth j (nth i rows []) 0 + dx j)) ->
  CCRegression lstsq inv pinv chi2 None None (Some (map Fin theta)) (Some (X2 p (map (map Fin) rows))) order level = Ok c ->
  CCRegression lstsq inv pinv chi2 None None (Some (map Fin theta')) (Some (X2 p (map (map Fin) rows'))) order level = Ok c' ->
  cc_rho c' = cc_rho c /\
  forall i, (i < List.length theta)%nat ->
    trig_poly (cc_lab c) (cc_cos c) (nth i rows []) <> 0 \/ trig_poly (cc_lab c) (cc_sin c) (nth i rows []) <> 0 ->
    same_dir (nth i (cc_fitted c') 0) (e * nth i (cc_fitted c) 0 + d) /\ same_dir (nth i (cc_residuals c') 0) (e * nth i (cc_residuals c) 0).
Proof. exact cc_moved. Qed.
Print Assumptions C175_turned.
Example C175_data : forall i, (i < 12)%nat -> same_dir (nth i th12r 0) (1 * nth i th12 0 + PI / 4) /\
  forall j, same_dir (nth j (nth i x12 []) 0) (1 * nth j (nth i x12 []) 0 + 0).
Proof. exact (proj2 (proj2 th12_moved)). Qed.
Theorem C175_reordered : forall lstsq inv pinv chi2 theta p rows theta' rows' order level c c',
  right_lstsq lstsq -> cc_data theta p rows -> cc_data theta' p rows' -> Permutation (combine theta rows) (combine theta' rows') ->
  CCRegression lstsq inv pinv chi2 None None (Some (map Fin theta)) (Some (X2 p (map (map Fin) rows))) order level = Ok c ->
  CCRegression lstsq inv pinv chi2 None None (Some (map Fin theta')) (Some (X2 p (map (map Fin) rows'))) order level = Ok c' ->
  cc_rho c' = cc_rho c.
Proof. exact cc_reordered. Qed.
Print Assumptions C175_reordered.

(** ** C176: a higher order never fits worse *)
Theorem C176_nested : forall lstsq inv pinv chi2 theta p rows order order' level c c',
  right_lstsq lstsq -> cc_data theta p rows -> (order <= order')%Z ->
  CCRegression lstsq inv pinv chi2 None None (Some (map Fin theta)) (Some (X2 p (map (map Fin) rows))) order level = Ok c ->
  CCRegression lstsq inv pinv chi2 None None (Some (map Fin theta)) (Some (X2 p (map (map Fin) rows))) order' level = Ok c' ->
  exists rho rho', cc_rho c = Fin rho /\ cc_rho c' = Fin rho' /\ rho <= rho'.
Proof. exact cc_nested. Qed.
Print Assumptions C176_nested.

(** ** C177: the test of the next harmonic *)
(** If the columns of the next order are independent at the observations, the p-values are those
    of the drop of the residual sum of squares to the next order, relative to the residual sum of
    squares of this order, scaled by n - (2 order + 1) (at least 1); the statistics are between 0
    and that factor. *)
Theorem C177_test : forall lstsq inv pinv chi2 theta p rows order level c c',
  right_lstsq lstsq -> right_inv inv -> cc_data theta p rows -> (0 < p)%nat ->
  CCRegression lstsq inv pinv chi2 None None (Some (map Fin theta)) (Some (X2 p (map (map Fin) rows))) order level = Ok c ->
  CCRegression lstsq inv pinv chi2 None None (Some (map Fin theta)) (Some (X2 p (map (map Fin) rows))) (order + 1) level = Ok c' ->
  independent (cc_lab c') rows ->
  let T := fun g b b' => let rss := trig_rss (cc_lab c) g (combine theta rows) b in
    INR (Nat.max (List.length theta - (2 * Z.to_nat order + 1)) 1) * (rss - trig_rss (cc_lab c') g (combine theta rows) b') / Rmax rss (/ 10 ^ 12) in
  cc_p c = Some (1 - chi2 (T cos (cc_cos c) (cc_cos c')) (2 * p)%nat, 1 - chi2 (T sin (cc_sin c) (cc_sin c')) (2 * p)%nat) /\
  (0 <= T cos (cc_cos c) (cc_cos c') <= INR (Nat.max (List.length theta - (2 * Z.to_nat order + 1)) 1)) /\
  (0 <= T sin (cc_sin c) (cc_sin c') <= INR (Nat.max (List.length theta - (2 * Z.to_nat order + 1)) 1)).
Proof. exact cc_test. Qed.
Print Assumptions C177_test.
Example C177_independent : independent (cc_labels 1 2) x12 /\ independent (cc_labels 2 2) cross.
Proof. split; [apply six_independent; intros x Hx; apply in_or_app; now left|exact cross_independent]. Qed.
(** The message goes by the level: "not significant" exactly when both p-values exceed it. *)
Theorem C177_message : forall lstsq inv pinv chi2 theta p rows order level c,
  cc_data theta p rows -> (0 < p)%nat ->
  CCRegression lstsq inv pinv chi2 None None (Some (map Fin theta)) (Some (X2 p (map (map Fin) rows))) order level = Ok c ->
  exists p1 p2, cc_p c = Some (p1, p2) /\
    (level < p1 /\ level < p2 -> cc_message c = NotSignificant) /\ (p1 <= level \/ p2 <= level -> cc_message c = Significant).
Proof.
  intros lstsq inv pinv chi2 theta p rows order level c D Hp E. destruct D as (_ & Hr & Hx).
  destruct (cc_inv _ _ _ _ _ _ _ _ _ _ Hx E) as (_ & _ & _ & _ & _ & _ & _ & _ & _ & Ep & Em).
  destruct (Nat.eqb_spec (List.length rows) 0) as [Z|_]; [destruct rows; [congruence|discriminate]|]. destruct (Nat.eqb_spec p 0) as [Z|_]; [lia|]. cbn [orb] in Ep. cbv zeta in Ep.
  eexists _, _. split; [exact Ep|]. rewrite Em, Ep. split.
  - intros [H1 H2]. destruct (Rltb_spec level (1 - chi2 (cc_T (cc_N inv pinv (List.length rows) (1 + 2 * (p * Z.to_nat order)) (2 * p) (design p (Z.to_nat order) rows) (map (cc_wrow p (Z.to_nat order)) rows)) (List.length rows) (Z.to_nat order) (vsub (map cos theta) (fitc lstsq p (Z.to_nat order) theta rows))) (2 * p)%nat)); [|lra].
    match goal with |- (if true && Rltb level ?x then _ else _) = _ => destruct (Rltb_spec level x) end; [reflexivity|lra].
  - intros H. match goal with |- (if Rltb level ?x && Rltb level ?y then _ else _) = _ => destruct (Rltb_spec level x); destruct (Rltb_spec level y) end; try reflexivity. lra.
Qed.
Print Assumptions C177_message.

(** ** C178: the verdict and the reference direction *)
(** The full statement - the verdict does not depend on the direction from which the responses
    are measured - is false: the same twelve directions turned by 45 degrees, at the default level
    0.05, are significant before and not after. *)
Theorem C178_refuted : forall lstsq inv pinv, right_lstsq lstsq -> right_inv inv -> exists theta theta' rows c c',
  cc_data theta 1 rows /\ (forall i, (i < List.length theta)%nat -> same_dir (nth i theta' 0) (nth i theta 0 + PI / 4)) /\ List.length theta' = List.length theta /\
  CCRegression lstsq inv pinv chi2_even None None (Some (map Fin theta)) (Some (X2 1 (map (map Fin) rows))) 1 (1 / 20) = Ok c /\
  CCRegression lstsq inv pinv chi2_even None None (Some (map Fin theta')) (Some (X2 1 (map (map Fin) rows))) 1 (1 / 20) = Ok c' /\
  cc_message c = Significant /\ cc_message c' = NotSignificant.
Proof. exact verdict_turns. Qed.
Print Assumptions C178_refuted.

(** ** C179: the degrees of freedom of the residuals *)
(** The full statement - the statistic is scaled by the number of observations less the number
    of coefficients of the fit - is false: with two predictors the factor is 6 instead of 4. *)
Theorem C179_refuted : forall lstsq inv pinv, right_lstsq lstsq -> right_inv inv -> exists theta rows c c',
  cc_data theta 2 rows /\ independent (cc_lab c') rows /\
  CCRegression lstsq inv pinv chi2_even None None (Some (map Fin theta)) (Some (X2 2 (map (map Fin) rows))) 1 (1 / 20) = Ok c /\
  CCRegression lstsq inv pinv chi2_even None None (Some (map Fin theta)) (Some (X2 2 (map (map Fin) rows))) 2 (1 / 20) = Ok c' /\
  let rss := trig_rss (cc_lab c) cos (combine theta rows) (cc_cos c) in
  let rss' := trig_rss (cc_lab c') cos (combine theta rows) (cc_cos c') in
  exists p1 p2, cc_p c = Some (p1, p2) /\
    p1 <> 1 - chi2_even (INR (Nat.max (List.length theta - List.length (cc_cos c)) 1) * (rss - rss') / Rmax rss (/ 10 ^ 12)) (2 * 2).
Proof. exact two_predictors. Qed.
Print Assumptions C179_refuted.
(** What holds: with one predictor it is.  Missing: more predictors. *)
Theorem C179_partial : forall lstsq inv pinv chi2 theta rows order level c c',
  right_lstsq lstsq -> right_inv inv -> cc_data theta 1 rows ->
  CCRegression lstsq inv pinv chi2 None None (Some (map Fin theta)) (Some (X2 1 (map (map Fin) rows))) order level = Ok c ->
  CCRegression lstsq inv pinv chi2 None None (Some (map Fin theta)) (Some (X2 1 (map (map Fin) rows))) (order + 1) level = Ok c' ->
  independent (cc_lab c') rows ->
  let T := fun g b b' => let rss := trig_rss (cc_lab c) g (combine theta rows) b in
    INR (Nat.max (List.length theta - List.length b) 1) * (rss - trig_rss (cc_lab c') g (combine theta rows) b') / Rmax rss (/ 10 ^ 12) in
  cc_p c = Some (1 - chi2 (T cos (cc_cos c) (cc_cos c')) 2%nat, 1 - chi2 (T sin (cc_sin c) (cc_sin c')) 2%nat).
Proof.
  intros lstsq inv pinv chi2 theta rows order level c c' Hl Hi D E E' I. destruct (cc_least_squares _ _ _ _ _ _ _ _ _ _ Hl D E) as (Lc & Ls & _).
  destruct (C173_labels _ _ _ _ _ _ _ _ _ _ (proj2 (proj2 D)) E) as (_ & LL & _). rewrite LL in Lc, Ls.
  cbv beta zeta. rewrite Lc, Ls. replace (1 + 2 * (1 * Z.to_nat order))%nat with (2 * Z.to_nat order + 1)%nat by lia.
  exact (proj1 (cc_test _ _ _ _ _ _ _ _ _ _ _ Hl Hi D ltac:(lia) E E' I)).
Qed.
Print Assumptions C179_partial.

(** ** C180: inputs *)
(** A fit of arrays is returned exactly when all values are numbers, the rows have one length,
    there are as many rows as directions, the order is positive and the level is inside (0, 1);
    otherwise ValueError is raised. *)
Theorem C180_arrays : forall lstsq inv pinv chi2 theta p rows order level,
  let good := numbers theta /\ (forall r, In r rows -> List.length r = p /\ numbers r) /\ List.length theta = List.length rows /\ (1 <= order)%Z /\ 0 < level < 1 in
  (good -> exists c, CCRegression lstsq inv pinv chi2 None None (Some theta) (Some (X2 p rows)) order level = Ok c) /\
  (~ good -> CCRegression lstsq inv pinv chi2 None None (Some theta) (Some (X2 p rows)) order level = Err ValueError).
Proof. exact cc_outcomes. Qed.
Print Assumptions C180_arrays.
(** One predictor may be passed as a plain vector. *)
Theorem C180_vector : forall lstsq inv pinv chi2 theta l order level,
  CCRegression lstsq inv pinv chi2 None None (Some theta) (Some (X1 l)) order level =
  CCRegression lstsq inv pinv chi2 None None (Some theta) (Some (X2 1 (map (fun x => [x]) l))) order level.
Proof. exact cc_one_dim. Qed.
Print Assumptions C180_vector.
(** A formula naming the columns of a table is the fit of those columns; theta and x are then
    ignored. *)
Theorem C180_formula : forall lstsq inv pinv chi2 d y xs theta rows t' x' order level,
  plain y /\ xs <> [] /\ Forall plain xs /\ List.length theta = List.length rows /\ (forall r, In r rows -> List.length r = List.length xs) /\
  column_is d y theta /\ (forall j name, nth_error xs j = Some name -> column_is d name (map (fun r => nth j r NaN) rows)) ->
  CCRegression lstsq inv pinv chi2 (Some (formula_text y xs)) (Some d) t' x' order level =
  CCRegression lstsq inv pinv chi2 None None (Some theta) (Some (X2 (List.length xs) rows)) order level.
Proof. exact cc_formula. Qed.
Print Assumptions C180_formula.
Open Scope string_scope.
Example C180_table : table_of [("y", [Fin 0; Fin 1]); ("a", [Fin 2; Fin 3]); ("b", [Fin 4; Fin 5])] "y" ["b"; "a"]
  [Fin 0; Fin 1] [[Fin 4; Fin 2]; [Fin 5; Fin 3]] /\ formula_text "y" ["b"; "a"] = "y ~ b + a".
Proof.
  split; [|reflexivity]. assert (P : forall s, In s ["y"; "a"; "b"] -> plain s).
  { intros s Hs. split; [intros ->; cbn in Hs; intuition discriminate|]. intros a Ha. cbn in Hs. destruct Hs as [<-|[<-|[<-|[]]]]; cbn in Ha; destruct Ha as [<-|[]]; (repeat split; try discriminate; right; cbn; lia). }
  split; [apply P; cbn; auto|]. split; [discriminate|]. split; [apply Forall_forall; intros s Hs; apply P; cbn in *; tauto|]. split; [reflexivity|].
  split; [intros r [<-|[<-|[]]]; reflexivity|]. split.
  - exists [], [("a", [Fin 2; Fin 3]); ("b", [Fin 4; Fin 5])]. split; [reflexivity|]. cbn. tauto.
  - intros [|[|j]] name H; cbn in H; [| |destruct j; discriminate]; injection H as <-.
    + exists [("y", [Fin 0; Fin 1]); ("a", [Fin 2; Fin 3])], []. split; [reflexivity|]. cbn. intuition discriminate.
    + exists [("y", [Fin 0; Fin 1])], [("b", [Fin 4; Fin 5])]. split; [reflexivity|]. cbn. intuition discriminate.
Qed.
