(** Circular-linear correlation. *)
From Verif Require Import Prelude CircleSpec NpModel NpProofs UtilsModel UtilsProofs DescModel DescSpec DescProofs DescApi DescApi2
  HypMultiModel HypMulti2Model HypMulti4Proofs CorrModel CorrSpec CorrProofs Corr2Proofs Corr4Proofs.

Definition Mn (f : R * R -> R) (P : list (R * R)) : R := mean (map f P).
(** Sum of products of deviations. *)
Definition SP (f g : R * R -> R) (P : list (R * R)) : R := Rsum (map (fun p => (f p - Mn f P) * (g p - Mn g P)) P).
Definition fc (p : R * R) : R := cos (fst p).
Definition fs (p : R * R) : R := sin (fst p).
Definition fx (p : R * R) : R := snd p.
Lemma SP_sym f g P : SP f g P = SP g f P.
Proof. unfold SP. apply Rsum_map_ext. intros; ring. Qed.
Lemma SP_nonneg f P : 0 <= SP f f P.
Proof. unfold SP. apply Rsum_map_nonneg. intros p _. apply Rle_0_sqr. Qed.
Lemma SP_centre f P : P <> [] -> Rsum (map (fun p => f p - Mn f P) P) = 0.
Proof.
  intros N. rewrite Rsum_map_minus, Rsum_map_const. unfold Mn, mean. rewrite map_length. field.
  apply not_0_INR. destruct P; [congruence|discriminate].
Qed.
Lemma cov1_SP f g P : cov1 (map f P) (map g P) = SP f g P / (INR (length P) - 1).
Proof. unfold cov1. rewrite map2_map, map_length. reflexivity. Qed.
Lemma corrcoef_SP f g P : (2 <= length P)%nat -> corrcoef (map f P) (map g P) =
  if Reqb (SP f f P) 0 || Reqb (SP g g P) 0 then NaN else Fin (SP f g P / sqrt (SP f f P * SP g g P)).
Proof.
  intros L. unfold corrcoef, var1. rewrite !cov1_SP.
  assert (N : 0 < INR (length P) - 1). { assert (INR 2 <= INR (length P)) by (apply le_INR; auto). simpl in H. lra. }
  set (n := INR (length P) - 1) in *. clearbody n.
  assert (Z : forall a, Reqb (a / n) 0 = Reqb a 0).
  { intros a. destruct (Reqb_spec a 0) as [E|E]; destruct (Reqb_spec (a / n) 0) as [E'|E']; auto.
    - exfalso. apply E'. rewrite E; unfold Rdiv; ring.
    - exfalso. apply E. apply Rmult_eq_reg_r with (/ n); [rewrite Rmult_0_l; auto|apply Rinv_neq_0_compat; lra]. }
  rewrite !Z. destruct (Reqb_spec (SP f f P) 0), (Reqb_spec (SP g g P) 0); cbn [orb]; auto.
  f_equal. pose proof (SP_nonneg f P). pose proof (SP_nonneg g P).
  assert (Q : 0 < SP f f P * SP g g P) by nra.
  replace (SP f f P / n * (SP g g P / n)) with (SP f f P * SP g g P / (n * n)) by (field; lra).
  rewrite sqrt_div_alt by nra. rewrite sqrt_square by lra. field. split; [apply Rgt_not_eq, sqrt_lt_R0; auto|lra].
Qed.
Lemma corrcl_core ccdf x b :
  circ_corrcl ccdf x b =
  if Nat.eqb (length (angles x)) (length b) && Nat.leb 3 (length (angles x)) then
    let P := combine (angles x) b in
    let A := SP fc fc P in let B := SP fs fs P in let X := SP fx fx P in
    if Reqb A 0 || Reqb B 0 then Ok (NaN, NaN)
    else
      let rcs := SP fs fc P / sqrt (B * A) in
      if isclose (1 - rcs ^ 2) 0 then Err ValueError
      else if Reqb X 0 then Ok (NaN, NaN)
      else
        let rxc := SP fc fx P / sqrt (A * X) in
        let rxs := SP fx fs P / sqrt (X * B) in
        let r := sqrt (Rmax ((rxc ^ 2 + rxs ^ 2 - 2 * rxc * rxs * rcs) / (1 - rcs ^ 2)) 0) in
        Ok (Fin r, Fin (1 - ccdf (INR (length (angles x)) * r ^ 2)))
  else Err ValueError.
Proof.
  assert (core : forall a, (if negb (Nat.eqb (length a) (length b)) then Err ValueError
  else if Nat.ltb (length a) 3 then Err ValueError
  else
    let rxc := corrcoef (map cos a) b in
    let rxs := corrcoef b (map sin a) in
    match corrcoef (map sin a) (map cos a) with
    | Fin rcs =>
        let den := 1 - rcs ^ 2 in
        if isclose den 0 then Err ValueError
        else match rxc, rxs with
             | Fin rxc, Fin rxs =>
                 let num := rxc ^ 2 + rxs ^ 2 - 2 * rxc * rxs * rcs in
                 let r := sqrt (Rmax (num / den) 0) in
                 Ok (Fin r, Fin (1 - ccdf (INR (length a) * r ^ 2)))
             | _, _ => Ok (NaN, NaN)
             end
    | _ => Ok (NaN, NaN)
    end) = if Nat.eqb (length a) (length b) && Nat.leb 3 (length a) then
    let P := combine a b in
    let A := SP fc fc P in let B := SP fs fs P in let X := SP fx fx P in
    if Reqb A 0 || Reqb B 0 then Ok (NaN, NaN)
    else
      let rcs := SP fs fc P / sqrt (B * A) in
      if isclose (1 - rcs ^ 2) 0 then Err ValueError
      else if Reqb X 0 then Ok (NaN, NaN)
      else
        let rxc := SP fc fx P / sqrt (A * X) in
        let rxs := SP fx fs P / sqrt (X * B) in
        let r := sqrt (Rmax ((rxc ^ 2 + rxs ^ 2 - 2 * rxc * rxs * rcs) / (1 - rcs ^ 2)) 0) in
        Ok (Fin r, Fin (1 - ccdf (INR (length a) * r ^ 2)))
  else Err ValueError).
  { intros a. destruct (Nat.eqb_spec (length a) (length b)) as [E|E]; cbn [negb andb]; auto.
    destruct (Nat.ltb_spec (length a) 3); destruct (Nat.leb_spec 3 (length a)); try lia; auto.
    cbv zeta. rewrite (map_on_fst cos a b E), (map_on_fst sin a b E).
    assert (Eb : b = map fx (combine a b)) by (rewrite <- (map_snd_combine a b E) at 1; reflexivity).
    assert (L2 : (2 <= length (combine a b))%nat) by (rewrite combine_length; lia).
    replace (corrcoef (map (fun p => cos (fst p)) (combine a b)) b) with (corrcoef (map fc (combine a b)) (map fx (combine a b))) by (rewrite <- Eb; reflexivity).
    replace (corrcoef b (map (fun p => sin (fst p)) (combine a b))) with (corrcoef (map fx (combine a b)) (map fs (combine a b))) by (rewrite <- Eb; reflexivity).
    change (map (fun p : R * R => sin (fst p)) (combine a b)) with (map fs (combine a b)).
    change (map (fun p : R * R => cos (fst p)) (combine a b)) with (map fc (combine a b)).
    clear Eb. set (P := combine a b) in *. rewrite !corrcoef_SP by auto.
    destruct (Reqb_spec (SP fs fs P) 0) as [B0|B0], (Reqb_spec (SP fc fc P) 0) as [A0|A0]; cbn [orb]; auto.
    destruct (isclose _ 0); auto. destruct (Reqb_spec (SP fx fx P) 0) as [X0|X0]; cbn [orb]; auto. }
  unfold circ_corrcl. destruct x as [[|a0 a]|a ?]; cbn [coerce_angles bind angles fst].
  - destruct b; reflexivity.
  - apply core.
  - apply core.
Qed.
(** Residual sum of squares in terms of the sums of products. *)
Definition qf (A B D U V X p q : R) : R := X - 2 * p * U - 2 * q * V + p ^ 2 * A + 2 * p * q * D + q ^ 2 * B.
Lemma rss_qf c p q P : P <> [] ->
  rss c p q P = qf (SP fc fc P) (SP fs fs P) (SP fs fc P) (SP fc fx P) (SP fx fs P) (SP fx fx P) p q
    + INR (length P) * (Mn fx P - c - p * Mn fc P - q * Mn fs P) ^ 2.
Proof.
  intros N. set (k := Mn fx P - c - p * Mn fc P - q * Mn fs P).
  unfold rss. rewrite (Rsum_map_ext _ (fun o =>
      (fx o - Mn fx P) * (fx o - Mn fx P) - 2 * p * ((fc o - Mn fc P) * (fx o - Mn fx P)) - 2 * q * ((fx o - Mn fx P) * (fs o - Mn fs P))
      + p ^ 2 * ((fc o - Mn fc P) * (fc o - Mn fc P)) + 2 * p * q * ((fs o - Mn fs P) * (fc o - Mn fc P)) + q ^ 2 * ((fs o - Mn fs P) * (fs o - Mn fs P))
      + k ^ 2 + 2 * k * (fx o - Mn fx P) - 2 * k * p * (fc o - Mn fc P) - 2 * k * q * (fs o - Mn fs P))).
  - unfold qf. rewrite !Rsum_map_minus, !Rsum_map_plus, !Rsum_map_minus, !Rsum_map_scal, Rsum_map_const.
    rewrite !Rsum_map_plus, !Rsum_map_scal || idtac.
    rewrite !SP_centre by auto. unfold SP. ring.
  - intros o _. unfold k, fx, fc, fs. ring.
Qed.
Lemma qf_min A B D U V X p q : 0 < A -> 0 < A * B - D ^ 2 ->
  qf A B D U V X p q = X - (B * U ^ 2 - 2 * U * V * D + A * V ^ 2) / (A * B - D ^ 2)
   + (A * (p - (B * U - D * V) / (A * B - D ^ 2)) + D * (q - (A * V - D * U) / (A * B - D ^ 2))) ^ 2 / A
   + (A * B - D ^ 2) / A * (q - (A * V - D * U) / (A * B - D ^ 2)) ^ 2.
Proof. intros HA HE. unfold qf. field. lra. Qed.
Lemma quad_nonneg A B D U V : 0 < A -> 0 < A * B - D ^ 2 -> 0 <= B * U ^ 2 - 2 * U * V * D + A * V ^ 2.
Proof.
  intros HA HE. assert (H : 0 <= A * (B * U ^ 2 - 2 * U * V * D + A * V ^ 2)).
  { replace (A * (B * U ^ 2 - 2 * U * V * D + A * V ^ 2)) with ((A * V - D * U) ^ 2 + (A * B - D ^ 2) * U ^ 2) by ring.
    apply Rplus_le_le_0_compat; [apply pow2_ge_0|apply Rmult_le_pos; [lra|apply pow2_ge_0]]. }
  destruct (Rle_dec 0 (B * U ^ 2 - 2 * U * V * D + A * V ^ 2)); auto. exfalso. nra.
Qed.
(** The returned value. *)
Lemma corrcl_value A B D U V X : 0 < A -> 0 < B -> 0 < X -> 0 < A * B - D ^ 2 ->
  let rcs := D / sqrt (B * A) in let rxc := U / sqrt (A * X) in let rxs := V / sqrt (X * B) in
  (rxc ^ 2 + rxs ^ 2 - 2 * rxc * rxs * rcs) / (1 - rcs ^ 2) =
  (B * U ^ 2 - 2 * U * V * D + A * V ^ 2) / (X * (A * B - D ^ 2)).
Proof.
  intros HA HB HX HE rcs rxc rxs. unfold rcs, rxc, rxs.
  rewrite !sqrt_mult by lra.
  pose proof (sqrt_lt_R0 _ HA) as SA. pose proof (sqrt_lt_R0 _ HB) as SB. pose proof (sqrt_lt_R0 _ HX) as SX.
  pose proof (sqrt_sqrt A ltac:(lra)) as EA. pose proof (sqrt_sqrt B ltac:(lra)) as EB. pose proof (sqrt_sqrt X ltac:(lra)) as EX.
  set (a := sqrt A) in *. set (b := sqrt B) in *. set (x := sqrt X) in *. clearbody a b x. subst A B X.
  field. repeat split; try lra; nra.
Qed.
Lemma den_det A B D : 0 < A -> 0 < B -> 1 - (D / sqrt (B * A)) ^ 2 = (A * B - D ^ 2) / (A * B).
Proof.
  intros HA HB. unfold Rdiv. rewrite Rpow_mult_distr, pow_inv, pow2_sqrt by (try (apply Rgt_not_eq, sqrt_lt_R0); nra).
  field. split; lra.
Qed.
Lemma corrcl_ok ccdf x b v pv r : circ_corrcl ccdf x b = Ok (v, pv) -> v = Fin r ->
  let P := combine (angles x) b in
  let A := SP fc fc P in let B := SP fs fs P in let X := SP fx fx P in let D := SP fs fc P in
  let U := SP fc fx P in let V := SP fx fs P in
  length (angles x) = length b /\ (3 <= length b)%nat /\ 0 < A /\ 0 < B /\ 0 < X /\ 0 < A * B - D ^ 2 /\
  0 <= r /\ r ^ 2 = (B * U ^ 2 - 2 * U * V * D + A * V ^ 2) / (X * (A * B - D ^ 2)) /\
  pv = Fin (1 - ccdf (INR (length b) * r ^ 2)).
Proof.
  rewrite corrcl_core. destruct (Nat.eqb_spec (length (angles x)) (length b)) as [E|E]; cbn [andb]; [|discriminate].
  destruct (Nat.leb_spec 3 (length (angles x))) as [L|L]; [|discriminate]. cbv zeta.
  set (P := combine (angles x) b). pose proof (SP_nonneg fc P) as HA. pose proof (SP_nonneg fs P) as HB. pose proof (SP_nonneg fx P) as HX.
  pose proof (cauchy (fun p => fs p - Mn fs P) (fun p => fc p - Mn fc P) P) as CS.
  rewrite (Rsum_map_ext (fun x => (fs x - Mn fs P) ^ 2) (fun x => (fs x - Mn fs P) * (fs x - Mn fs P))) in CS by (intros; ring).
  rewrite (Rsum_map_ext (fun x => (fc x - Mn fc P) ^ 2) (fun x => (fc x - Mn fc P) * (fc x - Mn fc P))) in CS by (intros; ring).
  fold (SP fs fc P) in CS. fold (SP fs fs P) in CS. fold (SP fc fc P) in CS.
  set (A := SP fc fc P) in *. set (B := SP fs fs P) in *. set (X := SP fx fx P) in *. set (D := SP fs fc P) in *.
  set (U := SP fc fx P). set (V := SP fx fs P). clearbody A B X D U V.
  destruct (Reqb_spec A 0); cbn [orb]; [congruence|]. destruct (Reqb_spec B 0); [congruence|].
  rewrite (den_det A B D) by lra.
  destruct (isclose _ 0) eqn:I; [discriminate|].
  assert (AB : 0 < A * B) by nra.
  apply isclose0_false in I. 2:{ unfold Rdiv. apply Rmult_le_pos; [nra|left; apply Rinv_0_lt_compat; auto]. }
  assert (DE : 0 < A * B - D ^ 2).
  { destruct (Req_dec (A * B - D ^ 2) 0) as [Z|Z]; [rewrite Z in I; unfold Rdiv in I; rewrite Rmult_0_l in I; lra|nra]. }
  destruct (Reqb_spec X 0); [congruence|]. rewrite <- (den_det A B D) by lra.
  rewrite (corrcl_value A B D U V X) by lra.
  assert (Q0 : 0 <= (B * U ^ 2 - 2 * U * V * D + A * V ^ 2) / (X * (A * B - D ^ 2))).
  { unfold Rdiv. apply Rmult_le_pos; [apply quad_nonneg; lra|left; apply Rinv_0_lt_compat; nra]. }
  rewrite Rmax_left by lra. intros H Hr. rewrite Hr in H.
  assert (Er : r = sqrt ((B * U ^ 2 - 2 * U * V * D + A * V ^ 2) / (X * (A * B - D ^ 2)))) by congruence.
  assert (Ep : pv = Fin (1 - ccdf (INR (length (angles x)) * r ^ 2))) by congruence. clear H Hr.
  rewrite Er at 1 2. rewrite pow2_sqrt by auto. rewrite <- E.
  split; [auto|]. split; [auto|]. repeat split; try lra. - apply sqrt_pos. - exact Ep.
Qed.
(** r^2 is the share of the sum of squares explained by the best sinusoid. *)
Definition tss (P : list (R * R)) : R := SP fx fx P.
Lemma corrcl_explained ccdf x b pv r : circ_corrcl ccdf x b = Ok (Fin r, pv) ->
  let P := combine (angles x) b in
  0 <= r <= 1 /\ 0 < tss P /\ (forall c p q, (1 - r ^ 2) * tss P <= rss c p q P) /\
  exists c p q, rss c p q P = (1 - r ^ 2) * tss P.
Proof.
  intros H. destruct (corrcl_ok ccdf x b _ pv r H eq_refl) as (E & L & HA & HB & HX & HD & R0 & R2 & _).
  cbv zeta. set (P := combine (angles x) b) in *.
  assert (N : P <> []) by (unfold P; apply combine_nonempty_3 || (destruct (angles x), b; cbn in *; try lia; discriminate)).
  unfold tss.
  assert (G : forall c p q, rss c p q P = (1 - r ^ 2) * SP fx fx P
    + (SP fc fc P * (p - (SP fs fs P * SP fc fx P - SP fs fc P * SP fx fs P) / (SP fc fc P * SP fs fs P - SP fs fc P ^ 2)) + SP fs fc P * (q - (SP fc fc P * SP fx fs P - SP fs fc P * SP fc fx P) / (SP fc fc P * SP fs fs P - SP fs fc P ^ 2))) ^ 2 / SP fc fc P
    + (SP fc fc P * SP fs fs P - SP fs fc P ^ 2) / SP fc fc P * (q - (SP fc fc P * SP fx fs P - SP fs fc P * SP fc fx P) / (SP fc fc P * SP fs fs P - SP fs fc P ^ 2)) ^ 2
    + INR (length P) * (Mn fx P - c - p * Mn fc P - q * Mn fs P) ^ 2).
  { intros c p q. rewrite rss_qf, qf_min by auto. rewrite R2. 
    set (A := SP fc fc P) in *. set (B := SP fs fs P) in *. set (X := SP fx fx P) in *. set (D := SP fs fc P) in *.
    set (U := SP fc fx P) in *. set (V := SP fx fs P) in *. clearbody A B X D U V.
    f_equal. f_equal. f_equal. field. split; lra. }
  assert (LB : forall c p q, (1 - r ^ 2) * SP fx fx P <= rss c p q P).
  { intros c p q. rewrite G. 
    set (A := SP fc fc P) in *. set (B := SP fs fs P) in *. set (D := SP fs fc P) in *.
    assert (0 <= (A * (p - (B * SP fc fx P - D * SP fx fs P) / (A * B - D ^ 2)) + D * (q - (A * SP fx fs P - D * SP fc fx P) / (A * B - D ^ 2))) ^ 2 / A)
      by (unfold Rdiv; apply Rmult_le_pos; [apply pow2_ge_0|left; apply Rinv_0_lt_compat; auto]).
    assert (0 <= (A * B - D ^ 2) / A * (q - (A * SP fx fs P - D * SP fc fx P) / (A * B - D ^ 2)) ^ 2)
      by (apply Rmult_le_pos; [unfold Rdiv; apply Rmult_le_pos; [lra|left; apply Rinv_0_lt_compat; auto]|apply pow2_ge_0]).
    assert (0 <= INR (length P) * (Mn fx P - c - p * Mn fc P - q * Mn fs P) ^ 2) by (apply Rmult_le_pos; [apply pos_INR|apply pow2_ge_0]).
    lra. }
  assert (EX : exists c p q, rss c p q P = (1 - r ^ 2) * SP fx fx P).
  { exists (Mn fx P - (SP fs fs P * SP fc fx P - SP fs fc P * SP fx fs P) / (SP fc fc P * SP fs fs P - SP fs fc P ^ 2) * Mn fc P
      - (SP fc fc P * SP fx fs P - SP fs fc P * SP fc fx P) / (SP fc fc P * SP fs fs P - SP fs fc P ^ 2) * Mn fs P),
      ((SP fs fs P * SP fc fx P - SP fs fc P * SP fx fs P) / (SP fc fc P * SP fs fs P - SP fs fc P ^ 2)),
      ((SP fc fc P * SP fx fs P - SP fs fc P * SP fc fx P) / (SP fc fc P * SP fs fs P - SP fs fc P ^ 2)).
    rewrite G. field. split; lra. }
  split; [|auto]. split; auto.
  destruct EX as (c & p & q & EX). assert (0 <= rss c p q P) by (apply Rsum_map_nonneg; intros; apply pow2_ge_0).
  assert (0 <= 1 - r ^ 2). { destruct (Rle_dec 0 (1 - r ^ 2)); auto. exfalso. nra. } nra.
Qed.
Lemma corrcl_unique ccdf x b x' b' r pv r' pv' s :
  circ_corrcl ccdf x b = Ok (Fin r, pv) -> circ_corrcl ccdf x' b' = Ok (Fin r', pv') -> 0 < s ->
  tss (combine (angles x') b') = s * tss (combine (angles x) b) ->
  (forall c p q, exists c' p' q', rss c' p' q' (combine (angles x') b') = s * rss c p q (combine (angles x) b)) ->
  (forall c' p' q', exists c p q, rss c' p' q' (combine (angles x') b') = s * rss c p q (combine (angles x) b)) ->
  length b' = length b -> r = r' /\ pv = pv'.
Proof.
  intros H H' S T1 F G L.
  pose proof (corrcl_ok _ _ _ _ _ _ H eq_refl) as (_ & _ & _ & _ & _ & _ & _ & _ & E1).
  pose proof (corrcl_ok _ _ _ _ _ _ H' eq_refl) as (_ & _ & _ & _ & _ & _ & _ & _ & E2).
  destruct (corrcl_explained _ _ _ _ _ H) as (R0 & T0 & M & c & p & q & A).
  destruct (corrcl_explained _ _ _ _ _ H') as (R0' & T0' & M' & c' & p' & q' & A').
  set (P := combine (angles x) b) in *. set (P' := combine (angles x') b') in *.
  assert (Q : r = r').
  { destruct (F c p q) as (c1 & p1 & q1 & F1). destruct (G c' p' q') as (c2 & p2 & q2 & G1).
    pose proof (M' c1 p1 q1) as M1. pose proof (M c2 p2 q2) as M2. rewrite F1, A, T1 in M1. rewrite A', T1 in G1.
    assert (E : s * tss P * r ^ 2 = s * tss P * r' ^ 2) by nra.
    apply Rmult_eq_reg_l in E; [|nra]. nra. }
  split; auto. subst r'. rewrite E1, E2, L. reflexivity.
Qed.
Definition rel_obs (e t k m : R) (o o' : R * R) : Prop := img e t (fst o) (fst o') /\ snd o' = k * snd o + m.
Lemma Rsum_F2 {A B} (Q : A -> B -> Prop) (f : A -> R) (g : B -> R) l l' : Forall2 Q l l' -> (forall x y, Q x y -> f x = g y) ->
  Rsum (map f l) = Rsum (map g l').
Proof. intros H E. induction H; cbn [map]; auto. rewrite !Rsum_cons. rewrite (E _ _ H), IHForall2. reflexivity. Qed.
Lemma img_cos1 e t x x' : e = 1 \/ e = -1 -> img e t x x' -> cos x = cos (x' - t) /\ sin x = e * sin (x' - t).
Proof.
  intros E H. assert (S : same_dir (e * x) (x' - t)).
  { replace (e * x) with (e * x + t - t) by ring. apply same_dir_sub; [exact H|apply same_dir_refl]. }
  rewrite <- (same_dir_cos _ _ S), <- (same_dir_sin _ _ S). destruct E as [-> | ->].
  - rewrite !Rmult_1_l. auto.
  - replace (-1 * x) with (- x) by ring. rewrite cos_neg, sin_neg. split; ring.
Qed.
Lemma img_cos2 e t x x' : e = 1 \/ e = -1 -> img e t x x' -> cos x' = cos (e * x + t) /\ sin x' = sin (e * x + t).
Proof. intros E H. rewrite (same_dir_cos _ _ H), (same_dir_sin _ _ H). auto. Qed.
Lemma cos_ex e x t : e = 1 \/ e = -1 -> cos (e * x + t) = cos x * cos t - e * sin x * sin t /\ sin (e * x + t) = e * sin x * cos t + cos x * sin t.
Proof.
  intros [-> | ->]; rewrite cos_plus, sin_plus.
  - rewrite !Rmult_1_l. auto.
  - replace (-1 * x) with (- x) by ring. rewrite cos_neg, sin_neg. split; ring.
Qed.
Lemma rss_rel1 e t k m P P' : e = 1 \/ e = -1 -> Forall2 (rel_obs e t k m) P P' ->
  forall c p q, exists c' p' q', rss c' p' q' P' = k ^ 2 * rss c p q P.
Proof.
  intros E H c p q. exists (k * c + m), (k * (p * cos t - e * q * sin t)), (k * (p * sin t + e * q * cos t)).
  unfold rss. rewrite <- Rsum_map_scal. symmetry. apply (Rsum_F2 _ _ _ _ _ H).
  intros [x y] [x' y'] [I F]. cbn [fst snd] in *. destruct (img_cos1 _ _ _ _ E I) as [C S]. rewrite C, S, F, cos_minus, sin_minus. ring.
Qed.
Lemma rss_rel2 e t k m P P' : e = 1 \/ e = -1 -> k <> 0 -> Forall2 (rel_obs e t k m) P P' ->
  forall c' p' q', exists c p q, rss c' p' q' P' = k ^ 2 * rss c p q P.
Proof.
  intros E K H c p q. exists ((c - m) / k), ((p * cos t + q * sin t) / k), ((q * e * cos t - p * e * sin t) / k).
  unfold rss. rewrite <- Rsum_map_scal. symmetry. apply (Rsum_F2 _ _ _ _ _ H).
  intros [x y] [x' y'] [I F]. cbn [fst snd] in *. destruct (img_cos2 _ _ _ _ E I) as [C S]. destruct (cos_ex e x t E) as [C' S'].
  rewrite C, S, C', S', F. field. auto.
Qed.
Lemma rel_combine e t k m a a' b : Forall2 (img e t) a a' ->
  Forall2 (rel_obs e t k m) (combine a b) (combine a' (map (fun v => k * v + m) b)).
Proof. intros H. revert b. induction H; intros [|v b]; cbn; constructor; auto. split; auto. Qed.
Lemma SPF2 (f g f' g' : R * R -> R) kf kg mf mg P P' : P <> [] ->
  Forall2 (fun o o' => f' o' = kf * f o + mf /\ g' o' = kg * g o + mg) P P' -> SP f' g' P' = kf * kg * SP f g P.
Proof.
  intros N H. assert (L : length P = length P') by (apply F2_length in H; auto).
  assert (NZ : INR (length P') <> 0) by (rewrite <- L; apply not_0_INR; destruct P; [congruence|discriminate]).
  assert (Mf : Mn f' P' = kf * Mn f P + mf).
  { unfold Mn, mean. rewrite !map_length, L.
    rewrite <- (Rsum_F2 _ (fun o => kf * f o + mf) f' _ _ H) by (intros ? ? [F _]; auto).
    rewrite Rsum_map_plus, Rsum_map_scal, Rsum_map_const, L. field. auto. }
  assert (Mg : Mn g' P' = kg * Mn g P + mg).
  { unfold Mn, mean. rewrite !map_length, L.
    rewrite <- (Rsum_F2 _ (fun o => kg * g o + mg) g' _ _ H) by (intros ? ? [_ F]; auto).
    rewrite Rsum_map_plus, Rsum_map_scal, Rsum_map_const, L. field. auto. }
  unfold SP. rewrite <- Rsum_map_scal, Mf, Mg. symmetry. apply (Rsum_F2 _ _ _ _ _ H). intros ? ? [-> ->]. ring.
Qed.
Lemma tss_rel e t k m P P' : P <> [] -> Forall2 (rel_obs e t k m) P P' -> tss P' = k ^ 2 * tss P.
Proof.
  intros N H. unfold tss. rewrite (SPF2 fx fx fx fx k k m m P P' N); [ring|].
  clear N. induction H; constructor; auto. destruct H. split; auto.
Qed.
Lemma corrcl_rel ccdf x b x' e t k m r pv r' pv' : e = 1 \/ e = -1 -> k <> 0 -> Forall2 (img e t) (angles x) (angles x') ->
  circ_corrcl ccdf x b = Ok (Fin r, pv) -> circ_corrcl ccdf x' (map (fun v => k * v + m) b) = Ok (Fin r', pv') ->
  r = r' /\ pv = pv'.
Proof.
  intros E K F H H'. pose proof (rel_combine e t k m _ _ b F) as G.
  apply (corrcl_unique ccdf x b x' (map (fun v => k * v + m) b) r pv r' pv' (k ^ 2)); auto.
  - nra.
  - apply tss_rel with (e := e) (t := t) (m := m); auto.
    destruct (corrcl_ok _ _ _ _ _ _ H eq_refl) as (L & L3 & _). destruct (angles x), b; cbn in *; try lia; discriminate.
  - eapply rss_rel1; eauto.
  - eapply rss_rel2; eauto.
  - apply map_length.
Qed.
(** Reordering the observations. *)
Lemma SP_perm f g P P' : Permutation P P' -> SP f g P = SP f g P'.
Proof.
  intros H. unfold SP. assert (M : forall h, Mn h P = Mn h P').
  { intros h. unfold Mn, mean. rewrite !map_length, (Permutation_length H). f_equal. apply Rsum_perm, Permutation_map, H. }
  rewrite !M. apply Rsum_perm, Permutation_map, H.
Qed.
Lemma corrcl_perm ccdf x b x' b' : same_pairs (angles x) b (angles x') b' -> circ_corrcl ccdf x b = circ_corrcl ccdf x' b'.
Proof.
  intros (L & L' & H). rewrite !corrcl_core.
  assert (LL : length (angles x) = length (angles x')).
  { pose proof (Permutation_length H) as Q. rewrite !combine_length in Q. lia. }
  rewrite <- L, <- L', LL, !Nat.eqb_refl. cbn [andb]. destruct (Nat.leb 3 _); auto. cbv zeta.
  rewrite !(SP_perm _ _ _ _ H). reflexivity.
Qed.
(** When the angles are spread in every direction the call returns a number. *)
Lemma sumsq_dev_SP h P : sumsq_dev (map h P) = SP h h P.
Proof.
  unfold sumsq_dev, SP, Mn, mean. rewrite map_map. apply Rsum_map_ext. intros; ring.
Qed.
Lemma SP_dir d P : P <> [] -> SP (fun o => cos (fst o - d)) (fun o => cos (fst o - d)) P =
  SP fc fc P * cos d ^ 2 + 2 * SP fs fc P * cos d * sin d + SP fs fs P * sin d ^ 2.
Proof.
  intros N. assert (M : Mn (fun o => cos (fst o - d)) P = cos d * Mn fc P + sin d * Mn fs P).
  { unfold Mn, mean. rewrite !map_length. rewrite (Rsum_map_ext (fun o : R * R => cos (fst o - d)) (fun o => cos d * fc o + sin d * fs o)) by (intros; rewrite cos_minus; unfold fc, fs; ring).
    rewrite Rsum_map_plus, !Rsum_map_scal. unfold Rdiv; ring. }
  unfold SP at 1. rewrite (Rsum_map_ext _ (fun o => cos d ^ 2 * ((fc o - Mn fc P) * (fc o - Mn fc P)) + 2 * cos d * sin d * ((fs o - Mn fs P) * (fc o - Mn fc P)) + sin d ^ 2 * ((fs o - Mn fs P) * (fs o - Mn fs P)))).
  - rewrite !Rsum_map_plus, !Rsum_map_scal. unfold SP. ring.
  - intros o _. rewrite M, cos_minus. unfold fc, fs. ring.
Qed.
Lemma spread_total P : P <> [] -> SP fc fc P + SP fs fs P <= INR (length P).
Proof.
  intros N. assert (V : forall h, SP h h P = Rsum (map (fun o => h o ^ 2) P) - INR (length P) * Mn h P ^ 2).
  { intros h. unfold SP. rewrite (Rsum_map_ext _ (fun o => h o ^ 2 + (- (2 * Mn h P)) * h o + Mn h P ^ 2)) by (intros; ring).
    rewrite !Rsum_map_plus, Rsum_map_scal, Rsum_map_const.
    assert (E : Rsum (map h P) = INR (length P) * Mn h P). { unfold Mn, mean. rewrite map_length. field. apply not_0_INR. destruct P; [congruence|discriminate]. }
    rewrite E. ring. }
  rewrite !V. assert (E : Rsum (map (fun o => fc o ^ 2) P) + Rsum (map (fun o => fs o ^ 2) P) = INR (length P)).
  { rewrite <- Rsum_map_plus. rewrite (Rsum_map_ext _ (fun _ => 1)). rewrite Rsum_map_const. ring.
    intros o _. unfold fc, fs. pose proof (sin2_cos2 (fst o)). unfold Rsqr in *. lra. }
  assert (0 <= INR (length P) * Mn fc P ^ 2) by (apply Rmult_le_pos; [apply pos_INR|apply pow2_ge_0]).
  assert (0 <= INR (length P) * Mn fs P ^ 2) by (apply Rmult_le_pos; [apply pos_INR|apply pow2_ge_0]). lra.
Qed.
Lemma form_det A B D m : 0 <= m -> (forall d, m < A * cos d ^ 2 + 2 * D * cos d * sin d + B * sin d ^ 2) ->
  m < A /\ m < B /\ m * (A + B) / 2 <= A * B - D ^ 2.
Proof.
  intros M H. pose proof (H 0) as H0. rewrite cos_0, sin_0 in H0. pose proof (H (PI / 2)) as H1. rewrite cos_PI2, sin_PI2 in H1.
  assert (HA : m < A) by nra. assert (HB : m < B) by nra. split; auto. split; auto.
  assert (G : forall p q, p <> 0 \/ q <> 0 -> m * (p ^ 2 + q ^ 2) < A * p ^ 2 + 2 * D * p * q + B * q ^ 2).
  { intros p q N. pose proof (arctan2_polar q p N) as [Ep Eq]. pose proof (H (arctan2 q p)) as Hd.
    set (rho := sqrt (p * p + q * q)) in *. set (d := arctan2 q p) in *.
    assert (R1 : rho * rho = p ^ 2 + q ^ 2). { unfold rho. rewrite sqrt_sqrt by nra. ring. }
    assert (R2 : 0 < rho * rho). { rewrite R1. destruct N; nra. }
    replace (p ^ 2 + q ^ 2) with (rho * rho) by lra. 
    replace (A * p ^ 2 + 2 * D * p * q + B * q ^ 2) with (rho * rho * (A * cos d ^ 2 + 2 * D * cos d * sin d + B * sin d ^ 2)) by (rewrite Ep, Eq at 1; ring || (rewrite Ep at 1; rewrite Eq at 1; ring)).
    nra. }
  pose proof (G (- D) (A - m) ltac:(right; lra)) as K.
  assert (K2 : D ^ 2 < (A - m) * (B - m)).
  { assert (0 < (A - m) * ((A - m) * (B - m) - D ^ 2)) by nra.
    destruct (Rlt_dec (D ^ 2) ((A - m) * (B - m))); auto. exfalso. nra. }
  nra.
Qed.
Lemma corrcl_defined ccdf x b : length (angles x) = length b -> (3 <= length b)%nat -> 0 < sumsq_dev b ->
  spread (1 / 100000000 * INR (length b)) (angles x) -> exists r pv, circ_corrcl ccdf x b = Ok (Fin r, Fin pv).
Proof.
  intros L L3 X S. rewrite corrcl_core, L, Nat.eqb_refl. destruct (Nat.leb_spec 3 (length b)); [|lia]. cbn [andb]. cbv zeta.
  set (P := combine (angles x) b).
  assert (N : P <> []) by (unfold P; destruct (angles x), b; cbn in *; try lia; discriminate).
  assert (LP : length P = length b) by (unfold P; rewrite combine_length; lia).
  assert (X' : 0 < SP fx fx P). { rewrite <- sumsq_dev_SP. unfold fx, P. change (fun p : R * R => snd p) with (@snd R R). rewrite map_snd_combine by auto. auto. }
  assert (F : forall d, 1 / 100000000 * INR (length b) < SP fc fc P * cos d ^ 2 + 2 * SP fs fc P * cos d * sin d + SP fs fs P * sin d ^ 2).
  { intros d. rewrite <- SP_dir by auto. rewrite <- sumsq_dev_SP. specialize (S d).
    rewrite (map_on_fst (fun x => cos (x - d)) (angles x) b L) in S. exact S. }
  pose proof (spread_total P N) as T. rewrite LP in T.
  assert (n3 : 3 <= INR (length b)). { assert (INR 3 <= INR (length b)) by (apply le_INR; auto). simpl in H0. lra. }
  assert (M0 : 0 <= 1 / 100000000 * INR (length b)) by lra.
  destruct (form_det _ _ _ _ M0 F) as (HA & HB & HD).
  set (A := SP fc fc P) in *. set (B := SP fs fs P) in *. set (D := SP fs fc P) in *. set (n := INR (length b)) in *.
  assert (A0 : 0 < A) by nra. assert (B0 : 0 < B) by nra.
  destruct (Reqb_spec A 0); [lra|]. destruct (Reqb_spec B 0); [lra|]. cbn [orb].
  destruct (Reqb_spec (SP fx fx P) 0); [lra|].
  rewrite (den_det A B D) by auto.
  assert (AB : 0 < A * B) by nra.
  destruct (isclose ((A * B - D ^ 2) / (A * B)) 0) eqn:I; [|eauto].
  exfalso. apply isclose0_true in I. 2:{ unfold Rdiv. apply Rmult_le_pos; [nra|left; apply Rinv_0_lt_compat; auto]. }
  assert (Q : (A * B - D ^ 2) / (A * B) * (A * B) = A * B - D ^ 2) by (field; lra).
  assert (Z : 4 * (A * B) <= (A + B) ^ 2) by nra.
  assert (Z2 : (A + B) ^ 2 <= n * (A + B)) by nra.
  assert (Z3 : (A * B - D ^ 2) / (A * B) * (A * B) <= 1 / 100000000 * (A * B)) by (apply Rmult_le_compat_r; lra).
  rewrite Q in Z3. nra.
Qed.
Lemma spread_img e t m a a' : e = 1 \/ e = -1 -> Forall2 (img e t) a a' -> spread m a -> spread m a'.
Proof.
  intros E H S d. specialize (S (e * (d - t))).
  assert (Q : map (fun x => cos (x - d)) a' = map (fun x => cos (x - e * (d - t))) a).
  { clear S. induction H as [|x x' a a' I]; cbn; auto. f_equal; auto. destruct (img_cos2 _ _ _ _ E I) as [C _].
    assert (SD : same_dir (e * x + t - d) (x' - d)) by (apply same_dir_sub; [exact I|apply same_dir_refl]).
    rewrite <- (same_dir_cos _ _ SD). destruct E as [-> | ->].
    - f_equal; ring.
    - replace (-1 * x + t - d) with (- (x - -1 * (d - t))) by ring. apply cos_neg. }
  rewrite Q. exact S.
Qed.
(** API forms. *)
Lemma sumsq_tss (a : list R) x : length a = length x -> tss (combine a x) = sumsq_dev x.
Proof.
  intros L. unfold tss. rewrite <- sumsq_dev_SP. unfold fx. change (fun p : R * R => snd p) with (@snd R R). rewrite map_snd_combine by auto. reflexivity.
Qed.
Lemma cl_explained ccdf a x pv r : circ_corrcl ccdf a x = Ok (Fin r, pv) ->
  let P := combine (angles a) x in
  length (angles a) = length x /\ 0 <= r <= 1 /\ 0 < sumsq_dev x /\
  (forall c p q, (1 - r ^ 2) * sumsq_dev x <= rss c p q P) /\
  (exists c p q, rss c p q P = (1 - r ^ 2) * sumsq_dev x) /\
  pv = Fin (1 - ccdf (INR (length x) * r ^ 2)).
Proof.
  intros H. pose proof (corrcl_ok _ _ _ _ _ _ H eq_refl) as (L & _ & _ & _ & _ & _ & _ & _ & E).
  destruct (corrcl_explained _ _ _ _ _ H) as (A & B & C & D). cbv zeta. rewrite (sumsq_tss _ _ L) in *. auto 10.
Qed.
Lemma cl_invariant_values ccdf a a' x t k m r pv r' pv' : k <> 0 ->
  moved t (angles a) (angles a') \/ mirrored t (angles a) (angles a') ->
  circ_corrcl ccdf a x = Ok (Fin r, pv) -> circ_corrcl ccdf a' (map (fun v => k * v + m) x) = Ok (Fin r', pv') ->
  r = r' /\ pv = pv'.
Proof.
  intros K M H H'. destruct M as [M|M]; [apply moved_img in M|apply mirrored_img in M].
  - exact (corrcl_rel ccdf a x a' 1 t k m r pv r' pv' (or_introl eq_refl) K M H H').
  - exact (corrcl_rel ccdf a x a' (-1) t k m r pv r' pv' (or_intror eq_refl) K M H H').
Qed.
Lemma sumsq_affine k m x : x <> [] -> sumsq_dev (map (fun v => k * v + m) x) = k ^ 2 * sumsq_dev x.
Proof.
  intros N. assert (NZ : INR (length x) <> 0) by (apply not_0_INR; destruct x; [congruence|discriminate]).
  unfold sumsq_dev. rewrite map_map, <- Rsum_map_scal, map_length. apply Rsum_map_ext. intros v _.
  rewrite Rsum_map_plus, Rsum_map_scal, Rsum_map_const, map_id. field. auto.
Qed.
Lemma cl_invariant ccdf a a' x t k m : k <> 0 ->
  moved t (angles a) (angles a') \/ mirrored t (angles a) (angles a') ->
  length (angles a) = length x -> (3 <= length x)%nat -> 0 < sumsq_dev x -> spread (1 / 100000000 * INR (length x)) (angles a) ->
  circ_corrcl ccdf a' (map (fun v => k * v + m) x) = circ_corrcl ccdf a x.
Proof.
  intros K M L L3 X S. destruct (corrcl_defined ccdf a x L L3 X S) as (r & pv & H).
  assert (S' : spread (1 / 100000000 * INR (length x)) (angles a')).
  { destruct M as [M|M]; [apply moved_img in M|apply mirrored_img in M]; (eapply spread_img; [|exact M|exact S]); auto. }
  assert (L' : length (angles a') = length x) by (destruct M as [M|M]; apply F2_length in M; congruence).
  assert (X' : 0 < sumsq_dev (map (fun v => k * v + m) x)).
  { assert (Nx : x <> []) by (intros ->; cbn in L3; lia). rewrite (sumsq_affine k m x Nx). apply Rmult_lt_0_compat; [|exact X]. assert (0 < k * k) by nra. lra. }
  destruct (corrcl_defined ccdf a' (map (fun v => k * v + m) x)) as (r' & pv' & H'); try (rewrite ?map_length; auto).
  rewrite H, H'. destruct (cl_invariant_values _ _ _ _ _ _ _ _ _ _ _ K M H H') as [-> E]. rewrite E. reflexivity.
Qed.
