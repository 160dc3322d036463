(** Jammalamadaka-SenGupta correlation. *)
From Verif Require Import Prelude CircleSpec NpModel NpProofs UtilsModel UtilsProofs DescModel DescSpec DescProofs DescApi DescApi2
  Desc6Proofs HypMultiModel HypMulti2Model HypMulti4Proofs CorrModel CorrSpec CorrProofs Corr2Proofs.

Definition dev (m x : R) : R := sin (x - m).
Definition nan_corr (test : bool) : corr_result :=
  let t := if test then Some NaN else None in
  {| cr_r := NaN; cr_p_value := t; cr_reject := None; cr_test_stat := t |}.
Definition dsum (f : R * R -> R) (P : list (R * R)) : R := Rsum (map f P).
Definition js_body (ncdf : R -> R) (P : list (R * R)) (ma mb : R) (test : bool) : res corr_result :=
  let f p := dev ma (fst p) in
  let g p := dev mb (snd p) in
  let den := sqrt (dsum (fun p => f p ^ 2) P * dsum (fun p => g p ^ 2) P) in
  if isclose den 0 then Err ValueError
  else
    let r := dsum (fun p => f p * g p) P / den in
    if test then
      let n := INR (length P) in
      let l22 := dsum (fun p => f p ^ 2 * g p ^ 2) P / n in
      if isclose l22 0 then Err ValueError
      else
        let stat := sqrt n * sqrt (dsum (fun p => f p ^ 2) P / n * (dsum (fun p => g p ^ 2) P / n) / l22) * r in
        Ok {| cr_r := Fin r; cr_p_value := Some (Fin (2 * (1 - ncdf (Rabs stat))));
              cr_reject := None; cr_test_stat := Some (Fin stat) |}
    else Ok (plain_r r None).
Definition jsP (ncdf : R -> R) (P : list (R * R)) (test : bool) : res corr_result :=
  match circ_mean (map fst P) None, circ_mean (map snd P) None with
  | Fin ma, Fin mb => js_body ncdf P ma mb test
  | _, _ => Ok (nan_corr test)
  end.
Lemma js_core ncdf x y test strict :
  circ_corrcc_js ncdf x y test strict =
  if Nat.eqb (length (angles x)) (length (angles y)) && Nat.leb 2 (length (angles x))
  then jsP ncdf (combine (angles x) (angles y)) test else Err ValueError.
Proof.
  assert (core : forall a b : list R, (if negb (Nat.eqb (length a) (length b)) then Err ValueError
    else if Nat.ltb (length a) 2 then Err ValueError
    else match circ_mean a None, circ_mean b None with
    | Fin ma, Fin mb =>
        let Sa := map (fun x => sin (x - ma)) a in
        let Sb := map (fun x => sin (x - mb)) b in
        let sq l := map (fun x => x ^ 2) l in
        let num := Rsum (vmul Sa Sb) in
        let den := sqrt (Rsum (sq Sa) * Rsum (sq Sb)) in
        if isclose den 0 then Err ValueError
        else
          let r := num / den in
          if test then
            let l20 := mean (sq Sa) in
            let l02 := mean (sq Sb) in
            let l22 := mean (vmul (sq Sa) (sq Sb)) in
            if isclose l22 0 then Err ValueError
            else
              let stat := sqrt (INR (length a)) * sqrt (l20 * l02 / l22) * r in
              Ok {| cr_r := Fin r; cr_p_value := Some (Fin (2 * (1 - ncdf (Rabs stat))));
                    cr_reject := None; cr_test_stat := Some (Fin stat) |}
          else Ok {| cr_r := Fin r; cr_p_value := None; cr_reject := None; cr_test_stat := None |}
    | _, _ =>
        let t := if test then Some NaN else None in
        Ok {| cr_r := NaN; cr_p_value := t; cr_reject := None; cr_test_stat := t |}
    end) = if Nat.eqb (length a) (length b) && Nat.leb 2 (length a) then jsP ncdf (combine a b) test else Err ValueError).
  { intros a b. destruct (Nat.eqb_spec (length a) (length b)) as [E|E]; cbn [negb andb]; auto.
    destruct (Nat.ltb_spec (length a) 2); destruct (Nat.leb_spec 2 (length a)); try lia; auto.
    unfold jsP. rewrite map_fst_combine, map_snd_combine by auto.
    destruct (circ_mean a None) as [ma| | |], (circ_mean b None) as [mb| | |]; try reflexivity.
    unfold js_body. set (P := combine a b).
    assert (LP : length P = length a) by (unfold P; rewrite combine_length; lia).
    replace (map (fun x0 => sin (x0 - ma)) a) with (map (fun p => dev ma (fst p)) P)
      by (unfold P, dev; rewrite <- (map_fst_combine a b E) at 2; rewrite map_map; reflexivity).
    replace (map (fun x0 => sin (x0 - mb)) b) with (map (fun p => dev mb (snd p)) P)
      by (unfold P, dev; rewrite <- (map_snd_combine a b E) at 2; rewrite map_map; reflexivity).
    cbv zeta. unfold mean. rewrite !map_map, !vmul_map, !map_length, LP. reflexivity. }
  unfold circ_corrcc_js.
  destruct x as [[|a0 a]|a ?], y as [[|b0 b]|b ?]; cbn [coerce_angles bind angles fst];
    try (rewrite <- core; cbn [length]; reflexivity);
    try (destruct (Nat.eqb _ _) eqn:E; cbn [andb]; auto; apply Nat.eqb_eq in E; cbn in E; try discriminate;
         try (rewrite E); reflexivity); apply core.
Qed.

Lemma valid_none' (a : list R) : a <> [] -> valid_sample a None.
Proof. intros H. split; auto. Qed.
Lemma circ_mean_turned a a' : turned a a' -> circ_mean a None = circ_mean a' None.
Proof. apply circ_mean_invariant. Qed.
(** The mean direction follows the data. *)
Lemma circ_mean_img e t a a' : a <> [] -> e = 1 \/ e = -1 -> Forall2 (img e t) a a' ->
  match circ_mean a None, circ_mean a' None with
  | Fin m, Fin m' => img e t m m'
  | NaN, NaN => True
  | _, _ => False
  end.
Proof.
  intros N E H.
  assert (TU : turned (map (fun x => e * x + t) a) a').
  { clear N. induction H; constructor; auto. }
  rewrite <- (circ_mean_turned _ _ TU). clear TU H.
  destruct E as [-> | ->].
  - replace (map (fun x => 1 * x + t) a) with (map (fun x => x + t) a) by (apply map_ext; intros; rewrite Rmult_1_l; auto).
    destruct (circ_mean_rot a None t (valid_none' a N)) as [H1 H2].
    destruct (circ_mean_cases a None) as [[_ E]|[_ E]]; rewrite E.
    + rewrite H1; auto.
    + destruct (H2 _ E) as (m' & -> & _ & S). unfold img. rewrite Rmult_1_l. apply same_dir_sym, S.
  - replace (map (fun x => -1 * x + t) a) with (map (fun x => x + t) (map Ropp a))
      by (rewrite map_map; apply map_ext; intros; ring).
    assert (N' : map Ropp a <> []) by (destruct a; cbn; congruence).
    destruct (circ_mean_rot (map Ropp a) None t (valid_none' _ N')) as [H1 H2].
    destruct (circ_mean_reflect a None (valid_none' _ N)) as [H3 H4].
    destruct (circ_mean_cases a None) as [[_ E]|[_ E]]; rewrite E.
    + rewrite H1; auto.
    + destruct (H4 _ E) as (m' & E' & _ & S). destruct (H2 _ E') as (m2 & -> & _ & S2). unfold img.
      apply same_dir_sym. eapply same_dir_trans; [exact S2|].
      replace (-1 * mean_dir (smp a None) + t) with (- mean_dir (smp a None) + t) by ring.
      apply same_dir_add; [exact S|apply same_dir_refl].
Qed.
Lemma dsum_rel (Q : R * R -> R * R -> Prop) f g P P' : Forall2 Q P P' -> (forall p p', Q p p' -> f p' = g p) ->
  dsum f P' = dsum g P.
Proof. intros F H. unfold dsum. induction F; cbn [map]; rewrite ?Rsum_cons; auto. rewrite IHF, (H x y); auto. Qed.
Lemma dsum_scal c f P : dsum (fun p => c * f p) P = c * dsum f P.
Proof. apply Rsum_map_scal. Qed.
Lemma pm_abs e x : e = 1 \/ e = -1 -> Rabs (e * x) = Rabs x.
Proof. intros [-> | ->]; [rewrite Rmult_1_l; auto|]. replace (-1 * x) with (- x) by ring. apply Rabs_Ropp. Qed.
Lemma pm_mul e f : (e = 1 \/ e = -1) -> (f = 1 \/ f = -1) -> e * f = 1 \/ e * f = -1.
Proof. intros [-> | ->] [-> | ->]; [left|right|right|left]; ring. Qed.
Lemma js_body_img ncdf e s f t P P' ma ma' mb mb' test : (e = 1 \/ e = -1) -> (f = 1 \/ f = -1) ->
  Forall2 (img2 e s f t) P P' -> img e s ma ma' -> img f t mb mb' ->
  js_body ncdf P' ma' mb' test = rmapr (scale_corr (e * f)) (js_body ncdf P ma mb test).
Proof.
  intros E F H Ma Mb. unfold js_body.
  assert (DA : forall p p', img2 e s f t p p' -> dev ma' (fst p') = e * dev ma (fst p))
    by (intros p p' [H1 _]; apply (img_sin e s); auto).
  assert (DB : forall p p', img2 e s f t p p' -> dev mb' (snd p') = f * dev mb (snd p))
    by (intros p p' [_ H1]; apply (img_sin f t); auto).
  assert (E2 : e ^ 2 = 1) by (replace (e ^ 2) with (e * e) by ring; apply sq1, E).
  assert (F2 : f ^ 2 = 1) by (replace (f ^ 2) with (f * f) by ring; apply sq1, F).
  rewrite (dsum_rel _ (fun p => dev ma' (fst p) ^ 2) (fun p => dev ma (fst p) ^ 2) P P' H)
    by (intros p p' Q; rewrite (DA _ _ Q), Rpow_mult_distr, E2; ring).
  rewrite (dsum_rel _ (fun p => dev mb' (snd p) ^ 2) (fun p => dev mb (snd p) ^ 2) P P' H)
    by (intros p p' Q; rewrite (DB _ _ Q), Rpow_mult_distr, F2; ring).
  rewrite (dsum_rel _ (fun p => dev ma' (fst p) ^ 2 * dev mb' (snd p) ^ 2) (fun p => dev ma (fst p) ^ 2 * dev mb (snd p) ^ 2) P P' H)
    by (intros p p' Q; rewrite (DA _ _ Q), (DB _ _ Q), !Rpow_mult_distr, E2, F2; ring).
  rewrite (dsum_rel _ (fun p => dev ma' (fst p) * dev mb' (snd p)) (fun p => (e * f) * (dev ma (fst p) * dev mb (snd p))) P P' H)
    by (intros p p' Q; rewrite (DA _ _ Q), (DB _ _ Q); ring).
  rewrite dsum_scal, <- (F2_length _ _ _ H). cbv zeta. destruct (isclose (sqrt _) 0); [reflexivity|].
  destruct test.
  - destruct (isclose _ 0); [reflexivity|]. cbn [rmapr]. unfold scale_corr. cbn [cr_r cr_p_value cr_reject cr_test_stat scale_fl option_map].
    f_equal. set (D := sqrt (dsum _ P * _)). set (S1 := sqrt (INR _)). set (S2 := sqrt (_ / _)).
    set (N := dsum _ P). clearbody D S1 S2 N.
    replace (e * f * N / D) with (e * f * (N / D)) by (unfold Rdiv; ring).
    replace (S1 * S2 * (e * f * (N / D))) with (e * f * (S1 * S2 * (N / D))) by ring.
    rewrite pm_abs by (apply pm_mul; auto). reflexivity.
  - cbn [rmapr]. unfold scale_corr, plain_r. cbn. do 2 f_equal. f_equal. unfold Rdiv. ring.
Qed.
Lemma scale_nan e test : scale_corr e (nan_corr test) = nan_corr test.
Proof. destruct test; reflexivity. Qed.
Lemma jsP_img ncdf e s f t P P' test : (e = 1 \/ e = -1) -> (f = 1 \/ f = -1) -> P <> [] -> Forall2 (img2 e s f t) P P' ->
  jsP ncdf P' test = rmapr (scale_corr (e * f)) (jsP ncdf P test).
Proof.
  intros E F N H. unfold jsP.
  assert (Na : map fst P <> []) by (destruct P; cbn; congruence).
  assert (Nb : map snd P <> []) by (destruct P; cbn; congruence).
  assert (Ha : Forall2 (img e s) (map fst P) (map fst P')) by (clear N Na Nb; induction H as [|? ? ? ? [? ?]]; cbn; constructor; auto).
  assert (Hb : Forall2 (img f t) (map snd P) (map snd P')) by (clear N Na Nb Ha; induction H as [|? ? ? ? [? ?]]; cbn; constructor; auto).
  pose proof (circ_mean_img e s _ _ Na E Ha) as Ia. pose proof (circ_mean_img f t _ _ Nb F Hb) as Ib.
  destruct (circ_mean (map fst P) None), (circ_mean (map fst P') None); try tauto;
  destruct (circ_mean (map snd P) None), (circ_mean (map snd P') None); try tauto;
    try (cbn [rmapr]; rewrite scale_nan; reflexivity).
  apply (js_body_img ncdf e s f t); auto.
Qed.
Lemma combine_nonempty {A B} (a : list A) (b : list B) : length a = length b -> (2 <= length a)%nat -> combine a b <> [].
Proof. destruct a, b; cbn; intros; try lia; discriminate. Qed.
Lemma js_img ncdf e s f t x x' y y' test strict strict' : (e = 1 \/ e = -1) -> (f = 1 \/ f = -1) ->
  Forall2 (img e s) (angles x) (angles x') -> Forall2 (img f t) (angles y) (angles y') ->
  circ_corrcc_js ncdf x' y' test strict' = rmapr (scale_corr (e * f)) (circ_corrcc_js ncdf x y test strict).
Proof.
  intros E F H1 H2. rewrite !js_core, <- (F2_length _ _ _ H1), <- (F2_length _ _ _ H2).
  destruct (Nat.eqb_spec (length (angles x)) (length (angles y))); cbn [andb]; [|reflexivity].
  destruct (Nat.leb_spec 2 (length (angles x))); [|reflexivity].
  apply (jsP_img ncdf e s f t); auto. - apply combine_nonempty; auto. - apply Forall2_combine; auto.
Qed.
Lemma js_body_swap ncdf P ma mb test : js_body ncdf (map (fun p => (snd p, fst p)) P) mb ma test = js_body ncdf P ma mb test.
Proof.
  unfold js_body, dsum. rewrite !map_map, map_length. cbn [fst snd].
  rewrite (Rsum_map_ext (fun x : R * R => dev mb (snd x) * dev ma (fst x)) (fun p => dev ma (fst p) * dev mb (snd p))) by (intros; ring).
  rewrite (Rsum_map_ext (fun x : R * R => dev mb (snd x) ^ 2 * dev ma (fst x) ^ 2) (fun p => dev ma (fst p) ^ 2 * dev mb (snd p) ^ 2)) by (intros; ring).
  rewrite (Rmult_comm (Rsum (map (fun x => dev mb (snd x) ^ 2) P))).
  rewrite (Rmult_comm (Rsum (map (fun x => dev mb (snd x) ^ 2) P) / _)). reflexivity.
Qed.
Lemma js_swap ncdf x y test strict strict' : circ_corrcc_js ncdf y x test strict' = circ_corrcc_js ncdf x y test strict.
Proof.
  rewrite !js_core. rewrite (Nat.eqb_sym (length (angles y))).
  destruct (Nat.eqb_spec (length (angles x)) (length (angles y))) as [E|E]; cbn [andb]; auto. rewrite <- E.
  destruct (Nat.leb _ _); auto. unfold jsP. rewrite combine_swap, !map_map. cbn [fst snd].
  change (map (fun x0 : R * R => fst x0)) with (map (@fst R R)). change (map (fun x0 : R * R => snd x0)) with (map (@snd R R)).
  destruct (circ_mean (map (@fst R R) _) None), (circ_mean (map (@snd R R) _) None); try reflexivity. apply js_body_swap.
Qed.
Lemma js_perm ncdf x y x' y' test strict strict' : same_pairs (angles x) (angles y) (angles x') (angles y') ->
  circ_corrcc_js ncdf x' y' test strict' = circ_corrcc_js ncdf x y test strict.
Proof.
  intros H. pose proof (same_pairs_len _ _ _ _ H) as L. destruct H as (A & B & C). rewrite !js_core, <- B, L, <- A.
  destruct (_ && _); auto. unfold jsP. rewrite (circ_mean_perm _ _ (Permutation_map fst C)), (circ_mean_perm _ _ (Permutation_map snd C)).
  destruct (circ_mean (map (@fst R R) (combine (angles x') (angles y'))) None) as [ma| | |], (circ_mean (map (@snd R R) (combine (angles x') (angles y'))) None) as [mb| | |]; try reflexivity.
  assert (D : forall f, dsum f (combine (angles x') (angles y')) = dsum f (combine (angles x) (angles y)))
    by (intros f; symmetry; apply Rsum_perm, Permutation_map, C).
  unfold js_body. rewrite !D, (Permutation_length C). reflexivity.
Qed.
Lemma js_body_ok ncdf P ma mb test c : js_body ncdf P ma mb test = Ok c ->
  let A := dsum (fun p => dev ma (fst p) ^ 2) P in
  let B := dsum (fun p => dev mb (snd p) ^ 2) P in
  / 100000000 < sqrt (A * B) /\ cr_r c = Fin (dsum (fun p => dev ma (fst p) * dev mb (snd p)) P / sqrt (A * B)).
Proof.
  unfold js_body. destruct (isclose (sqrt _) 0) eqn:E; [discriminate|]. apply isclose0_false in E; [|apply sqrt_pos].
  destruct test; [destruct (isclose _ 0); [discriminate|]|]; intros [= <-]; split; auto.
Qed.
Lemma sq_sums_pos P ma mb : / 100000000 < sqrt (dsum (fun p => dev ma (fst p) ^ 2) P * dsum (fun p => dev mb (snd p) ^ 2) P) ->
  0 < dsum (fun p => dev ma (fst p) ^ 2) P * dsum (fun p => dev mb (snd p) ^ 2) P.
Proof.
  intros H. set (Q := dsum _ _ * dsum _ _) in *.
  assert (0 <= Q) by (apply Rmult_le_pos; apply Rsum_map_nonneg; intros; apply pow2_ge_0).
  destruct (Req_dec Q 0) as [E|E]; [rewrite E, sqrt_0 in H; lra|lra].
Qed.
Lemma js_ok ncdf x y test strict c : circ_corrcc_js ncdf x y test strict = Ok c ->
  length (angles x) = length (angles y) /\ (2 <= length (angles x))%nat /\
  ((cr_r c = NaN /\ (circ_mean (angles x) None = NaN \/ circ_mean (angles y) None = NaN)) \/
   exists ma mb, circ_mean (angles x) None = Fin ma /\ circ_mean (angles y) None = Fin mb /\
     js_body ncdf (combine (angles x) (angles y)) ma mb test = Ok c).
Proof.
  rewrite js_core. destruct (Nat.eqb_spec (length (angles x)) (length (angles y))) as [E|E]; cbn [andb]; [|discriminate].
  destruct (Nat.leb_spec 2 (length (angles x))) as [L|L]; [|discriminate]. unfold jsP.
  rewrite map_fst_combine, map_snd_combine by auto. intros H. split; auto. split; auto.
  destruct (circ_mean_cases (angles x) None) as [[_ Ea]|[_ Ea]]; rewrite Ea in *; [left; injection H as <-; auto|].
  destruct (circ_mean_cases (angles y) None) as [[_ Eb]|[_ Eb]]; rewrite Eb in *; [left; injection H as <-; auto|].
  right. eauto.
Qed.
Lemma js_range ncdf x y test strict c : circ_corrcc_js ncdf x y test strict = Ok c ->
  cr_r c = NaN \/ exists r, cr_r c = Fin r /\ -1 <= r <= 1.
Proof.
  intros H. apply js_ok in H. destruct H as (_ & _ & [[H _]|(ma & mb & _ & _ & H)]); auto. right.
  apply js_body_ok in H. cbv zeta in H. destruct H as [H1 H2]. eexists; split; [exact H2|]. apply ratio_range.
  - exact (cauchy (fun p : R * R => dev ma (fst p)) (fun p => dev mb (snd p)) _).
  - apply sq_sums_pos, H1.
Qed.
Lemma js_same ncdf e t x y test strict c r : e = 1 \/ e = -1 -> Forall2 (img e t) (angles x) (angles y) ->
  circ_corrcc_js ncdf x y test strict = Ok c -> cr_r c = Fin r -> r = e.
Proof.
  intros E F H Hr. apply js_ok in H. destruct H as (_ & L & [[H _]|(ma & mb & Ea & Eb & H)]); [congruence|].
  assert (N : angles x <> []) by (destruct (angles x); cbn in *; [lia|discriminate]).
  pose proof (circ_mean_img e t _ _ N E F) as M. rewrite Ea, Eb in M.
  apply js_body_ok in H. cbv zeta in H. destruct H as [H1 H2]. rewrite H2 in Hr. apply (f_equal (fun v => match v with Fin q => q | _ => 0 end)) in Hr. cbv beta iota in Hr. subst r.
  pose proof (sq_sums_pos _ _ _ H1) as Pp. clear H1 H2.
  assert (Q : Forall2 (fun p p' => p = p' /\ img e t (fst p) (snd p)) (combine (angles x) (angles y)) (combine (angles x) (angles y))).
  { pose proof (Forall_combine2 _ _ _ F) as F'. clear -F'. induction F'; constructor; auto. }
  assert (D : forall p, img e t (fst p) (snd p) -> dev mb (snd p) = e * dev ma (fst p)) by (intros p Hp; apply (img_sin e t); auto).
  rewrite (dsum_rel _ (fun p => dev mb (snd p) ^ 2) (fun p => dev ma (fst p) ^ 2) _ _ Q) in *
    by (intros p p' [<- Hp]; rewrite (D _ Hp), Rpow_mult_distr; replace (e ^ 2) with (e * e) by ring; rewrite sq1 by auto; ring).
  rewrite (dsum_rel _ (fun p => dev ma (fst p) * dev mb (snd p)) (fun p => e * dev ma (fst p) ^ 2) _ _ Q)
    by (intros p p' [<- Hp]; rewrite (D _ Hp); ring).
  rewrite dsum_scal. set (A := dsum _ _) in *. assert (0 <= A) by (apply Rsum_map_nonneg; intros; apply pow2_ge_0).
  rewrite sqrt_square by auto. field. intros Z. rewrite Z in Pp. lra.
Qed.
(** The direction that balances a sample is unique. *)
Lemma sums_at a m : Rsum (map (fun x => sin (x - m)) a) = cos m * Rsum (map sin a) - sin m * Rsum (map cos a) /\
  Rsum (map (fun x => cos (x - m)) a) = cos m * Rsum (map cos a) + sin m * Rsum (map sin a).
Proof.
  split.
  - rewrite (Rsum_map_ext _ (fun x => cos m * sin x - sin m * cos x)) by (intros; rewrite sin_minus; ring).
    rewrite Rsum_map_minus, !Rsum_map_scal. reflexivity.
  - rewrite (Rsum_map_ext _ (fun x => cos m * cos x + sin m * sin x)) by (intros; rewrite cos_minus; ring).
    rewrite Rsum_map_plus, !Rsum_map_scal. reflexivity.
Qed.
Lemma balance_unique a m m' :
  Rsum (map (fun x => sin (x - m)) a) = 0 -> 0 < Rsum (map (fun x => cos (x - m)) a) ->
  Rsum (map (fun x => sin (x - m')) a) = 0 -> 0 < Rsum (map (fun x => cos (x - m')) a) -> same_dir m m'.
Proof.
  destruct (sums_at a m) as [-> ->]. destruct (sums_at a m') as [-> ->].
  set (C := Rsum (map cos a)). set (S := Rsum (map sin a)). clearbody C S. intros H1 H2 H3 H4.
  pose proof (sin2_cos2 m) as U. pose proof (sin2_cos2 m') as U'. unfold Rsqr in U, U'.
  set (p := cos m * C + sin m * S) in *. set (q := cos m' * C + sin m' * S) in *.
  assert (C = p * cos m /\ S = p * sin m) as [Cp Sp].
  { unfold p. split.
    - transitivity (C * (sin m * sin m + cos m * cos m) + sin m * (cos m * S - sin m * C)); [rewrite U, H1; ring|ring].
    - transitivity (S * (sin m * sin m + cos m * cos m) - cos m * (cos m * S - sin m * C)); [rewrite U, H1; ring|ring]. }
  assert (C = q * cos m' /\ S = q * sin m') as [Cq Sq].
  { unfold q. split.
    - transitivity (C * (sin m' * sin m' + cos m' * cos m') + sin m' * (cos m' * S - sin m' * C)); [rewrite U', H3; ring|ring].
    - transitivity (S * (sin m' * sin m' + cos m' * cos m') - cos m' * (cos m' * S - sin m' * C)); [rewrite U', H3; ring|ring]. }
  clearbody p q.
  assert (P2 : p * p = C * C + S * S).
  { rewrite Cp, Sp. transitivity (p * p * (sin m * sin m + cos m * cos m)); [rewrite U; ring|ring]. }
  assert (Q2 : q * q = C * C + S * S).
  { rewrite Cq, Sq. transitivity (q * q * (sin m' * sin m' + cos m' * cos m')); [rewrite U'; ring|ring]. }
  assert (p = q) by nra. subst q. apply same_dir_iff. split; apply Rmult_eq_reg_l with p; lra.
Qed.
Lemma balances_none a m : circ_mean a None = Fin m -> a <> [] ->
  Rsum (map (fun x => sin (x - m)) a) = 0 /\ 0 < Rsum (map (fun x => cos (x - m)) a).
Proof.
  intros E N. destruct (mean_balances a None m (valid_none' a N) E) as (H1 & _ & H2).
  assert (S : forall f, sample_sum f a None = Rsum (map f a)).
  { intros f. unfold sample_sum, eff_weights. clear. induction a as [|x a IH]; [reflexivity|]. cbn [length repeat wsum map]. rewrite Rsum_cons, IH. ring. }
  rewrite !S in *. auto.
Qed.
(** Value, for any angles balancing the samples. *)
Lemma js_value ncdf x y test strict c ma mb r :
  Rsum (map (fun a => sin (a - ma)) (angles x)) = 0 -> 0 < Rsum (map (fun a => cos (a - ma)) (angles x)) ->
  Rsum (map (fun a => sin (a - mb)) (angles y)) = 0 -> 0 < Rsum (map (fun a => cos (a - mb)) (angles y)) ->
  circ_corrcc_js ncdf x y test strict = Ok c -> cr_r c = Fin r ->
  let P := combine (angles x) (angles y) in
  let den := sqrt (dot (fun a => sin (a - ma) ^ 2) (fun _ => 1) P * dot (fun _ => 1) (fun b => sin (b - mb) ^ 2) P) in
  / 100000000 < den /\ r * den = dot (fun a => sin (a - ma)) (fun b => sin (b - mb)) P.
Proof.
  intros A1 A2 B1 B2 H Hr. apply js_ok in H. destruct H as (L & L2 & [[H _]|(m1 & m2 & Ea & Eb & H)]); [congruence|].
  assert (Na : angles x <> []) by (destruct (angles x); cbn in *; [lia|discriminate]).
  assert (Nb : angles y <> []) by (destruct (angles y); cbn in *; [lia|discriminate]).
  destruct (balances_none _ _ Ea Na) as [A3 A4]. destruct (balances_none _ _ Eb Nb) as [B3 B4].
  pose proof (balance_unique _ _ _ A1 A2 A3 A4) as Sa. pose proof (balance_unique _ _ _ B1 B2 B3 B4) as Sb.
  assert (Da : forall u, dev m1 u = sin (u - ma)) by (intros; symmetry; apply same_dir_sin, same_dir_sub; [apply same_dir_refl|auto]).
  assert (Db : forall u, dev m2 u = sin (u - mb)) by (intros; symmetry; apply same_dir_sin, same_dir_sub; [apply same_dir_refl|auto]).
  apply js_body_ok in H. cbv zeta in H. destruct H as [H1 H2]. rewrite H2 in Hr. apply (f_equal (fun v => match v with Fin q => q | _ => 0 end)) in Hr. cbv beta iota in Hr. subst r. cbv zeta.
  set (P := combine _ _) in *.
  assert (E1 : dsum (fun p => dev m1 (fst p) ^ 2) P = dot (fun a => sin (a - ma) ^ 2) (fun _ => 1) P)
    by (apply Rsum_map_ext; intros; rewrite Da; ring).
  assert (E2 : dsum (fun p => dev m2 (snd p) ^ 2) P = dot (fun _ => 1) (fun b => sin (b - mb) ^ 2) P)
    by (apply Rsum_map_ext; intros; rewrite Db; ring).
  assert (E3 : dsum (fun p => dev m1 (fst p) * dev m2 (snd p)) P = dot (fun a => sin (a - ma)) (fun b => sin (b - mb)) P)
    by (apply Rsum_map_ext; intros; rewrite Da, Db; ring).
  rewrite E1, E2, E3 in *. split; auto. field. lra.
Qed.

(** The statistic simplifies: sqrt(n l20 l02 / l22) r = sum sa sb / sqrt(sum sa^2 sb^2). *)
Lemma js_stat_value ncdf x y strict c ma mb r :
  Rsum (map (fun a => sin (a - ma)) (angles x)) = 0 -> 0 < Rsum (map (fun a => cos (a - ma)) (angles x)) ->
  Rsum (map (fun a => sin (a - mb)) (angles y)) = 0 -> 0 < Rsum (map (fun a => cos (a - mb)) (angles y)) ->
  circ_corrcc_js ncdf x y true strict = Ok c -> cr_r c = Fin r ->
  let P := combine (angles x) (angles y) in
  exists z, cr_test_stat c = Some (Fin z) /\ cr_p_value c = Some (Fin (2 * (1 - ncdf (Rabs z)))) /\
    0 < dot (fun a => sin (a - ma) ^ 2) (fun b => sin (b - mb) ^ 2) P /\
    z * sqrt (dot (fun a => sin (a - ma) ^ 2) (fun b => sin (b - mb) ^ 2) P) = dot (fun a => sin (a - ma)) (fun b => sin (b - mb)) P.
Proof.
  intros A1 A2 B1 B2 H Hr. apply js_ok in H. destruct H as (L & L2 & [[H _]|(m1 & m2 & Ea & Eb & H)]); [congruence|].
  assert (Na : angles x <> []) by (destruct (angles x); cbn in *; [lia|discriminate]).
  assert (Nb : angles y <> []) by (destruct (angles y); cbn in *; [lia|discriminate]).
  destruct (balances_none _ _ Ea Na) as [A3 A4]. destruct (balances_none _ _ Eb Nb) as [B3 B4].
  pose proof (balance_unique _ _ _ A1 A2 A3 A4) as Sa. pose proof (balance_unique _ _ _ B1 B2 B3 B4) as Sb.
  assert (Da : forall u, dev m1 u = sin (u - ma)) by (intros; symmetry; apply same_dir_sin, same_dir_sub; [apply same_dir_refl|auto]).
  assert (Db : forall u, dev m2 u = sin (u - mb)) by (intros; symmetry; apply same_dir_sin, same_dir_sub; [apply same_dir_refl|auto]).
  assert (Pp : 0 < dsum (fun p => dev m1 (fst p) ^ 2) (combine (angles x) (angles y)) * dsum (fun p => dev m2 (snd p) ^ 2) (combine (angles x) (angles y)))
    by (apply sq_sums_pos; apply js_body_ok in H; apply H).
  cbv zeta. set (P := combine _ _) in *.
  assert (NP : 0 < INR (length P)) by (apply lt_0_INR; unfold P; rewrite combine_length; lia).
  unfold js_body in H. destruct (isclose (sqrt _) 0); [discriminate|]. destruct (isclose _ 0) eqn:E; [discriminate|].
  assert (E3 : dsum (fun p => dev m1 (fst p) * dev m2 (snd p)) P = dot (fun a => sin (a - ma)) (fun b => sin (b - mb)) P)
    by (apply Rsum_map_ext; intros; rewrite Da, Db; ring).
  assert (E4 : dsum (fun p => dev m1 (fst p) ^ 2 * dev m2 (snd p) ^ 2) P = dot (fun a => sin (a - ma) ^ 2) (fun b => sin (b - mb) ^ 2) P)
    by (apply Rsum_map_ext; intros; rewrite Da, Db; ring).
  rewrite E3, E4 in *. set (A := dsum (fun p => dev m1 (fst p) ^ 2) P) in *. set (B := dsum (fun p => dev m2 (snd p) ^ 2) P) in *. set (N := dot (fun a => sin (a - ma)) (fun b => sin (b - mb)) P) in *.
  set (Q := dot (fun a => sin (a - ma) ^ 2) (fun b => sin (b - mb) ^ 2) P) in *. set (n := INR (length P)) in *. injection H as <-. eexists. split; [reflexivity|]. split; [reflexivity|].
  assert (Q0 : 0 <= Q) by (apply Rsum_map_nonneg; intros; apply Rmult_le_pos; apply pow2_ge_0).
  assert (Qn : 0 <= Q / n) by (unfold Rdiv; apply Rmult_le_pos; [auto|left; apply Rinv_0_lt_compat; auto]).
  apply isclose0_false in E; auto.
  assert (Q1 : 0 < Q). { destruct (Req_dec Q 0) as [Z|Z]; [|lra]. rewrite Z in E. unfold Rdiv in E. rewrite Rmult_0_l in E. lra. }
  clearbody A B N Q n. split; auto.
  rewrite <- (sqrt_mult_alt n) by lra.
  replace (n * (A / n * (B / n) / (Q / n))) with (A * B / Q) by (field; lra).
  rewrite sqrt_div_alt by lra. field. split; apply Rgt_not_eq, sqrt_lt_R0; auto.
Qed.
