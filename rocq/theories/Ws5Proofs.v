(** wrapstable: the moment fit, symmetries, special cases. *)
From Verif Require Import Prelude NpModel NpProofs UtilsModel UtilsProofs DescModel DescProofs CircleSpec IntSpec IntProofs DistModel DistSpec DistProofs Dist2Proofs Dist4Proofs Dist5Proofs
  Dist6Proofs Dist7Proofs Dist8Proofs KjProofs Kj2Proofs Kj6Proofs Kj7Proofs Von5Proofs Von6Proofs WnModel WnProofs GaussProofs Wn3Proofs WsModel WsSpec WsProofs Ws2Proofs Ws3Proofs.

(** ** The moment fit *)
Lemma clip_interior x lo hi : lo < clip x lo hi < hi -> clip x lo hi = x.
Proof. unfold clip. unfold Rmin, Rmax. destruct (Rle_dec x lo); destruct (Rle_dec _ hi); lra. Qed.
(** The estimates always are admissible parameters. *)
Lemma ws_moments_ok C1 S1 C2 S2 d a b g : ws_moments C1 S1 C2 S2 = (d, a, b, g) ->
  ws_ok d a b g = true /\ / 1000 <= a <= 2 /\ - (99 / 100) <= b <= 99 / 100 /\ / 10 ^ 6 <= g <= 10.
Proof.
  intros E. pose proof PI_gt3 as P3. unfold ws_moments in E. cbv zeta in E.
  set (ag := if _ || _ then _ else _) in E.
  assert (K1 : / 1000 <= fst ag <= 2 /\ / 10 ^ 6 <= snd ag <= 10).
  { unfold ag. destruct (_ || _); cbn [fst snd]; [lra|]. split; apply clip_range; lra. }
  destruct ag as [a0 g0]. cbn [fst snd] in K1.
  set (bd := if Rleb _ _ then _ else _) in E.
  assert (K2 : - (99 / 100) <= fst bd <= 99 / 100).
  { unfold bd. destruct (Rleb _ _); destruct (Rltb _ _); cbn [fst snd]; try lra; apply clip_range; lra. }
  destruct bd as [b0 d0]. cbn [fst] in K2. assert (pymod d0 (2 * PI) = d) by congruence. assert (a0 = a) by congruence. assert (b0 = b) by congruence.
  assert (g0 = g) by congruence. subst. pose proof (pymod_range d0 (2 * PI) ltac:(lra)). split; [apply ws_ok_intro; lra|lra].
Qed.
(** Away from the bounds they reproduce both moments. *)
Lemma ws_moments_match C1 S1 C2 S2 d a b g : ws_moments C1 S1 C2 S2 = (d, a, b, g) ->
  / 10 ^ 9 < hypot C1 S1 < 1 - / 10 ^ 6 -> / 10 ^ 9 < hypot C2 S2 < 1 - / 10 ^ 6 ->
  / 1000 < a < 2 -> / 10 ^ 6 < g < 10 -> - (99 / 100) < b < 99 / 100 -> b <> 0 ->
  (C1 = ws_rho a g 1 * cos (ws_mu d a b g 1) /\ S1 = ws_rho a g 1 * sin (ws_mu d a b g 1)) /\
  (C2 = ws_rho a g 2 * cos (ws_mu d a b g 2) /\ S2 = ws_rho a g 2 * sin (ws_mu d a b g 2)).
Proof.
  intros E H1 H2 Ha Hg Hb Hb0. pose proof PI_gt3 as P3. pose proof ln2_range as L2. unfold ws_moments in E. cbv zeta in E.
  rewrite !clip_in in E by lra. rewrite !(proj2 (Rleb_false (1 - / 10 ^ 6) _)) in E by lra. cbn [orb] in E.
  set (y1 := ln (- ln (hypot C1 S1))) in *. set (y2 := ln (- ln (hypot C2 S2))) in *.
  set (a0 := clip ((y2 - y1) / ln 2) (/ 1000) 2) in *. set (g0 := clip (exp (y1 / a0)) (/ 10 ^ 6) 10) in *.
  set (phi1 := arctan2 S1 C1) in *. set (k := rint _) in *. set (phi2 := arctan2 S2 C2 + 2 * PI * IZR k) in *.
  set (bd := if Rleb _ _ then _ else _) in E.
  assert (X : a0 = a /\ g0 = g /\ fst bd = b /\ pymod (snd bd) (2 * PI) = d) by (destruct bd; cbn [fst snd]; repeat split; congruence).
  destruct X as (Xa & Xg & Xb & Xd). clear E. assert (Ea : a = (y2 - y1) / ln 2). { rewrite <- Xa. apply clip_interior. fold a0. lra. }
  assert (Eg : g = exp (y1 / a)). { rewrite <- Xg. unfold g0. rewrite Xa. apply clip_interior. rewrite <- Xa. fold g0. lra. }
  (* moduli *)
  assert (N1 : 0 < - ln (hypot C1 S1)). { assert (ln (hypot C1 S1) < ln 1) by (apply ln_increasing; lra). rewrite ln_1 in H. lra. }
  assert (N2 : 0 < - ln (hypot C2 S2)). { assert (ln (hypot C2 S2) < ln 1) by (apply ln_increasing; lra). rewrite ln_1 in H. lra. }
  assert (Lg : a * ln g = y1). { rewrite Eg, ln_exp. field. lra. }
  assert (Lg2 : a * ln (g * 2) = y2). { rewrite ln_mult by lra. rewrite Rmult_plus_distr_l, Lg, Ea. field. lra. }
  assert (P1 : Rpower g a = - ln (hypot C1 S1)). { unfold Rpower. rewrite Lg. unfold y1. apply exp_ln. exact N1. }
  assert (P2 : Rpower (g * 2) a = - ln (hypot C2 S2)). { unfold Rpower. rewrite Lg2. unfold y2. apply exp_ln. exact N2. }
  assert (R1 : ws_rho a g 1 = hypot C1 S1). { unfold ws_rho. change (INR 1) with 1. rewrite Rmult_1_r, P1, Ropp_involutive. apply exp_ln. lra. }
  assert (R2 : ws_rho a g 2 = hypot C2 S2). { unfold ws_rho. change (INR 2) with 2. rewrite P2, Ropp_involutive. apply exp_ln. lra. }
  assert (Z1 : C1 <> 0 \/ S1 <> 0). { destruct (Req_dec C1 0) as [->|]; [|left; assumption]. right. intros ->. unfold hypot in H1. rewrite Rmult_0_l, Rplus_0_l, sqrt_0 in H1. lra. }
  assert (Z2 : C2 <> 0 \/ S2 <> 0). { destruct (Req_dec C2 0) as [->|]; [|left; assumption]. right. intros ->. unfold hypot in H2. rewrite Rmult_0_l, Rplus_0_l, sqrt_0 in H2. lra. }
  destruct (arctan2_polar S1 C1 Z1) as [A1 B1]. destruct (arctan2_polar S2 C2 Z2) as [A2 B2]. fold phi1 in A1, B1.
  change (sqrt (C1 * C1 + S1 * S1)) with (hypot C1 S1) in *. change (sqrt (C2 * C2 + S2 * S2)) with (hypot C2 S2) in *.
  rewrite R1, R2.
  (* phases *)
  assert (Q : same_dir (ws_mu d a b g 1) phi1 /\ same_dir (ws_mu d a b g 2) phi2).
  { pose proof (pymod_same_dir (snd bd)) as Sd. rewrite Xd in Sd. unfold bd in Xb, Sd. rewrite Xa, Xg in Xb, Sd. unfold ws_mu. change (INR 1) with 1. change (INR 2) with 2. clear bd Xd.
    destruct (Rleb (Rabs (a - 1)) ws_atol).
    - set (B1' := 2 / PI * g * ln g) in *. set (B2' := 2 / PI * (g * 2) * ln (g * 2)) in *. destruct (Rltb_spec (Rabs (B2' - 2 * B1')) (/ 10 ^ 8)) as [L|L]; cbn [fst snd] in Xb, Sd; [congruence|].
      assert (Nz : B2' - 2 * B1' <> 0). { intros Z. apply L. rewrite Z, Rabs_R0. apply Rinv_0_lt_compat, pow_lt. lra. }
      assert (Eb : b = (phi2 - 2 * phi1) / (B2' - 2 * B1')) by (rewrite <- Xb; apply clip_interior; rewrite Xb; lra). rewrite Xb in Sd.
      destruct Sd as [j Sd]. split.
      + exists j. rewrite Sd. replace (g * 1) with g by ring. unfold B1'. field. lra.
      + exists (2 * j)%Z. rewrite Sd, mult_IZR.
        replace ((phi1 - b * B1' + 2 * PI * IZR j) * 2 + 2 / PI * b * g * 2 * ln (g * 2)) with (2 * phi1 + b * (B2' - 2 * B1') + 2 * PI * (2 * IZR j)) by (unfold B2'; field; lra).
        rewrite Eb. field. exact Nz.
    - set (A := tan (1 / 2 * PI * a)) in *. set (B1' := Rpower g a - g) in *. set (B2' := Rpower (g * 2) a - g * 2) in *.
      destruct (Rltb_spec (Rabs (A * (B2' - 2 * B1'))) (/ 10 ^ 8)) as [L|L]; cbn [fst snd] in Xb, Sd; [congruence|].
      assert (Nz : A * (B2' - 2 * B1') <> 0). { intros Z. apply L. rewrite Z, Rabs_R0. apply Rinv_0_lt_compat, pow_lt. lra. }
      assert (Eb : b = (phi2 - 2 * phi1) / (A * (B2' - 2 * B1'))) by (rewrite <- Xb; apply clip_interior; rewrite Xb; lra). rewrite Xb in Sd.
      destruct Sd as [j Sd]. split.
      + exists j. rewrite Sd. replace (g * 1) with g by ring. unfold B1'. ring.
      + exists (2 * j)%Z. rewrite Sd, mult_IZR.
        replace ((phi1 - b * A * B1' + 2 * PI * IZR j) * 2 + b * A * B2') with (2 * phi1 + b * (A * (B2' - 2 * B1')) + 2 * PI * (2 * IZR j)) by ring.
        rewrite Eb. replace ((phi2 - 2 * phi1) / (A * (B2' - 2 * B1')) * (A * (B2' - 2 * B1'))) with (phi2 - 2 * phi1) by (field; split; intros Z; apply Nz; rewrite Z; ring). ring. }
  destruct Q as [Q1 Q2]. assert (Q3 : same_dir phi2 (arctan2 S2 C2)) by (exists k; reflexivity).
  rewrite (same_dir_cos _ _ Q1), (same_dir_sin _ _ Q1), (same_dir_cos _ _ Q2), (same_dir_sin _ _ Q2), (same_dir_cos _ _ Q3), (same_dir_sin _ _ Q3). auto.
Qed.
Lemma ws_fit_spec s d a b g f : ws_fit_moments s = Ok (d, a, b, g) ->
  (forall x, public_pdf (ws_ok d a b g) (ws_pdf d a b g) x = Fin (f x)) ->
  let C n := Rsum (map (fun p => snd p * cos (IZR n * fst p)) s) / Rsum (map snd s) in
  let S n := Rsum (map (fun p => snd p * sin (IZR n * fst p)) s) / Rsum (map snd s) in
  ws_ok d a b g = true /\ / 1000 <= a <= 2 /\ - (99 / 100) <= b <= 99 / 100 /\ / 10 ^ 6 <= g <= 10 /\
  ((forall n, n = 1%Z \/ n = 2%Z -> / 10 ^ 9 < sqrt (C n * C n + S n * S n) < 1 - / 10 ^ 6) ->
   / 1000 < a < 2 -> / 10 ^ 6 < g < 10 -> - (99 / 100) < b < 99 / 100 -> b <> 0 ->
   trig_moment_of f 1 (C 1%Z) (S 1%Z) /\ trig_moment_of f 2 (C 2%Z) (S 2%Z)).
Proof.
  intros E Ef. cbv zeta. unfold ws_fit_moments in E. destruct s as [|p0 s0]; [discriminate|]. set (s := p0 :: s0) in *.
  destruct (existsb _ s) eqn:Ex; [discriminate|]. destruct (Rleb (wtotal s) 0) eqn:Ew; [discriminate|]. apply Rleb_false in Ew.
  cbv zeta in E. set (s' := map (fun p => (wrap_angles (fst p), snd p)) s) in *.
  assert (W' : wtotal s' = wtotal s) by apply wrap_total. rewrite W' in E. change (Rsum (map snd s)) with (wtotal s).
  assert (KC : forall n : nat, Rsum (map (fun x => snd x * cos (IZR (Z.of_nat n) * fst x)) s') = Rsum (map (fun x => snd x * cos (IZR (Z.of_nat n) * fst x)) s)).
  { intros n. rewrite <- INR_IZR_INZ. destruct (wrap_moment s n 0) as [M1 _]. fold s' in M1.
    transitivity (Rsum (map (fun x => snd x * cos (INR n * (fst x - 0))) s')); [|rewrite M1]; apply Rsum_ext_map; intros p _; rewrite Rminus_0_r; reflexivity. }
  assert (KS : forall n : nat, Rsum (map (fun x => snd x * sin (IZR (Z.of_nat n) * fst x)) s') = Rsum (map (fun x => snd x * sin (IZR (Z.of_nat n) * fst x)) s)).
  { intros n. rewrite <- INR_IZR_INZ. destruct (wrap_moment s n 0) as [_ M1]. fold s' in M1.
    transitivity (Rsum (map (fun x => snd x * sin (INR n * (fst x - 0))) s')); [|rewrite M1]; apply Rsum_ext_map; intros p _; rewrite Rminus_0_r; reflexivity. }
  pose proof (KC 1%nat) as KC1. pose proof (KC 2%nat) as KC2. pose proof (KS 1%nat) as KS1. pose proof (KS 2%nat) as KS2. cbn [Z.of_nat Pos.of_succ_nat Pos.succ] in KC1, KC2, KS1, KS2.
  rewrite KC1, KC2, KS1, KS2 in E. clear KC KS KC1 KC2 KS1 KS2.
  set (C1 := Rsum (map (fun x => snd x * cos (1 * fst x)) s) / wtotal s) in *. set (S1 := Rsum (map (fun x => snd x * sin (1 * fst x)) s) / wtotal s) in *.
  set (C2 := Rsum (map (fun x => snd x * cos (2 * fst x)) s) / wtotal s) in *. set (S2 := Rsum (map (fun x => snd x * sin (2 * fst x)) s) / wtotal s) in *.
  assert (E' : ws_moments C1 S1 C2 S2 = (d, a, b, g)) by congruence. clear E.
  destruct (ws_moments_ok _ _ _ _ _ _ _ _ E') as (Hok & Ha & Hb & Hg). split; [exact Hok|]. do 3 (split; [assumption|]).
  intros Hr Ha' Hg' Hb' Hb0. pose proof (Hr 1%Z (or_introl eq_refl)) as Hr1. pose proof (Hr 2%Z (or_intror eq_refl)) as Hr2. fold C1 S1 in Hr1. fold C2 S2 in Hr2.
  destruct (ws_moments_match _ _ _ _ _ _ _ _ E' Hr1 Hr2 Ha' Hg' Hb' Hb0) as [[A1 B1] [A2 B2]].
  assert (R2 : ws_rho a g 2 = hypot C2 S2).
  { unfold hypot. rewrite A2, B2.
    replace (ws_rho a g 2 * cos (ws_mu d a b g 2) * (ws_rho a g 2 * cos (ws_mu d a b g 2)) + ws_rho a g 2 * sin (ws_mu d a b g 2) * (ws_rho a g 2 * sin (ws_mu d a b g 2)))
      with (ws_rho a g 2 * ws_rho a g 2 * (Rsqr (sin (ws_mu d a b g 2)) + Rsqr (cos (ws_mu d a b g 2)))) by (unfold Rsqr; ring).
    rewrite sin2_cos2, Rmult_1_r, sqrt_square; [reflexivity|apply Rlt_le, ws_rho_pos]. }
  destruct (ws_order_spec a g ltac:(lra) ltac:(lra)) as [O1 _].
  assert (O2 : (2 <= ws_order a g)%nat).
  { assert (T : ws_rho a g 2 <= ws_rho a g 1) by (apply ws_rho_anti; [lra|lra|lia]). rewrite R2 in T. unfold hypot in T.
    unfold ws_order. pose proof (ws_initial_le a g (/ 10 ^ 12)) as LI. pose proof ws_max_ge as LM. cbv zeta.
    match goal with |- (_ <= ws_loop a g ws_max ?P)%nat => destruct (ws_loop_spec a g ws_max P ltac:(lia) ltac:(lia)) as [[K1 _] [K2|K2]] end; [|lia].
    destruct (Nat.eq_dec (ws_loop a g ws_max (Nat.max 1 (Nat.max (ws_initial a g (/ 10 ^ 12)) (ws_initial a g (/ 10 ^ 12))))) 1) as [Z|Z]; [|lia].
    rewrite Z in K2. assert (/ 10 ^ 12 <= / 10 ^ 9) by lra. lra. }
  pose proof (ws_moment_exact d a b g f 1 ltac:(lia) Hok Ef) as M1. pose proof (ws_moment_exact d a b g f 2 ltac:(lia) Hok Ef) as M2. cbv zeta in M1, M2.
  rewrite (proj2 (Nat.leb_le _ _)) in M1 by lia. rewrite (proj2 (Nat.leb_le _ _)) in M2 by lia. rewrite <- A1, <- B1 in M1. rewrite <- A2, <- B2 in M2. split; assumption.
Qed.
