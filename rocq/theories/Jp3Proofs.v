(** The cdf of jonespewsey and its sine-skewed member as integrals of a trigonometric polynomial; the root finder of the quantile functions. *)
From Verif Require Import Prelude NpModel NpProofs CircleSpec IntSpec IntProofs DistModel DistSpec DistProofs Dist2Proofs Dist4Proofs Dist5Proofs
  Dist6Proofs Dist7Proofs Dist8Proofs KjProofs Kj2Proofs Kj3Proofs VonModel VonSpec VonProofs Von2Proofs Von3Proofs Von4Proofs Von5Proofs Von6Proofs GaussProofs Ws3Proofs WnProofs JpModel JpSpec JpProofs Jp2Proofs.

(** ** The root finder *)
Lemma jp_newton_inv F pdf q : forall n L H th L' H' th', jp_newton F pdf q n L H th = (L', H', th') ->
  0 <= L -> H <= 2 * PI -> L < th < H -> F L <= q < F H ->
  0 <= L' /\ H' <= 2 * PI /\ L' < H' /\ L' <= th' <= H' /\ F L' <= q < F H'.
Proof.
  induction n as [|n IH]; intros L H th L' H' th' E HL HH HT HF; cbn [jp_newton] in E.
  - injection E as <- <- <-. repeat split; lra.
  - cbv zeta in E. set (d := F th - q) in E. set (L1 := if Rleb d 0 then th else L) in E. set (H1 := if Rltb 0 d then th else H) in E.
    assert (B : 0 <= L1 /\ H1 <= 2 * PI /\ L1 < H1 /\ L1 <= th <= H1 /\ F L1 <= q < F H1).
    { unfold L1, H1. destruct (Rleb_spec d 0) as [P|P]; destruct (Rltb_spec 0 d) as [Q|Q]; unfold d in *; repeat split; lra. }
    destruct B as (B1 & B2 & B3 & B4 & B5).
    destruct (Rleb (Rabs d) (/ 10 ^ 12) && Rleb (H1 - L1) (/ 10 ^ 10)).
    + injection E as <- <- <-. repeat split; lra.
    + set (nx := th - clip (d / Rmax (pdf th) (/ 10 ^ 15)) (- PI) PI) in E.
      set (nx2 := if Rleb nx L1 || Rleb H1 nx then 1 / 2 * (L1 + H1) else nx) in E.
      assert (N : L1 < nx2 < H1).
      { unfold nx2. destruct (Rleb nx L1 || Rleb H1 nx) eqn:Eo; [lra|]. apply orb_false_iff in Eo as [O1 O2]. apply Rleb_false in O1. apply Rleb_false in O2. lra. }
      rewrite (clip_in nx2) in E by lra. apply (IH _ _ _ _ _ _ E); lra.
Qed.
Lemma jp_solve_spec F pdf q : F 0 = 0 -> F (2 * PI) = 1 -> 0 < q < 1 ->
  let th := jp_solve F pdf q in
  0 <= th <= 2 * PI /\
  (Rabs (F th - q) <= / 10 ^ 12 \/
   exists L H, 0 <= L /\ H <= 2 * PI /\ L <= th <= H /\ H - L <= 8 / 10 ^ 9 /\ F L <= q < F H).
Proof.
  intros F0 F1 Hq. cbv zeta. unfold jp_solve. pose proof PI_gt3 as P3. pose proof PI_4 as P4.
  destruct (jp_newton F pdf q 8 0 (2 * PI) (2 * PI * q)) as [[L H] th] eqn:E.
  apply jp_newton_inv in E; [|lra|lra|split; nra|lra]. destruct E as (E1 & E2 & E3 & E4 & E5).
  destruct (Rltb (/ 10 ^ 12) (Rabs (F th - q)) || Rltb (/ 10 ^ 10) (H - L)) eqn:Eb.
  - destruct (von_bisect_spec F q 30 L H E5 E3) as [A B]. split; [lra|].
    destruct B as [B|(L' & H' & B1 & B2 & B3 & B4 & B5)]; [left; exact B|right]. exists L', H'. repeat split; try lra.
  - apply orb_false_iff in Eb as [Eb _]. apply Rltb_false in Eb. split; [lra|left; exact Eb].
Qed.
Lemma at_angle_0 F : at_angle F 0 = 0.
Proof. pose proof PI2_pos. unfold at_angle. rewrite wrap_in by lra. cbv zeta. rewrite (proj2 (Rleb_false _ _)), (proj2 (Rltb_false _ _)) by lra. reflexivity. Qed.
Lemma at_angle_1 F : at_angle F (2 * PI) = 1.
Proof. pose proof PI2_pos. unfold at_angle. rewrite wrap_in by lra. cbv zeta. rewrite (proj2 (Rleb_true _ _)) by lra. reflexivity. Qed.
Lemma at_angle_in F x : 0 < x < 2 * PI -> at_angle F x = F x.
Proof. intros H. unfold at_angle. rewrite wrap_in by lra. cbv zeta. rewrite (proj2 (Rleb_false _ _)), (proj2 (Rltb_true _ _)) by lra. reflexivity. Qed.
Lemma at_angle_pub F x : public_cdf true F x = Fin (at_angle F x).
Proof. rewrite public_cdf_fin. reflexivity. Qed.
Lemma qc_near q : 0 < q < 1 -> Rabs (clip q (/ 10 ^ 15) (1 - / 10 ^ 15) - q) <= / 10 ^ 15 /\ 0 < clip q (/ 10 ^ 15) (1 - / 10 ^ 15) < 1.
Proof.
  intros H. pose proof (clip_range q (/ 10 ^ 15) (1 - / 10 ^ 15) ltac:(lra)) as C. split; [|lra].
  unfold clip, Rmin, Rmax in *. apply Rabs_le. repeat destruct (Rle_dec _ _); lra.
Qed.
Lemma solve_inverts F pdf q : 0 < q < 1 -> inverts (public_cdf true F) q (jp_solve (at_angle F) pdf (clip q (/ 10 ^ 15) (1 - / 10 ^ 15))) (2 / 10 ^ 12) (8 / 10 ^ 9).
Proof.
  intros Hq. destruct (qc_near q Hq) as [N R]. pose proof (abs_le_inv _ _ N) as N'. destruct (jp_solve_spec (at_angle F) pdf _ (at_angle_0 F) (at_angle_1 F) R) as [A B].
  cbv zeta in A, B. split; [exact A|]. destruct B as [B|(L & H & B1 & B2 & B3 & B4 & B5)].
  - left. eexists. split; [apply at_angle_pub|]. apply abs_le_inv in B. apply Rabs_le. lra.
  - right. exists L, H. do 2 eexists. repeat split; try apply at_angle_pub; lra.
Qed.

(** ** The primitives of the polynomial *)
Definition jp_G (c : nat -> R) (N : nat) (lam phi : R) : R := jp_cum c N phi + lam * jp_skew c N phi.
Lemma cum_d c N x : derivable_pt_lim (jp_cum c N) x (cos_series c N x).
Proof.
  pose proof PI_RGT_0. unfold jp_cum, cos_series.
  apply (dlim_eq _ _ (1 / (2 * PI) + Rsum (map (fun n => cos (x * INR n) * INR n * (c n / INR n)) (seq 1 N)) / PI)).
  - rewrite (Rsum_ext_map (fun n => cos (x * INR n) * INR n * (c n / INR n)) (fun n => c n * cos (INR n * x))); [field; lra|].
    intros n Hn. apply in_seq in Hn. rewrite (Rmult_comm x). field. apply not_0_INR. lia.
  - apply dlim_plus; [apply dlim_divc, dlim_id|]. apply dlim_divc. apply (dlim_Rsum (fun n y => sin (y * INR n) * (c n / INR n))). intros n _.
    eapply dlim_eq; [|apply dlim_mult; [apply (dlim_sin (fun y => y * INR n)); eapply dlim_eq; [|apply dlim_mult; [apply dlim_id|apply dlim_const]]|apply dlim_const]]; cbv beta; [|reflexivity]. ring.
Qed.
Lemma skew_d c N x : derivable_pt_lim (jp_skew c N) x (cos_series c N x * sin x).
Proof.
  pose proof PI_RGT_0. unfold jp_skew, cos_series.
  apply (dlim_eq _ _ (sin x / (2 * PI) + Rsum (map (fun n => c n * cos (INR n * x) * sin x) (seq 1 N)) / PI)).
  - rewrite (Rsum_ext_map (fun n => c n * cos (INR n * x) * sin x) (fun n => sin x * (c n * cos (INR n * x)))) by (intros; ring). rewrite Rsum_scal_map. field. lra.
  - apply dlim_plus.
    + apply dlim_divc. eapply dlim_eq; [|apply dlim_minus; [apply dlim_const|apply (dlim_cos (fun y => y)), dlim_id]]. ring.
    + apply dlim_divc. apply (dlim_Rsum (fun n y => if Nat.eqb n 1 then c n * ((1 - cos (2 * y)) / 4)
        else 1 / 2 * ((1 - cos (y * INR n + y)) / (INR n + 1) - (1 - cos (y * INR n - y)) / (INR n - 1)) * c n)). intros n Hn. apply in_seq in Hn.
      destruct (Nat.eqb_spec n 1) as [->|N1].
      * eapply dlim_eq; [|apply dlim_scal, dlim_divc, dlim_minus; [apply dlim_const|apply (dlim_cos (fun y => 2 * y)), dlim_scal, dlim_id]].
        cbv beta. change (INR 1) with 1. rewrite Rmult_1_l, sin_2a. field.
      * assert (2 <= INR n) by (replace 2 with (INR 2) by reflexivity; apply le_INR; lia).
        eapply dlim_eq; [|apply dlim_mult; [apply dlim_scal, dlim_minus; apply dlim_divc, dlim_minus; [apply dlim_const|apply (dlim_cos (fun y => y * INR n + y)), dlim_plus; [apply dlim_mult; [apply dlim_id|apply dlim_const]|apply dlim_id]
          |apply dlim_const|apply (dlim_cos (fun y => y * INR n - y)), dlim_minus; [apply dlim_mult; [apply dlim_id|apply dlim_const]|apply dlim_id]]|apply dlim_const]].
        cbv beta. rewrite sin_plus, sin_minus, (Rmult_comm (INR n) x). field. lra.
Qed.
Definition skew_series (c : nat -> R) (N : nat) (lam t : R) : R := cos_series c N t * (1 + lam * sin t).
Lemma G_d c N lam x : derivable_pt_lim (jp_G c N lam) x (skew_series c N lam x).
Proof. unfold jp_G, skew_series. eapply dlim_eq; [|apply dlim_plus; [apply cum_d|apply dlim_scal, skew_d]]. cbv beta. ring. Qed.
Lemma trig_turns (n : nat) x (z : Z) : sin (INR n * (x + 2 * PI * IZR z)) = sin (INR n * x) /\ cos (INR n * (x + 2 * PI * IZR z)) = cos (INR n * x).
Proof.
  replace (INR n * (x + 2 * PI * IZR z)) with (INR n * x + 2 * PI * IZR (Z.of_nat n * z)) by (rewrite mult_IZR, <- INR_IZR_INZ; ring).
  split; [apply NpProofs.sin_turns|apply NpProofs.cos_turns].
Qed.
Lemma G_turns c N lam x (z : Z) : jp_G c N lam (x + 2 * PI * IZR z) = jp_G c N lam x + IZR z.
Proof.
  pose proof PI_RGT_0. assert (C : jp_cum c N (x + 2 * PI * IZR z) = jp_cum c N x + IZR z).
  { unfold jp_cum. rewrite (Rsum_ext_map (fun n => sin ((x + 2 * PI * IZR z) * INR n) * (c n / INR n)) (fun n => sin (x * INR n) * (c n / INR n))); [field; lra|].
    intros n _. rewrite (Rmult_comm _ (INR n)), (proj1 (trig_turns n x z)), (Rmult_comm (INR n)). reflexivity. }
  assert (S : jp_skew c N (x + 2 * PI * IZR z) = jp_skew c N x).
  { unfold jp_skew. rewrite NpProofs.cos_turns. f_equal. f_equal. apply Rsum_ext_map. intros n Hn. apply in_seq in Hn. destruct (Nat.eqb_spec n 1) as [->|N1].
    - do 3 f_equal. exact (proj2 (trig_turns 2 x z)).
    - replace ((x + 2 * PI * IZR z) * INR n + (x + 2 * PI * IZR z)) with (INR (n + 1) * (x + 2 * PI * IZR z)) by (rewrite plus_INR; change (INR 1) with 1; ring).
      replace ((x + 2 * PI * IZR z) * INR n - (x + 2 * PI * IZR z)) with (INR (n - 1) * (x + 2 * PI * IZR z)) by (rewrite minus_INR by lia; change (INR 1) with 1; ring).
      rewrite !(proj2 (trig_turns _ x z)). rewrite plus_INR, minus_INR by lia. change (INR 1) with 1. do 6 f_equal; ring. }
  unfold jp_G. rewrite C, S. ring.
Qed.
Lemma series_cont c N lam x : continuity_pt (skew_series c N lam) x.
Proof.
  unfold skew_series. apply cont_mult; [apply (cpoly_cont c N)|]. apply cont_plus; [apply cont_const|apply cont_mult; [apply cont_const|apply continuity_sin]].
Qed.
(** Unwinding the modulo operations. *)
Lemma unwrap_cdf (G : R -> R) mu x : (forall t (z : Z), G (t + 2 * PI * IZR z) = G t + IZR z) -> 0 < x < 2 * PI ->
  let s := pymod (- mu) (2 * PI) in let e := pymod (x - mu) (2 * PI) in
  (if Rleb s e then G e - G s else 1 - (G s - G e)) = G (x - mu) - G (- mu).
Proof.
  intros P Hx s e. pose proof PI2_pos as Hp. pose proof (pymod_range (- mu) (2 * PI) Hp) as Rs. pose proof (pymod_range (x - mu) (2 * PI) Hp) as Re.
  destruct (pymod_cong (- mu) (2 * PI)) as [k Hk]. destruct (pymod_cong (x - mu) (2 * PI)) as [j Hj]. fold s in Rs, Hk. fold e in Re, Hj.
  assert (E : x = e - s + 2 * PI * (IZR j - IZR k)) by lra. rewrite Hj, Hk, !P. destruct (Rleb_spec s e) as [A|A].
  - assert (J : (j - k)%Z = 0%Z). { assert (-1 < IZR (j - k) < 1) as [I1 I2] by (rewrite minus_IZR; nra). apply lt_IZR in I1, I2. lia. }
    assert (IZR j - IZR k = 0) by (rewrite <- minus_IZR, J; reflexivity). lra.
  - assert (J : (j - k)%Z = 1%Z). { assert (0 < IZR (j - k) < 2) as [I1 I2] by (rewrite minus_IZR; nra). apply lt_IZR in I1, I2. lia. }
    assert (IZR j - IZR k = 1) by (rewrite <- minus_IZR, J; reflexivity). lra.
Qed.
Lemma series_integral c N lam mu x v : 0 < x -> integral (fun t => skew_series c N lam (t - mu)) 0 x v -> v = jp_G c N lam (x - mu) - jp_G c N lam (- mu).
Proof.
  intros Hx I. assert (J : integral (fun t => skew_series c N lam (t - mu)) 0 x (jp_G c N lam (x - mu) - jp_G c N lam (0 - mu))).
  { apply (ftc (fun t => skew_series c N lam (t - mu)) (fun t => jp_G c N lam (t - mu))); [lra|intros; apply continuity_shift, series_cont|].
    intros y _. eapply dlim_eq; [|apply (dlim_comp (jp_G c N lam) (fun t => t - mu)); [apply dlim_minus; [apply dlim_id|apply dlim_const]|apply G_d]]. cbv beta. ring. }
  rewrite (integral_unique _ _ _ _ _ I J). f_equal. f_equal. ring.
Qed.
Lemma last_le c : (jp_last c <= 256)%nat.
Proof.
  unfold jp_last. assert (H : forall l acc, (acc <= 256)%nat -> Forall (fun n => (n <= 256)%nat) l ->
    (fold_left (fun acc n => if Rltb (5 / 10 ^ 12) (Rabs (c n / INR n)) then n else acc) l acc <= 256)%nat).
  { induction l as [|n l IH]; intros acc A Fl; cbn [fold_left]; [exact A|]. inversion Fl; subst. apply IH; [destruct (Rltb _ _); lia|assumption]. }
  apply H; [lia|]. apply Forall_forall. intros n Hn. apply in_seq in Hn. lia.
Qed.
Lemma coeff_riemann pdf0 n : (forall x (z : Z), pdf0 (x + 2 * PI * IZR z) = pdf0 x) ->
  jp_coeff pdf0 n = clip (riemann_turn (fun t => cos (INR n * t) * pdf0 t)) (- 1) 1.
Proof.
  intros P. unfold jp_coeff, riemann_turn. f_equal. f_equal. apply Rsum_ext_map. intros k _. fold (jp_grid k). f_equal.
  destruct (pymod_cong (jp_grid k) (2 * PI)) as [z Hz]. rewrite Hz at 2. rewrite P. reflexivity.
Qed.
Lemma jp_pdf_turns iv lpmv quad mu kappa psi x (z : Z) : jp_pdf iv lpmv quad mu kappa psi (x + 2 * PI * IZR z) = jp_pdf iv lpmv quad mu kappa psi x.
Proof.
  unfold jp_pdf. destruct (Rltb _ _); [reflexivity|]. cbv zeta. replace (x + 2 * PI * IZR z - mu) with (x - mu + 2 * PI * IZR z) by ring.
  rewrite NpProofs.cos_turns, jp_kernel_turns. reflexivity.
Qed.
Lemma jp_cdf_series iv num lpmv quad mu kappa psi : jp_ktol <= kappa -> jp_ptol <= Rabs psi ->
  exists a N, (N <= 256)%nat /\
    (forall n, a n = clip (riemann_turn (fun t => cos (INR n * t) * jp_pdf iv lpmv quad 0 kappa psi t)) (- 1) 1) /\
    forall x v, 0 < x < 2 * PI -> integral (fun t => cos_series a N (t - mu)) 0 x v -> jp_cdf iv num lpmv quad mu kappa psi x = clip v 0 1.
Proof.
  intros Hk Hp. set (a := jp_coeff (jp_pdf iv lpmv quad 0 kappa psi)). exists a, (jp_last a). split; [apply last_le|]. split.
  - intros n. apply coeff_riemann. intros; apply jp_pdf_turns.
  - intros x v Hx I. assert (I' : integral (fun t => skew_series a (jp_last a) 0 (t - mu)) 0 x v).
    { revert I. apply integral_ext; [lra|]. intros t _. unfold skew_series. ring. }
    apply series_integral in I'; [|lra]. pose proof (unwrap_cdf (jp_G a (jp_last a) 0) mu x (G_turns a (jp_last a) 0) Hx) as U. cbv zeta in U. rewrite <- I' in U.
    unfold jp_cdf. rewrite (proj2 (Rltb_false kappa _)), (proj2 (Rltb_false (Rabs psi) _)) by lra. cbv zeta. fold a. rewrite <- U. unfold jp_G.
    destruct (Rleb _ _); f_equal; ring.
Qed.
Lemma ss_cdf_series iv num lpmv quad xi kappa psi lam : jp_ktol <= kappa -> jp_ptol <= Rabs psi \/ / 10 ^ 12 <= Rabs lam ->
  exists a N, (N <= 256)%nat /\
    (forall n, a n = clip (riemann_turn (fun t => cos (INR n * t) * jp_pdf iv lpmv quad 0 kappa psi t)) (- 1) 1) /\
    forall x v, 0 < x < 2 * PI -> integral (fun t => cos_series a N (t - xi) * (1 + lam * sin (t - xi))) 0 x v -> ss_cdf iv num lpmv quad xi kappa psi lam x = clip v 0 1.
Proof.
  intros Hk Hp. set (a := jp_coeff (jp_pdf iv lpmv quad 0 kappa psi)). exists a, (jp_last a). split; [apply last_le|]. split.
  - intros n. apply coeff_riemann. intros; apply jp_pdf_turns.
  - intros x v Hx I. assert (I' : integral (fun t => skew_series a (jp_last a) lam (t - xi)) 0 x v) by exact I.
    apply series_integral in I'; [|lra]. pose proof (unwrap_cdf (jp_G a (jp_last a) lam) xi x (G_turns a (jp_last a) lam) Hx) as U. cbv zeta in U. rewrite <- I' in U.
    unfold ss_cdf. rewrite (proj2 (Rltb_false kappa _)) by lra.
    replace (Rltb (Rabs psi) jp_ptol && Rltb (Rabs lam) (/ 10 ^ 12)) with false by (symmetry; apply andb_false_iff; rewrite !Rltb_false; lra).
    cbv zeta. fold a. rewrite <- U. unfold jp_G.
    destruct (Rltb_spec 0 (Rabs lam)) as [B|B].
    + destruct (Rleb _ _); f_equal; ring.
    + assert (lam = 0) as -> by (destruct (Req_dec lam 0) as [Z|Z]; [exact Z|apply Rabs_pos_lt in Z; lra]). destruct (Rleb _ _); f_equal; ring.
Qed.
