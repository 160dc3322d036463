(** The von Mises quantile function and sampler. *)
From Coq Require Import Ranalysis5.
From Verif Require Import Prelude NpModel NpProofs UtilsModel UtilsProofs DescModel DescProofs CircleSpec IntSpec IntProofs DistModel DistSpec DistProofs Dist2Proofs Dist4Proofs Dist5Proofs
  Dist6Proofs Dist7Proofs Dist8Proofs KjProofs Kj2Proofs Kj6Proofs Kj7Proofs VonModel VonSpec VonProofs Von2Proofs Von3Proofs Von4Proofs.

(** ** The solver *)
Lemma von_newton_inv F pdf q : forall n L H th L' H' th', von_newton F pdf q n L H th = (L', H', th') ->
  0 <= L -> H <= 2 * PI -> L <= th <= H -> th < 2 * PI -> F L <= q < F H ->
  0 <= L' /\ L' < H' /\ H' <= 2 * PI /\ L' <= th' <= H' /\ th' < 2 * PI /\ F L' <= q < F H'.
Proof.
  induction n as [|n IH]; intros L H th L' H' th' E HL HH Ht Ht2 HF.
  - injection E as <- <- <-. assert (L < H) by (destruct (Req_dec L H) as [Q|]; [rewrite Q in HF|]; lra). repeat split; lra.
  - cbn [von_newton] in E. set (d := F th - q) in E.
    set (L1 := if Rleb d 0 then th else L) in E. set (H1 := if Rltb 0 d then th else H) in E.
    assert (B : 0 <= L1 /\ L1 < H1 /\ H1 <= 2 * PI /\ L1 <= th <= H1 /\ F L1 <= q < F H1).
    { unfold L1, H1, d. destruct (Rleb_spec (F th - q) 0) as [D|D].
      - rewrite (proj2 (Rltb_false 0 _)) by lra. assert (th < H) by (destruct (Req_dec th H) as [Q|]; [rewrite Q in D|]; lra). repeat split; lra.
      - rewrite (proj2 (Rltb_true 0 _)) by lra. assert (L < th) by (destruct (Req_dec L th) as [Q|]; [rewrite Q in HF|]; lra). repeat split; lra. }
    destruct (Rleb (Rabs d) (/ 10 ^ 12) && Rleb (H1 - L1) (/ 10 ^ 10)).
    + injection E as <- <- <-. lra.
    + cbv zeta in E. set (nx := th - clip (d / (if Rltb (/ 10 ^ 15) (pdf th) then pdf th else / 10 ^ 15)) (- PI) PI) in E.
      set (nx2 := if Rleb nx L1 || Rleb H1 nx then 1 / 2 * (L1 + H1) else nx) in E.
      assert (N : L1 < nx2 < H1).
      { unfold nx2. destruct (Rleb nx L1 || Rleb H1 nx) eqn:Eo; [lra|]. apply orb_false_iff in Eo as [O1 O2].
        apply Rleb_false in O1. apply Rleb_false in O2. lra. }
      rewrite (pymod_small nx2) in E by (lra). apply (IH _ _ _ _ _ _ E); lra.
Qed.
Lemma von_bisect_spec F q : forall n L H, F L <= q < F H -> L < H ->
  L < von_bisect F q n L H < H /\
  (Rabs (F (von_bisect F q n L H) - q) <= / 10 ^ 12 \/
   exists L' H', L <= L' /\ H' <= H /\ L' <= von_bisect F q n L H <= H' /\ H' - L' = (H - L) / 2 ^ n /\ F L' <= q < F H').
Proof.
  induction n as [|n IH]; intros L H HF HL; cbn [von_bisect].
  - split; [lra|]. right. exists L, H. repeat split; try lra; cbn; lra.
  - cbv zeta. set (m := 1 / 2 * (L + H)). assert (Hm : L < m < H) by (unfold m; lra).
    assert (Ew : forall w, w / 2 / 2 ^ n = w / 2 ^ S n) by (intros; cbn [pow]; field; apply pow_nonzero; lra).
    destruct (Rltb_spec (/ 10 ^ 12) (Rabs (F m - q))) as [D|D]; [|split; [exact Hm|left; apply Rnot_lt_le; exact D]].
    destruct (Rltb_spec 0 (F m - q)) as [P|P].
    + destruct (IH L m) as [A B]; [lra|lra|]. split; [lra|]. destruct B as [B|(L' & H' & B1 & B2 & B3 & B4 & B5)]; [left; exact B|right].
      exists L', H'. repeat split; try lra. rewrite B4, <- Ew. unfold m. f_equal. lra.
    + destruct (IH m H) as [A B]; [lra|lra|]. split; [lra|]. destruct B as [B|(L' & H' & B1 & B2 & B3 & B4 & B5)]; [left; exact B|right].
      exists L', H'. repeat split; try lra. rewrite B4, <- Ew. unfold m. f_equal. lra.
Qed.
Lemma von_F_0 iv num mu k : von_F iv num mu k 0 = 0.
Proof. pose proof PI2_pos. unfold von_F. rewrite wrap_in by lra. rewrite (proj2 (Rleb_false _ _)), (proj2 (Rltb_false _ _)) by lra. reflexivity. Qed.
Lemma von_F_1 iv num mu k : von_F iv num mu k (2 * PI) = 1.
Proof. pose proof PI2_pos. unfold von_F. rewrite wrap_in by lra. rewrite (proj2 (Rleb_true _ _)) by lra. reflexivity. Qed.
Lemma von_F_in iv num mu k x : 0 < x < 2 * PI -> von_F iv num mu k x = von_cdf iv num mu k x.
Proof. intros H. unfold von_F. rewrite wrap_in by lra. rewrite (proj2 (Rleb_false _ _)), (proj2 (Rltb_true _ _)) by lra. reflexivity. Qed.
Lemma von_start_range ndtri mu k q : 0 <= von_start ndtri mu k q < 2 * PI.
Proof. pose proof PI2_pos. unfold von_start. destruct (Rltb k _); [|destruct (Rltb 5 k)]; cbv zeta; apply pymod_range; assumption. Qed.
Lemma von_ppf_spec iv num ndtri mu k q : / 10 ^ 9 < k -> 0 < q < 1 ->
  let F := von_F iv num (pymod mu (2 * PI)) k in
  let qc := clip q (/ 10 ^ 15) (1 - / 10 ^ 15) in
  let th := von_ppf iv num ndtri mu k q in
  0 <= th < 2 * PI /\
  (Rabs (F th - qc) <= / 10 ^ 12 \/
   exists L H, 0 <= L /\ H <= 2 * PI /\ L <= th <= H /\ H - L <= 8 / 10 ^ 9 /\ F L <= qc < F H).
Proof.
  intros Hk Hq. cbv zeta. unfold von_ppf. rewrite (proj2 (Rleb_false _ _)) by lra. cbv zeta.
  set (m := pymod mu (2 * PI)). set (F := von_F iv num m k). set (qc := clip q (/ 10 ^ 15) (1 - / 10 ^ 15)).
  assert (Qc : / 10 ^ 15 <= qc <= 1 - / 10 ^ 15) by (apply clip_range; lra). pose proof PI_gt3 as P3. pose proof PI_4 as P4.
  destruct (von_newton F (von_pdf iv m k) qc 6 0 (2 * PI) (von_start ndtri m k qc)) as [[L H] th] eqn:E.
  pose proof (von_start_range ndtri m k qc) as Rs.
  apply von_newton_inv in E; [|lra|lra|lra|lra|unfold F; rewrite von_F_0, von_F_1; lra].
  destruct E as (E1 & E2 & E3 & E4 & E5 & E6).
  destruct (Rltb (/ 10 ^ 12) (Rabs (F th - qc)) || Rltb (/ 10 ^ 10) (H - L)) eqn:Eb.
  - destruct (von_bisect_spec F qc 30 L H E6 E2) as [A B]. rewrite pymod_small by lra. split; [lra|].
    destruct B as [B|(L' & H' & B1 & B2 & B3 & B4 & B5)]; [left; exact B|right]. exists L', H'. repeat split; try lra.
  - apply orb_false_iff in Eb as [Eb _]. apply Rltb_false in Eb. rewrite pymod_small by lra. split; [lra|left; exact Eb].
Qed.
(** The true distribution function as a continuous increasing function. *)
Lemma von_truth iv mu k : is_iv iv -> exists G, G 0 = 0 /\ G (2 * PI) = 1 /\
  (forall x, 0 <= x <= 2 * PI -> derivable_pt_lim G x (von_pdf iv mu k x)) /\
  (forall x, 0 <= x <= 2 * PI -> integral (von_pdf iv mu k) 0 x (G x)) /\
  (forall x y, 0 <= x -> x <= y -> y <= 2 * PI -> G x <= G y).
Proof.
  intros H. pose proof PI2_pos. destruct (primitive_exists (von_pdf iv mu k) 0 (2 * PI)) as [P HP]; [lra|intros; apply von_pdf_cont|].
  assert (D : forall x, 0 <= x <= 2 * PI -> derivable_pt_lim (fun x => P x - P 0) x (von_pdf iv mu k x)).
  { intros x Hx. eapply dlim_eq; [|apply dlim_minus; [apply HP; exact Hx|apply dlim_const]]. ring. }
  assert (I : forall x, 0 <= x <= 2 * PI -> integral (von_pdf iv mu k) 0 x (P x - P 0)).
  { intros x Hx. apply ftc; [lra|intros; apply von_pdf_cont|intros; apply HP; lra]. }
  exists (fun x => P x - P 0). split; [ring|]. split; [|split; [exact D|split; [exact I|]]].
  - eapply integral_unique; [apply I; lra|]. pose proof (von_total iv mu k 0 H) as T. rewrite Rplus_0_l in T. exact T.
  - intros x y Hx Hxy Hy. assert (J : integral (von_pdf iv mu k) x y (P y - P x)) by (apply ftc; [lra|intros; apply von_pdf_cont|intros; apply HP; lra]).
    apply (integral_le (fun _ => 0) (von_pdf iv mu k) x y) with (v := 0 * (y - x)) in J; [lra|lra| |apply integral_const].
    intros; left; apply von_pdf_pos; exact H.
Qed.
Lemma von_pdf_mod iv mu k x : von_pdf iv (pymod mu (2 * PI)) k x = von_pdf iv mu k x.
Proof.
  unfold von_pdf. f_equal. f_equal. f_equal. destruct (pymod_cong mu (2 * PI)) as [z Hz].
  replace (x - pymod mu (2 * PI)) with (x - mu + 2 * PI * IZR z) by lra. apply cos_turns.
Qed.
Lemma not_window x : 0 < x -> x <= 2 * PI - 9 / 100000 -> close_2pi x = false.
Proof.
  intros H0 H. pose proof PI_pos. pose proof PI_4. destruct (close_2pi x) eqn:E; [|reflexivity]. apply close_2pi_spec in E; lra.
Qed.
Lemma ivt_near G a b q e : a <= b -> (forall x, a <= x <= b -> continuity_pt G x) -> 0 <= e -> G a <= q + e -> q - e <= G b ->
  exists x, a <= x <= b /\ Rabs (G x - q) <= e.
Proof.
  intros L C He Ha Hb. destruct (Rle_dec (q - e) (G a)) as [A|A]; [exists a; split; [lra|apply Rabs_le; lra]|].
  destruct (Rle_dec (G b) (q + e)) as [B|B]; [exists b; split; [lra|apply Rabs_le; lra]|].
  assert (Lt : a < b) by (destruct (Req_dec a b) as [<-|]; lra).
  destruct (IVT_interv (fun x => G x - q) a b) as [z [Z1 Z2]].
  - intros x Hx. apply continuity_pt_minus; [apply C; exact Hx|apply cont_const].
  - exact Lt.
  - lra.
  - lra.
  - exists z. split; [exact Z1|]. rewrite Z2, Rabs_R0. exact He.
Qed.
Lemma von_ppf_acc iv num ndtri mu k q v : is_iv iv -> von_ok mu k = true -> / 10 ^ 9 < k ->
  (460 < k -> forall x w, 0 < x < 2 * PI -> integral (von_pdf iv mu k) 0 x w -> Rabs (num x (pymod mu (2 * PI)) k - w) <= / 10 ^ 10) ->
  0 < q < 1 -> integral (von_pdf iv mu k) 0 (2 * PI - 9 / 100000) v -> q <= v -> q <= 1 - / 10 ^ 11 ->
  let th := von_ppf iv num ndtri mu k q in
  0 <= th < 2 * PI /\ exists th' w, 0 <= th' <= 2 * PI /\ Rabs (th - th') <= 8 / 10 ^ 9 /\ integral (von_pdf iv mu k) 0 th' w /\ Rabs (w - q) <= 2 / 10 ^ 10.
Proof.
  intros H Hok Hk Hnum Hq Hv Hqv Hq1. cbv zeta. destruct (von_ppf_spec iv num ndtri mu k q Hk Hq) as [Rg S]. cbv zeta in S.
  set (th := von_ppf iv num ndtri mu k q) in *. split; [exact Rg|].
  set (m := pymod mu (2 * PI)) in *. pose proof PI2_pos as P2. pose proof PI_gt3 as P3. pose proof PI_4 as P4.
  apply von_ok_spec in Hok as [Hm Hk0].
  assert (Hok' : von_ok m k = true).
  { unfold von_ok. rewrite !andb_true_iff, !Rleb_true, Rltb_true. pose proof (pymod_range mu (2 * PI) P2). unfold m. lra. }
  destruct (von_truth iv mu k H) as (G & G0 & G1 & GD & GI & GM).
  assert (GC : forall x, 0 <= x <= 2 * PI -> continuity_pt G x) by (intros x Hx; eapply dlim_cont; apply GD; exact Hx).
  assert (Ev : v = G (2 * PI - 9 / 100000)) by (eapply integral_unique; [exact Hv|apply GI; lra]).
  assert (Acc : forall x, 0 <= x < 2 * PI -> Rabs (von_F iv num m k x - G x) <= / 10 ^ 10 \/ (2 * PI - 9 / 100000 <= x /\ von_F iv num m k x = 1)).
  { intros x Hx. destruct (Req_dec x 0) as [->|N0]; [left; rewrite von_F_0, G0, Rminus_diag_eq, Rabs_R0 by reflexivity; lra|].
    rewrite von_F_in by lra. destruct (close_2pi x) eqn:Cl.
    - assert (W : 2 * PI - 9 / 100000 <= x) by (destruct (Rle_dec (2 * PI - 9 / 100000) x) as [|N]; [assumption|rewrite not_window in Cl by lra; discriminate]).
      unfold von_cdf. rewrite Cl, (proj2 (Rltb_false _ _)) by lra. cbv zeta.
      destruct (von_loop _ _ _ _ _ _ _ _) as [[a b]|] eqn:El; [right; split; [exact W|reflexivity]|left].
      destruct (Rlt_dec 460 k) as [K|K]; [apply Hnum; [exact K|lra|apply GI; lra]|exfalso; revert El; apply von_converges; [exact H|lra]].
    - left. apply von_cdf_acc; try assumption; try lra.
      + intros K. apply Hnum; [exact K|lra|apply GI; lra].
      + eapply integral_ext; [|intros t _; symmetry; apply von_pdf_mod|apply GI]; lra. }
  assert (Win : forall x, 0 <= x <= 2 * PI -> 2 * PI - 9 / 100000 <= x -> q <= G x).
  { intros x Hx Hw. assert (G (2 * PI - 9 / 100000) <= G x) by (apply GM; lra). lra. }
  set (qc := clip q (/ 10 ^ 15) (1 - / 10 ^ 15)) in *.
  assert (Qc : Rabs (qc - q) <= / 10 ^ 15).
  { unfold qc, clip, Rmin, Rmax. apply Rabs_le. destruct (Rle_dec q _); destruct (Rle_dec _ (1 - _)); lra. }
  apply abs_le_inv in Qc.
  destruct S as [S|(L & U & S1 & S2 & S3 & S4 & S5)].
  - apply abs_le_inv in S. destruct (Acc th Rg) as [A|[_ A]]; [|lra]. apply abs_le_inv in A.
    exists th, (G th). split; [lra|].
    split; [rewrite Rminus_diag_eq, Rabs_R0 by reflexivity; lra|]. split; [apply GI; lra|]. apply Rabs_le. lra.
  - assert (GL : G L <= q + 2 / 10 ^ 10).
    { destruct (Acc L ltac:(lra)) as [A|[_ A]]; [apply abs_le_inv in A|]; lra. }
    assert (GU : q - 2 / 10 ^ 10 <= G U).
    { destruct (Req_dec U (2 * PI)) as [->|NU]; [lra|]. destruct (Acc U ltac:(lra)) as [A|[A _]]; [apply abs_le_inv in A; lra|].
      pose proof (Win U ltac:(lra) A). lra. }
    destruct (ivt_near G L U q (2 / 10 ^ 10)) as (z & Z1 & Z2); [lra|intros; apply GC; lra|lra|exact GL|exact GU|].
    exists z, (G z). split; [lra|]. split; [apply Rabs_le; lra|]. split; [apply GI; lra|exact Z2].
Qed.
