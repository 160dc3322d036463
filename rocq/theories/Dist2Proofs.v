(** Proofs about quantile functions: circularuniform and triangular. *)
From Verif Require Import Prelude NpModel NpProofs CircleSpec IntSpec IntProofs DistModel DistSpec DistProofs.

Lemma clip_in x lo hi : lo <= x <= hi -> clip x lo hi = x.
Proof. intros H. unfold clip. rewrite Rmax_left, Rmin_left by lra. reflexivity. Qed.
Lemma clip_range x lo hi : lo <= hi -> lo <= clip x lo hi <= hi.
Proof.
  intros H. unfold clip. split; [|apply Rmin_r].
  apply Rmin_glb; [apply Rmax_r|exact H].
Qed.

Lemma close_0_true atol x : 0 <= x -> close_0 atol x = true -> x <= atol.
Proof.
  intros H0 H. unfold close_0, isclose_tol in H. apply Rleb_true in H.
  rewrite Rabs_R0 in H. rewrite Rminus_0_r, Rabs_pos_eq in H by lra. lra.
Qed.
Lemma close_0_false atol x : 0 <= x -> close_0 atol x = false <-> atol < x.
Proof.
  intros H0. unfold close_0, isclose_tol. rewrite Rleb_false.
  rewrite Rabs_R0. rewrite Rminus_0_r, Rabs_pos_eq by lra. split; lra.
Qed.

Lemma cu_inverse q : 0 <= q <= 1 ->
  exists x, public_ppf true cu_ppf q = Fin x /\ 0 <= x <= 2 * PI /\ public_cdf true cu_cdf x = Fin q.
Proof.
  intros Hq. pose proof PI_pos. exists (2 * PI * q).
  assert (R : 0 <= 2 * PI * q <= 2 * PI) by (split; nra).
  split; [|split; [exact R|]].
  - unfold public_ppf, cu_ppf. cbn [negb].
    destruct (Rltb_spec 0 q), (Rltb_spec q 1); cbn [andb]; try reflexivity;
      destruct (Reqb_spec q 0); destruct (Reqb_spec q 1); try lra; subst; try (f_equal; ring).
  - rewrite public_cdf_fin. f_equal.
    rewrite (pub_F_eq cu_cdf cu_cdf); unfold cu_cdf; try reflexivity; try exact R; field; lra.
Qed.
Lemma cu_inverse2 x : 0 <= x < 2 * PI ->
  exists q, public_cdf true cu_cdf x = Fin q /\ 0 <= q <= 1 /\ public_ppf true cu_ppf q = Fin x.
Proof.
  intros Hx. pose proof PI_pos. exists (x / (2 * PI)).
  assert (Hq : 0 <= x / (2 * PI) < 1).
  { split.
    - apply Rmult_le_pos; [lra|]. apply Rlt_le, Rinv_0_lt_compat; lra.
    - apply (Rmult_lt_reg_r (2 * PI)); [lra|]. unfold Rdiv. rewrite Rmult_assoc, Rinv_l by lra. lra. }
  split; [|split; [lra|]].
  - rewrite public_cdf_fin. f_equal.
    rewrite (pub_F_eq cu_cdf cu_cdf); unfold cu_cdf; try reflexivity; try lra; field; lra.
  - unfold public_ppf, cu_ppf. cbn [negb].
    destruct (Rltb_spec 0 (x / (2 * PI))), (Rltb_spec (x / (2 * PI)) 1); cbn [andb]; try lra.
    + f_equal. field. lra.
    + destruct (Reqb_spec (x / (2 * PI)) 0) as [E|]; [|lra]. f_equal.
      replace x with (x / (2 * PI) * (2 * PI)) by (field; lra). rewrite E. ring.
Qed.

(** ** triangular *)

(** The uncut solution of the quadratic. *)
Definition tri_raw (rho q : R) : R :=
  if Rleb q (1 / 2) then
    (- (- (4 + PI ^ 2 * rho) / PI) - sqrt (Rmax ((- (4 + PI ^ 2 * rho) / PI) ^ 2 - 4 * rho * (8 * q)) 0)) / (2 * rho)
  else
    (- ((4 - 3 * PI ^ 2 * rho) / PI)
     + sqrt (Rmax (((4 - 3 * PI ^ 2 * rho) / PI) ^ 2 - 4 * rho * (2 * PI ^ 2 * rho - 8 * q)) 0)) / (2 * rho).
Lemma tri_ppf_raw rho q : / 10 ^ 12 < rho -> tri_ppf rho q = clip (tri_raw rho q) 0 (2 * PI - feps).
Proof.
  intros H. assert (0 < / 10 ^ 12) by (apply Rinv_0_lt_compat; lra).
  unfold tri_ppf, tri_raw. assert (K : close_0 (/ 10 ^ 12) rho = false) by (apply close_0_false; lra). rewrite K.
  destruct (Rleb q (1 / 2)); reflexivity.
Qed.

Lemma tri_raw_lo rho q : 0 < rho -> PI ^ 2 * rho <= 4 -> 0 <= q <= 1 / 2 ->
  0 <= tri_raw rho q <= PI /\ tri_lo rho (tri_raw rho q) = q.
Proof.
  intros H1 H2 Hq. pose proof PI_pos as Hp. unfold tri_raw.
  destruct (Rleb_spec q (1 / 2)) as [_|N]; [|lra].
  set (z := PI ^ 2 * rho) in *.
  assert (Hz : 0 < z) by (apply Rmult_lt_0_compat; [apply pow_lt; exact Hp|exact H1]).
  set (b := (4 + z) / PI).
  assert (Hb : b * PI = 4 + z) by (unfold b; field; lra).
  assert (Hb0 : 0 < b) by (apply Rdiv_lt_0_compat; lra).
  replace (- (4 + z) / PI) with (- b) by (unfold b; field; lra).
  set (e := (4 - z) / PI).
  assert (He : 0 <= e) by (apply Rmult_le_pos; [lra|apply Rlt_le, Rinv_0_lt_compat; lra]).
  assert (Hbe : b ^ 2 - 16 * rho = e ^ 2).
  { unfold b, e, z. field. lra. }
  set (D := (- b) ^ 2 - 4 * rho * (8 * q)).
  assert (HD : e ^ 2 <= D) by (unfold D; nra).
  assert (HD0 : 0 <= D) by (pose proof (pow2_ge_0 e); lra).
  rewrite Rmax_left by exact HD0.
  assert (Hs1 : e <= sqrt D).
  { rewrite <- (sqrt_pow2 e) by exact He. apply sqrt_le_1_alt. exact HD. }
  assert (Hs2 : sqrt D <= b).
  { rewrite <- (sqrt_pow2 b) by lra. apply sqrt_le_1_alt. unfold D. nra. }
  assert (Hs3 : sqrt D * sqrt D = D) by (apply sqrt_sqrt; exact HD0).
  set (x := (- - b - sqrt D) / (2 * rho)).
  assert (Hx : 2 * rho * x = b - sqrt D) by (unfold x; field; lra).
  assert (Hbd : b - e = 2 * rho * PI).
  { unfold b, e, z. field. lra. }
  split; [split|].
  - apply (Rmult_le_reg_l (2 * rho)); lra.
  - apply (Rmult_le_reg_l (2 * rho)); lra.
  - assert (Q : rho * x ^ 2 - b * x + 8 * q = 0).
    { apply (Rmult_eq_reg_l (4 * rho)); [|lra].
      replace (4 * rho * (rho * x ^ 2 - b * x + 8 * q))
        with ((2 * rho * x) ^ 2 - 2 * b * (2 * rho * x) + 32 * rho * q) by ring.
      rewrite Hx. replace ((b - sqrt D) ^ 2 - 2 * b * (b - sqrt D) + 32 * rho * q)
        with (sqrt D * sqrt D - b ^ 2 + 32 * rho * q) by ring.
      rewrite Hs3. unfold D. ring. }
    unfold tri_lo. fold z. rewrite <- Hb.
    replace (b * PI * x - PI * rho * x ^ 2) with (PI * (b * x - rho * x ^ 2)) by ring.
    replace (b * x - rho * x ^ 2) with (8 * q) by lra. field. lra.
Qed.

Lemma tri_raw_up rho q : 0 < rho -> PI ^ 2 * rho <= 4 -> 1 / 2 < q <= 1 ->
  PI <= tri_raw rho q <= 2 * PI /\ tri_up rho (tri_raw rho q) = q.
Proof.
  intros H1 H2 Hq. pose proof PI_pos as Hp. unfold tri_raw.
  destruct (Rleb_spec q (1 / 2)) as [N|_]; [lra|].
  replace (3 * PI ^ 2 * rho) with (3 * (PI ^ 2 * rho)) by ring.
  replace (2 * PI ^ 2 * rho) with (2 * (PI ^ 2 * rho)) by ring.
  set (z := PI ^ 2 * rho) in *.
  assert (Hz : 0 < z) by (apply Rmult_lt_0_compat; [apply pow_lt; exact Hp|exact H1]).
  set (b := (4 - 3 * z) / PI).
  assert (Hb : b * PI = 4 - 3 * z) by (unfold b; field; lra).
  set (e := (4 - z) / PI).
  assert (He : 0 <= e) by (apply Rmult_le_pos; [lra|apply Rlt_le, Rinv_0_lt_compat; lra]).
  set (g := (4 + z) / PI).
  assert (Hg : 0 < g) by (apply Rdiv_lt_0_compat; lra).
  assert (Hbe : b ^ 2 - 4 * rho * (2 * z - 4) = e ^ 2) by (unfold b, e, z; field; lra).
  assert (Hbg : b ^ 2 - 4 * rho * (2 * z - 8) = g ^ 2) by (unfold b, g, z; field; lra).
  set (D := b ^ 2 - 4 * rho * (2 * z - 8 * q)).
  assert (HD : e ^ 2 <= D) by (unfold D; nra).
  assert (HDg : D <= g ^ 2) by (unfold D; nra).
  assert (HD0 : 0 <= D) by (pose proof (pow2_ge_0 e); lra).
  rewrite Rmax_left by exact HD0.
  assert (Hs1 : e <= sqrt D).
  { rewrite <- (sqrt_pow2 e) by exact He. apply sqrt_le_1_alt. exact HD. }
  assert (Hs2 : sqrt D <= g).
  { rewrite <- (sqrt_pow2 g) by lra. apply sqrt_le_1_alt. exact HDg. }
  assert (Hs3 : sqrt D * sqrt D = D) by (apply sqrt_sqrt; exact HD0).
  set (x := (- b + sqrt D) / (2 * rho)).
  assert (Hx : 2 * rho * x = sqrt D - b) by (unfold x; field; lra).
  assert (Hbd : e - b = 2 * rho * PI) by (unfold b, e, z; field; lra).
  assert (Hbd2 : g - b = 2 * rho * (2 * PI)) by (unfold b, g, z; field; lra).
  split; [split|].
  - apply (Rmult_le_reg_l (2 * rho)); lra.
  - apply (Rmult_le_reg_l (2 * rho)); lra.
  - assert (Q : rho * x ^ 2 + b * x + (2 * z - 8 * q) = 0).
    { apply (Rmult_eq_reg_l (4 * rho)); [|lra].
      replace (4 * rho * (rho * x ^ 2 + b * x + (2 * z - 8 * q)))
        with ((2 * rho * x) ^ 2 + 2 * b * (2 * rho * x) + 4 * rho * (2 * z - 8 * q)) by ring.
      rewrite Hx. replace ((sqrt D - b) ^ 2 + 2 * b * (sqrt D - b) + 4 * rho * (2 * z - 8 * q))
        with (sqrt D * sqrt D - b ^ 2 + 4 * rho * (2 * z - 8 * q)) by ring.
      rewrite Hs3. unfold D. ring. }
    unfold tri_up. replace (4 - 3 * PI ^ 2 * rho) with (b * PI) by (rewrite Hb; unfold z; ring).
    replace (b * PI * (x - PI) + PI * rho * (x ^ 2 - PI ^ 2))
      with (PI * (rho * x ^ 2 + b * x + (2 * z - 8 * q)) - PI * (b * PI) - PI * rho * PI ^ 2 - PI * (2 * z - 8 * q)) by ring.
    rewrite Q, Hb. unfold z. field. lra.
Qed.

Lemma tri_raw_G rho q : 0 < rho -> PI ^ 2 * rho <= 4 -> 0 <= q <= 1 ->
  0 <= tri_raw rho q <= 2 * PI /\ tri_G rho (tri_raw rho q) = q.
Proof.
  intros H1 H2 Hq. pose proof PI_pos as Hp. unfold tri_G.
  destruct (Rle_dec q (1 / 2)) as [L|L].
  - destruct (tri_raw_lo rho q H1 H2 ltac:(lra)) as [A B]. split; [lra|].
    destruct (Rle_dec (tri_raw rho q) PI); [exact B|lra].
  - destruct (tri_raw_up rho q H1 H2 ltac:(lra)) as [A B]. split; [lra|].
    destruct (Rle_dec (tri_raw rho q) PI) as [E|E]; [|exact B].
    assert (E' : tri_raw rho q = PI) by lra. rewrite E' in *.
    rewrite <- B. unfold tri_lo, tri_up. field. lra.
Qed.

Lemma feps_small : 0 < feps /\ feps <= / 10 ^ 15.
Proof.
  unfold feps. split.
  - apply Rinv_0_lt_compat. apply pow_lt. lra.
  - apply Rinv_le_contravar; lra.
Qed.

(** The density is at most 1/pi, so the distribution function is 1/pi-Lipschitz. *)
Lemma tri_lip rho a b : 0 <= rho -> PI ^ 2 * rho <= 4 -> 0 <= a -> a <= b -> b <= 2 * PI ->
  0 <= tri_G rho b - tri_G rho a <= (b - a) / PI.
Proof.
  intros H1 H2 Ha Hab Hb. pose proof PI_pos as Hp.
  split.
  - assert (tri_G rho a <= tri_G rho b); [|lra].
    apply (mono_of_dlim (tri_G rho) (tri_pdf rho) 0 (2 * PI)); try lra.
    + intros. apply tri_G_d.
    + intros. apply tri_pdf_nonneg; assumption.
  - assert (K : a / PI - tri_G rho a <= b / PI - tri_G rho b).
    { apply (mono_of_dlim (fun x => x / PI - tri_G rho x) (fun x => 1 / PI - tri_pdf rho x) 0 (2 * PI)); try lra.
      - intros. apply dlim_minus; [apply dlim_divc; apply dlim_id|apply tri_G_d].
      - intros x Hx. unfold tri_pdf.
        replace (1 / PI - (4 - PI ^ 2 * rho + 2 * PI * rho * Rabs (PI - x)) / 8 / PI)
          with ((4 + PI ^ 2 * rho - 2 * PI * rho * Rabs (PI - x)) / (8 * PI)) by (field; lra).
        apply Rmult_le_pos; [|apply Rlt_le, Rinv_0_lt_compat; lra].
        assert (Rabs (PI - x) <= PI) by (apply Rabs_le; lra).
        assert (PI * rho * Rabs (PI - x) <= PI * rho * PI).
        { apply Rmult_le_compat_l; [nra|assumption]. }
        nra. }
    unfold Rdiv in *. nra.
Qed.

Lemma tri_inverse rho q : tri_ok rho = true -> 0 <= q <= 1 ->
  exists x p, public_ppf (tri_ok rho) (tri_ppf rho) q = Fin x /\ 0 <= x <= 2 * PI /\
    public_cdf (tri_ok rho) (tri_cdf rho) x = Fin p /\ Rabs (p - q) <= / 10 ^ 12 /\
    (/ 10 ^ 12 < rho -> q <= 1 - / 10 ^ 15 -> p = q).
Proof.
  intros Hok Hq. pose proof PI_pos as Hp. pose proof feps_small as [F1 F2].
  assert (T12 : 0 < / 10 ^ 12) by (apply Rinv_0_lt_compat; lra).
  assert (T15 : / 10 ^ 15 <= / 10 ^ 12) by (apply Rinv_le_contravar; lra).
  rewrite Hok. apply tri_ok_spec in Hok. destruct Hok as [H1 H2].
  assert (C : forall x, 0 <= x <= 2 * PI -> public_cdf true (tri_cdf rho) x = Fin (tri_G rho x)).
  { intros x Hx. rewrite public_cdf_fin. f_equal.
    apply pub_F_eq; try exact Hx; [apply tri_G_0|apply tri_G_2pi|].
    intros y Hy. apply tri_cdf_G. exact Hy. }
  destruct (Req_dec q 0) as [->|Q0].
  { exists 0, 0. split; [unfold public_ppf; cbn [negb]|].
    - destruct (Rltb_spec 0 0); [lra|]. cbn [andb]. destruct (Reqb_spec 0 0); [reflexivity|lra].
    - split; [lra|]. rewrite C by lra. rewrite tri_G_0. split; [reflexivity|].
      rewrite Rminus_0_r, Rabs_R0. split; [lra|auto]. }
  destruct (Req_dec q 1) as [->|Q1].
  { exists (2 * PI), 1. split; [unfold public_ppf; cbn [negb]|].
    - destruct (Rltb_spec 1 1); [lra|]. rewrite andb_false_r. destruct (Reqb_spec 1 0); [lra|].
      destruct (Reqb_spec 1 1); [reflexivity|lra].
    - split; [lra|]. rewrite C by lra. rewrite tri_G_2pi. split; [reflexivity|].
      rewrite Rminus_diag_eq, Rabs_R0 by reflexivity. split; [lra|auto]. }
  assert (PP : public_ppf true (tri_ppf rho) q = Fin (tri_ppf rho q)).
  { unfold public_ppf. cbn [negb]. destruct (Rltb_spec 0 q); [|lra]. destruct (Rltb_spec q 1); [|lra]. reflexivity. }
  assert (PI1 : 1 < PI) by (pose proof PI2_1; lra).
  assert (CUT : forall r, 0 <= r <= 2 * PI -> tri_G rho r - tri_G rho (clip r 0 (2 * PI - feps)) <= / 10 ^ 15 /\
     0 <= tri_G rho r - tri_G rho (clip r 0 (2 * PI - feps))).
  { intros r Hr. destruct (Rle_dec r (2 * PI - feps)) as [L|L].
    - rewrite clip_in by lra. split; [|lra]. assert (0 < / 10 ^ 15) by (apply Rinv_0_lt_compat; lra). lra.
    - assert (E : clip r 0 (2 * PI - feps) = 2 * PI - feps).
      { unfold clip. rewrite Rmax_left by lra. rewrite Rmin_right by lra. reflexivity. }
      rewrite E. pose proof (tri_lip rho (2 * PI - feps) r H1 H2 ltac:(lra) ltac:(lra) ltac:(lra)) as [A B].
      split; [|exact A]. eapply Rle_trans; [exact B|].
      apply (Rmult_le_reg_r PI); [lra|]. unfold Rdiv. rewrite Rmult_assoc, Rinv_l by lra. nra. }
  exists (tri_ppf rho q), (tri_G rho (tri_ppf rho q)).
  assert (RNG : 0 <= tri_ppf rho q <= 2 * PI).
  { unfold tri_ppf. pose proof (clip_range
      (if close_0 (/ 10 ^ 12) rho then q * (2 * PI)
    else if Rleb q (1 / 2) then
      let b := - (4 + PI ^ 2 * rho) / PI in
      let disc := Rmax (b ^ 2 - 4 * rho * (8 * q)) 0 in
      (- b - sqrt disc) / (2 * rho)
    else
      let b := (4 - 3 * PI ^ 2 * rho) / PI in
      let c := 2 * PI ^ 2 * rho - 8 * q in
      let disc := Rmax (b ^ 2 - 4 * rho * c) 0 in
      (- b + sqrt disc) / (2 * rho)) 0 (2 * PI - feps) ltac:(lra)) as K. lra. }
  split; [exact PP|]. split; [exact RNG|]. split; [apply C; exact RNG|].
  destruct (Rle_dec rho (/ 10 ^ 12)) as [S|S].
  - split; [|lra].
    assert (E : tri_ppf rho q = clip (q * (2 * PI)) 0 (2 * PI - feps)).
    { unfold tri_ppf. destruct (close_0 (/ 10 ^ 12) rho) eqn:K; [reflexivity|].
      apply close_0_false in K; lra. }
    rewrite E. destruct (CUT (q * (2 * PI)) ltac:(nra)) as [A B].
    assert (Rabs (tri_G rho (q * (2 * PI)) - q) <= rho * 5 / 8).
    { set (x := q * (2 * PI)) in *. assert (Hx : 0 <= x <= 2 * PI) by (unfold x; nra).
      replace q with (x / (2 * PI)) by (unfold x; field; lra).
      assert (P4 : PI <= 4) by apply PI_4.
      unfold tri_G. destruct (Rle_dec x PI) as [L|L].
      - unfold tri_lo. replace (((4 + PI ^ 2 * rho) * x - PI * rho * x ^ 2) / (8 * PI) - x / (2 * PI))
          with (rho * (x * (PI - x)) / 8) by (field; lra).
        assert (0 <= x * (PI - x)) by (apply Rmult_le_pos; lra).
        assert (x * (PI - x) <= 4).
        { pose proof (pow2_ge_0 (x - PI / 2)). nra. }
        rewrite Rabs_pos_eq; nra.
      - unfold tri_up.
        replace (1 / 2 + ((4 - 3 * PI ^ 2 * rho) * (x - PI) + PI * rho * (x ^ 2 - PI ^ 2)) / (8 * PI) - x / (2 * PI))
          with (- (rho * ((x - PI) * (2 * PI - x)) / 8)) by (field; lra).
        assert (0 <= (x - PI) * (2 * PI - x)) by (apply Rmult_le_pos; lra).
        assert ((x - PI) * (2 * PI - x) <= 4).
        { pose proof (pow2_ge_0 (x - 3 * PI / 2)). nra. }
        rewrite Rabs_Ropp, Rabs_pos_eq; nra. }
    assert (T15' : / 10 ^ 15 <= / 10 ^ 12 / 8).
    { replace (/ 10 ^ 12 / 8) with (/ (10 ^ 12 * 8)) by (field; lra). apply Rinv_le_contravar; lra. }
    assert (- (rho * 5 / 8) <= tri_G rho (q * (2 * PI)) - q <= rho * 5 / 8).
    { revert H. unfold Rabs. destruct (Rcase_abs _); lra. }
    apply Rabs_le. lra.
  - assert (S' : / 10 ^ 12 < rho) by lra.
    rewrite tri_ppf_raw by exact S'.
    destruct (tri_raw_G rho q ltac:(lra) H2 Hq) as [A B].
    destruct (CUT (tri_raw rho q) A) as [K1 K2]. rewrite B in K1, K2.
    split; [apply Rabs_le; lra|]. intros _ Hlt.
    assert (L : tri_raw rho q <= 2 * PI - feps).
    { apply Rnot_lt_le. intros G.
      pose proof (tri_lip rho (tri_raw rho q) (2 * PI) H1 H2 ltac:(lra) ltac:(lra) ltac:(lra)) as [M1 M2].
      rewrite B, tri_G_2pi in M2.
      assert ((2 * PI - tri_raw rho q) / PI < / 10 ^ 15).
      { apply (Rmult_lt_reg_r PI); [lra|]. unfold Rdiv. rewrite Rmult_assoc, Rinv_l by lra.
        assert (0 < / 10 ^ 15) by (apply Rinv_0_lt_compat; lra). nra. }
      lra. }
    rewrite clip_in by lra. exact B.
Qed.

(** ppf(cdf(x)) = x. *)
Lemma tri_inverse2 rho x : tri_ok rho = true -> / 10 ^ 12 < rho -> 0 <= x <= 2 * PI - feps ->
  exists q, public_cdf (tri_ok rho) (tri_cdf rho) x = Fin q /\ 0 <= q <= 1 /\
    public_ppf (tri_ok rho) (tri_ppf rho) q = Fin x.
Proof.
  intros Hok Hr Hx. pose proof PI_pos as Hp. pose proof feps_small as [F1 F2].
  assert (T12 : 0 < / 10 ^ 12) by (apply Rinv_0_lt_compat; lra).
  rewrite Hok. apply tri_ok_spec in Hok. destruct Hok as [H1 H2].
  exists (tri_G rho x).
  assert (C : public_cdf true (tri_cdf rho) x = Fin (tri_G rho x)).
  { rewrite public_cdf_fin. f_equal.
    apply pub_F_eq; try lra; [apply tri_G_0|apply tri_G_2pi|].
    intros y Hy. apply tri_cdf_G. exact Hy. }
  split; [exact C|].
  pose proof (tri_lip rho 0 x H1 H2 ltac:(lra) ltac:(lra) ltac:(lra)) as [L1 L2]. rewrite tri_G_0 in L1.
  pose proof (tri_lip rho x (2 * PI) H1 H2 ltac:(lra) ltac:(lra) ltac:(lra)) as [U1 U2]. rewrite tri_G_2pi in U1.
  split; [lra|].
  set (z := PI ^ 2 * rho) in *.
  assert (Hz : 0 < z) by (apply Rmult_lt_0_compat; [apply pow_lt; exact Hp|lra]).
  assert (RAW : tri_raw rho (tri_G rho x) = x).
  { unfold tri_G. destruct (Rle_dec x PI) as [L|L].
    - assert (Q : tri_lo rho x <= 1 / 2).
      { pose proof (tri_lip rho x PI H1 H2 ltac:(lra) ltac:(lra) ltac:(lra)) as [M1 M2].
        unfold tri_G in M1. destruct (Rle_dec x PI); [|lra]. destruct (Rle_dec PI PI); [|lra].
        replace (tri_lo rho PI) with (1 / 2) in M1 by (unfold tri_lo; field; lra). lra. }
      unfold tri_raw. destruct (Rleb_spec (tri_lo rho x) (1 / 2)); [|lra].
      replace ((- (4 + PI ^ 2 * rho) / PI) ^ 2 - 4 * rho * (8 * tri_lo rho x))
        with (((4 + z) / PI - 2 * rho * x) ^ 2) by (unfold tri_lo, z; field; lra).
      assert (0 <= (4 + z) / PI - 2 * rho * x).
      { apply (Rmult_le_reg_r PI); [lra|].
        replace (((4 + z) / PI - 2 * rho * x) * PI) with (4 + z - 2 * rho * x * PI) by (field; lra).
        assert (0 <= rho * PI * (PI - x)) by (apply Rmult_le_pos; [apply Rmult_le_pos|]; lra). unfold z in *. nra. }
      rewrite Rmax_left by apply pow2_ge_0. rewrite sqrt_pow2 by assumption.
      unfold z. field. lra.
    - assert (Q : 1 / 2 < tri_up rho x).
      { unfold tri_up. fold z.
        replace (1 / 2 + ((4 - 3 * PI ^ 2 * rho) * (x - PI) + PI * rho * (x ^ 2 - PI ^ 2)) / (8 * PI))
          with (1 / 2 + (x - PI) * ((4 - z) + PI * rho * (x - PI)) / (8 * PI)) by (unfold z; field; lra).
        assert (0 < (x - PI) * (4 - z + PI * rho * (x - PI)) / (8 * PI)); [|lra].
        apply Rdiv_lt_0_compat; [|lra]. apply Rmult_lt_0_compat; [lra|].
        assert (0 < PI * rho * (x - PI)) by (apply Rmult_lt_0_compat; [apply Rmult_lt_0_compat|]; lra). lra. }
      unfold tri_raw. destruct (Rleb_spec (tri_up rho x) (1 / 2)); [lra|].
      replace (((4 - 3 * PI ^ 2 * rho) / PI) ^ 2 - 4 * rho * (2 * PI ^ 2 * rho - 8 * tri_up rho x))
        with (((4 - 3 * z) / PI + 2 * rho * x) ^ 2) by (unfold tri_up, z; field; lra).
      assert (0 <= (4 - 3 * z) / PI + 2 * rho * x).
      { apply (Rmult_le_reg_r PI); [lra|].
        replace (((4 - 3 * z) / PI + 2 * rho * x) * PI) with (4 - 3 * z + 2 * rho * x * PI) by (field; lra).
        assert (0 <= rho * PI * (x - PI)) by (apply Rmult_le_pos; [apply Rmult_le_pos|]; lra). unfold z in *. nra. }
      rewrite Rmax_left by apply pow2_ge_0. rewrite sqrt_pow2 by assumption.
      unfold z. field. lra. }
  unfold public_ppf. cbn [negb].
  assert (PP : tri_ppf rho (tri_G rho x) = x).
  { rewrite tri_ppf_raw, RAW by exact Hr. apply clip_in. lra. }
  rewrite PP.
  destruct (Rltb_spec 0 (tri_G rho x)), (Rltb_spec (tri_G rho x) 1); cbn [andb]; try reflexivity.
  - exfalso. assert (E : tri_G rho x = 1) by lra. rewrite E in RAW.
    assert (R1 : tri_raw rho 1 = 2 * PI); [|lra].
    unfold tri_raw. destruct (Rleb_spec 1 (1 / 2)); [lra|].
    replace (((4 - 3 * PI ^ 2 * rho) / PI) ^ 2 - 4 * rho * (2 * PI ^ 2 * rho - 8 * 1))
      with (((4 + z) / PI) ^ 2) by (unfold z; field; lra).
    rewrite Rmax_left by apply pow2_ge_0.
    rewrite sqrt_pow2 by (apply Rlt_le, Rdiv_lt_0_compat; lra). unfold z. field. lra.
  - assert (E : tri_G rho x = 0) by lra. rewrite E in *.
    destruct (Reqb_spec 0 0); [|lra]. f_equal. rewrite <- RAW.
    unfold tri_raw. destruct (Rleb_spec 0 (1 / 2)); [|lra].
    replace ((- (4 + PI ^ 2 * rho) / PI) ^ 2 - 4 * rho * (8 * 0))
      with (((4 + z) / PI) ^ 2) by (unfold z; field; lra).
    rewrite Rmax_left by apply pow2_ge_0.
    rewrite sqrt_pow2 by (apply Rlt_le, Rdiv_lt_0_compat; lra). unfold z. field. lra.
  - lra.
Qed.
