(** The quantiles read from a table. *)
From Verif Require Import Prelude NpModel NpProofs CircleSpec IntSpec IntProofs DistModel DistSpec DistProofs Dist2Proofs Dist4Proofs Dist5Proofs
  Dist6Proofs Dist7Proofs KjProofs Kj2Proofs Von3Proofs Von4Proofs JpProofs Jp3Proofs Wn3Proofs Wn6Proofs Ws3Proofs GaussProofs Von6Proofs Jp5Proofs
  FtModel FtSpec FtProofs Ft2Proofs Ft4Proofs Ft5Proofs.
From Coq Require Import Ranalysis5.

Lemma count_below (c : nat -> R) t n : (forall i j, (i <= j)%nat -> (j < n)%nat -> c i <= c j) ->
  let k := length (filter (fun i => Rleb (c i) t) (seq 0 n)) in
  (k <= n)%nat /\ (forall i, (i < k)%nat -> c i <= t) /\ (forall i, (k <= i)%nat -> (i < n)%nat -> t < c i).
Proof.
  induction n as [|n IH]; intros Mn; [cbn; repeat split; intros; lia|].
  destruct (IH ltac:(intros; apply Mn; lia)) as (K1 & K2 & K3). clear IH. cbv zeta. rewrite seq_S, filter_app, app_length. cbn [filter plus].
  set (k := length (filter (fun i => Rleb (c i) t) (seq 0 n))) in *. destruct (Rleb_spec (c n) t) as [L|L]; cbn [length].
  - assert (k = n) as E. { destruct (Nat.eq_dec k n) as [|Nk]; [assumption|]. pose proof (K3 k (le_n k) ltac:(lia)). pose proof (Mn k n ltac:(lia) ltac:(lia)). lra. }
    rewrite E. split; [lia|]. split; [|intros; lia]. intros i Hi. pose proof (Mn i n ltac:(lia) ltac:(lia)). lra.
  - rewrite Nat.add_0_r. split; [lia|]. split; [exact K2|]. intros i Hi Hn. destruct (Nat.eq_dec i n) as [->|]; [lra|apply K3; lia].
Qed.
Lemma clip_bounds x lo hi : lo <= hi -> lo <= clip x lo hi <= hi.
Proof. intros H. unfold clip. split; [apply Rmin_glb; [apply Rmax_r|exact H]|apply Rmin_r]. Qed.
Lemma table_newton_in H p t : forall n lo hi phi, lo <= phi <= hi -> lo <= table_newton H p t n lo hi phi <= hi.
Proof.
  induction n as [|n IH]; intros lo hi phi B; [exact B|]. cbn [table_newton]. cbv zeta.
  destruct (Rleb _ _ && Rleb _ _); [exact B|].
  destruct (Rltb 0 (H phi - t)).
  - rewrite (Rmin_right hi phi) by lra.
    match goal with |- _ <= table_newton H p t n lo phi (clip ?c _ _) <= _ => pose proof (IH lo phi (clip c lo phi) (clip_bounds c lo phi ltac:(lra))) end. lra.
  - rewrite (Rmax_right lo phi) by lra.
    match goal with |- _ <= table_newton H p t n phi hi (clip ?c _ _) <= _ => pose proof (IH phi hi (clip c phi hi) (clip_bounds c phi hi ltac:(lra))) end. lra.
Qed.
Lemma good_mono H a b : good_H H -> - PI <= a -> a <= b -> b <= PI -> H a <= H b.
Proof. intros G Ha ab Hb. destruct (Req_dec a b) as [->|]; [lra|]. left. apply (gh_inc H G); lra. Qed.
Lemma good_solve H t a b : good_H H -> - PI <= a -> a <= b -> b <= PI -> H a <= t <= H b -> exists x, a <= x <= b /\ H x = t.
Proof.
  intros G Ha ab Hb B. destruct (Req_dec (H a) t) as [E|E]; [exists a; split; [lra|exact E]|]. destruct (Req_dec (H b) t) as [E'|E']; [exists b; split; [lra|exact E']|].
  assert (ab' : a < b). { destruct (Req_dec a b) as [->|]; lra. }
  destruct (IVT_interv (fun x => H x - t) a b) as [x [Hx Ex]]; [|exact ab'|lra|lra|].
  - intros x Hx. apply continuity_pt_minus; [apply (gh_cont H G); lra|apply cont_const].
  - exists x. split; [exact Hx|lra].
Qed.
Lemma table_ppf_near N H p guess steps mu q : (0 < N)%nat -> good_H H -> / 10 ^ 12 < q < 1 - / 10 ^ 12 ->
  exists x (z : Z), 0 < x < 2 * PI /\ from_zero H mu x = q /\ 0 <= table_ppf N (fun i => H (node N i)) H p guess steps mu q < 2 * PI /\
    Rabs (table_ppf N (fun i => H (node N i)) H p guess steps mu q - x + 2 * PI * IZR z) <= 2 * PI / INR N.
Proof.
  intros HN G Hq. pose proof PI_gt3. assert (T12 : 0 < / 10 ^ 12) by (apply Rinv_0_lt_compat, pow_lt; lra).
  assert (Q0 : isclose_tol 0 (/ 10 ^ 12) q 0 = false) by (unfold isclose_tol; apply Rleb_false; rewrite Rmult_0_l, Rminus_0_r, (Rabs_pos_eq q) by lra; lra).
  assert (Q1 : isclose_tol 0 (/ 10 ^ 12) q 1 = false) by (unfold isclose_tol; apply Rleb_false; rewrite Rmult_0_l, (Rabs_left (q - 1)) by lra; lra).
  unfold table_ppf. rewrite Q0, Q1. cbv zeta.
  pose proof (centre_range (- mu)) as Rg. destruct (centre_turns (- mu)) as [zs Es]. set (s := pymod (- mu + PI) (2 * PI) - PI) in *.
  pose proof (pymod_range (H s + q) 1 ltac:(lra)) as Rt. set (t := pymod (H s + q) 1) in *.
  assert (Mc : forall i j, (i <= j)%nat -> (j < S N)%nat -> H (node N i) <= H (node N j)).
  { intros i j ij jN. apply good_mono; [exact G| |apply node_le; lia|].
    - rewrite <- (node_0 N). apply node_le; lia.
    - rewrite <- (node_N N HN). apply node_le; lia. }
  pose proof (count_below (fun i => H (node N i)) t (S N) Mc) as (K1 & K2 & K3). cbv zeta in K1, K2, K3.
  set (k := length (filter (fun i => Rleb (H (node N i)) t) (seq 0 (S N)))) in *.
  assert (k1 : (1 <= k)%nat). { destruct k as [|k']; [|lia]. pose proof (K3 0%nat (le_n _) ltac:(lia)) as X. rewrite node_0, (gh_lo H G) in X. lra. }
  assert (kN : (k <= N)%nat). { destruct (Nat.le_gt_cases k N) as [|X]; [assumption|]. pose proof (K2 N X) as Y. rewrite node_N, (gh_hi H G) in Y by exact HN. lra. }
  rewrite (Nat.max_l k 1) by exact k1. rewrite (Nat.min_l k N) by exact kN.
  pose proof (K2 (k - 1)%nat ltac:(lia)) as Lo. pose proof (K3 k (le_n k) ltac:(lia)) as Hi.
  assert (N0 : - PI <= node N (k - 1)) by (rewrite <- (node_0 N); apply node_le; lia). assert (N1 : node N k <= PI) by (rewrite <- (node_N N HN); apply node_le; lia).
  assert (NN : node N k = node N (k - 1) + 2 * PI / INR N) by (replace k with (S (k - 1)) at 1 by lia; apply node_S). pose proof (step_pos N HN) as SP.
  match goal with |- context [table_newton ?a ?b ?c ?d ?e ?f ?g] => assert (B : node N (k - 1) <= table_newton a b c d e f g <= node N k) by (apply table_newton_in, clip_bounds; lra); set (phi := table_newton a b c d e f g) in * end.
  destruct (good_solve H t (node N (k - 1)) (node N k) G N0 ltac:(lra) N1 ltac:(lra)) as (ps & Bp & Ep).
  assert (ps < PI). { destruct (Rle_lt_dec PI ps) as [X|X]; [|exact X]. assert (ps = PI) as E by lra. rewrite E, (gh_hi H G) in Ep. lra. }
  pose proof (pymod_range (mu + ps) (2 * PI) ltac:(lra)) as Rx. destruct (pymod_cong (mu + ps) (2 * PI)) as [z1 Ez1].
  destruct (pymod_cong (mu + phi) (2 * PI)) as [z2 Ez2]. pose proof (pymod_range (mu + phi) (2 * PI) ltac:(lra)) as Ry.
  set (x := pymod (mu + ps) (2 * PI)) in *.
  assert (Cx : pymod (x - mu + PI) (2 * PI) - PI = ps).
  { destruct (centre_turns (x - mu)) as [z3 E3]. pose proof (centre_range (x - mu)) as R3.
    assert (Q : exists w : Z, pymod (x - mu + PI) (2 * PI) - PI = ps + 2 * PI * IZR w). { exists (z3 - z1)%Z. rewrite minus_IZR. lra. }
    destruct Q as [w Ew]. assert (w = 0)%Z as ->; [|lra]. apply one_IZR_lt1. split; apply Rmult_lt_reg_l with (2 * PI); lra. }
  assert (Es' : pymod (0 - mu + PI) (2 * PI) - PI = s) by (unfold s; replace (0 - mu + PI) with (- mu + PI) by ring; reflexivity).
  assert (tq : t = H s + q \/ t = H s + q - 1).
  { pose proof (good_mono H (- PI) s G ltac:(lra) ltac:(lra) ltac:(lra)) as U0. assert (U1 : H s < H PI) by (apply (gh_inc H G); lra). rewrite (gh_lo H G) in U0. rewrite (gh_hi H G) in U1.
    unfold t. destruct (Rlt_le_dec (H s + q) 1) as [X|X]; [left; apply pymod_small; lra|right].
    replace (H s + q) with ((H s + q - 1) + 1 * IZR 1) by (cbn; ring). rewrite pymod_add by lra. rewrite pymod_small by lra. ring. }
  exists x, (z2 - z1)%Z. split; [|split; [|split]].
  - split; [|lra]. destruct Rx as [[X|X] _]; [exact X|]. exfalso. rewrite <- X, Es' in Cx. rewrite Cx in tq. lra.
  - unfold from_zero. cbv zeta. fold s. rewrite Cx, Ep. destruct tq as [-> | ->].
    + rewrite (proj2 (Rltb_false _ _)) by lra. rewrite clip_id by lra. ring.
    + rewrite (proj2 (Rltb_true _ _)) by lra. rewrite clip_id by lra. ring.
  - exact Ry.
  - rewrite minus_IZR. replace (pymod (mu + phi) (2 * PI) - x + 2 * PI * (IZR z2 - IZR z1)) with (phi - ps) by lra. apply Rabs_le. lra.
Qed.

Lemma ft_ppf_near pchip guess mu kappa nu q : is_pchip pchip -> ft_ok mu kappa nu = true -> kappa <= 348 -> / 10 ^ 12 < q < 1 - / 10 ^ 12 ->
  exists y x (z : Z), ft_public_ppf pchip guess mu kappa nu q = Fin y /\ 0 <= y < 2 * PI /\ 0 < x < 2 * PI /\
    (ft_public_cdf pchip mu kappa nu x = Fin q \/ 2 * PI - / 10 ^ 12 <= x) /\ Rabs (y - x + 2 * PI * IZR z) <= 2 * PI / 512.
Proof.
  intros HP Hok Hs Hq. pose proof PI_gt3. pose proof (proj1 (ft_ok_spec _ _ _) Hok) as (Hm & Hk & Hn). assert (T12 : 0 < / 10 ^ 12) by (apply Rinv_0_lt_compat, pow_lt; lra).
  assert (Q0 : isclose_tol 0 (/ 10 ^ 12) q 0 = false) by (unfold isclose_tol; apply Rleb_false; rewrite Rmult_0_l, Rminus_0_r, (Rabs_pos_eq q) by lra; lra).
  assert (Q1 : isclose_tol 0 (/ 10 ^ 12) q 1 = false) by (unfold isclose_tol; apply Rleb_false; rewrite Rmult_0_l, (Rabs_left (q - 1)) by lra; lra).
  assert (P : forall y, ft_ppf pchip guess mu kappa nu q = y -> ft_public_ppf pchip guess mu kappa nu q = Fin y).
  { intros y <-. unfold ft_public_ppf, public_ppf. rewrite Hok. cbn [negb]. rewrite (proj2 (Rltb_true 0 q)), (proj2 (Rltb_true q 1)) by lra. reflexivity. }
  assert (W : forall x, 0 < x < 2 * PI -> ft_public_cdf pchip mu kappa nu x = Fin (ft_cdf pchip mu kappa nu x)).
  { intros x Hx. unfold ft_public_cdf. rewrite Hok, public_cdf_fin. unfold pub_F. rewrite wrap_in by lra. rewrite (proj2 (Rleb_false _ _)), (proj2 (Rltb_true 0 x)) by lra. reflexivity. }
  destruct (Rle_lt_dec kappa ft_ktol) as [Hz|Hz].
  - assert (B : 0 < 2 * PI * q < 2 * PI) by nra. exists (2 * PI * q), (2 * PI * q), 0%Z. split; [|split; [lra|split; [exact B|split]]].
    + apply P. unfold ft_ppf. rewrite (proj2 (Rleb_true _ _)) by exact Hz. rewrite Q0, Q1. apply pymod_small. lra.
    + destruct (Rle_lt_dec (2 * PI - / 10 ^ 12) (2 * PI * q)) as [L|L]; [right; exact L|left]. rewrite W by exact B. f_equal. unfold ft_cdf, ft_kmax. rewrite clip_id by lra. cbv zeta.
      rewrite (proj2 (Rleb_true _ _)) by exact Hz. change (flagged (fun x => x / (2 * PI)) (2 * PI * q) = q). rewrite flagged_miss by (rewrite Rabs_left by lra; lra). field. lra.
    + replace (2 * PI * q - 2 * PI * q + 2 * PI * 0) with 0 by ring. rewrite Rabs_R0. lra.
  - pose proof (ft_tab pchip kappa nu HP ltac:(lra)) as T. pose proof (ft_size_INR kappa nu) as NI. pose proof (tb_N _ _ _ _ _ T) as HN.
    destruct (table_ppf_near (ft_size kappa nu) (ft_H pchip kappa nu) (fun phi => exp (ft_log kappa nu phi + ft_lognorm kappa nu)) guess 50 mu q HN (tb_H _ _ _ _ _ T) Hq) as (x & z & Hx & Ex & Ry & D).
    assert (E : ft_ppf pchip guess mu kappa nu q = table_ppf (ft_size kappa nu) (fun i => ft_H pchip kappa nu (node (ft_size kappa nu) i)) (ft_H pchip kappa nu)
       (fun phi => exp (ft_log kappa nu phi + ft_lognorm kappa nu)) guess 50 mu q).
    { unfold ft_ppf. rewrite (proj2 (Rleb_false _ _)) by exact Hz. cbv zeta. unfold table_ppf. rewrite Q0, Q1. cbv zeta.
      assert (EN : forall i, (i <= ft_size kappa nu)%nat -> table_cdf (ft_size kappa nu) (ft_node_pdf kappa nu) i = ft_H pchip kappa nu (node (ft_size kappa nu) i)).
      { intros i Hi. unfold ft_H. destruct (HP (ft_size kappa nu) (node (ft_size kappa nu)) (table_cdf (ft_size kappa nu) (ft_node_pdf kappa nu)) HN (fun i _ => node_lt _ i (S i) HN ltac:(lia))) as (P1 & _).
        symmetry. apply P1, Hi. }
      match goal with |- context [length (filter ?a (seq 0 (S (ft_size kappa nu))))] =>
        match goal with |- context [length (filter (fun i => Rleb (ft_H pchip kappa nu _) ?t) (seq 0 (S (ft_size kappa nu))))] =>
          assert (EF : filter a (seq 0 (S (ft_size kappa nu))) = filter (fun i => Rleb (ft_H pchip kappa nu (node (ft_size kappa nu) i)) t) (seq 0 (S (ft_size kappa nu)))) end end.
      { apply filter_ext_in. intros i Hi. apply in_seq in Hi. rewrite EN by lia. reflexivity. }
      rewrite EF. reflexivity. }
    rewrite <- E in Ry, D. eexists _, x, z. split; [apply P; reflexivity|]. split; [exact Ry|]. split; [exact Hx|]. split.
    + destruct (Rle_lt_dec (2 * PI - / 10 ^ 12) x) as [L|L]; [right; exact L|left]. rewrite W by exact Hx. f_equal. rewrite ft_cdf_flag by assumption.
      rewrite flagged_miss by (rewrite Rabs_left by lra; lra). exact Ex.
    + eapply Rle_trans; [exact D|]. unfold Rdiv. apply Rmult_le_compat_l; [lra|apply Rinv_le_contravar; lra].
Qed.
