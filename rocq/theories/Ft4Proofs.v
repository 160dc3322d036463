(** The table: its nodes, its interpolant, the cdf and the ppf read from it. *)
From Verif Require Import Prelude NpModel NpProofs CircleSpec IntSpec IntProofs DistModel DistSpec DistProofs Dist2Proofs Dist4Proofs Dist5Proofs
  Dist6Proofs Dist7Proofs KjProofs Kj2Proofs Von3Proofs Von4Proofs JpProofs Jp3Proofs Wn3Proofs Wn6Proofs Ws3Proofs GaussProofs Von6Proofs Jp5Proofs FtModel FtSpec FtProofs Ft2Proofs.
From Coq Require Import Ranalysis5.

(** ** Nodes *)
Lemma node_max_S i f : node_max (S i) f = Rmax (node_max i f) (f (S i)).
Proof. unfold node_max. rewrite seq_S, fold_left_app. cbn [fold_left]. f_equal. Qed.
Lemma node_max_mono i f : (forall j, (j < i)%nat -> f j <= f (S j)) -> node_max i f = f i.
Proof.
  induction i as [|i IH]; intros H; [reflexivity|]. rewrite node_max_S, IH by (intros; apply H; lia). apply Rmax_right, H. lia.
Qed.
Lemma node_max_ge i f j : (j <= i)%nat -> f j <= node_max i f.
Proof.
  induction i as [|i IH]; intros H; [replace j with 0%nat by lia; apply Rle_refl|]. rewrite node_max_S.
  destruct (Nat.eq_dec j (S i)) as [->|N]; [apply Rmax_r|]. eapply Rle_trans; [apply IH; lia|apply Rmax_l].
Qed.
Lemma node_max_le i f c : (forall j, (j <= i)%nat -> f j <= c) -> node_max i f <= c.
Proof.
  induction i as [|i IH]; intros H; [apply H; lia|]. rewrite node_max_S. apply Rmax_lub; [apply IH; intros; apply H; lia|apply H; lia].
Qed.
Lemma table_cdf_eq N p i : (0 < N)%nat -> (forall k, 0 < p k) -> trap_cum N p N = 1 -> (i <= N)%nat -> table_cdf N p i = trap_cum N p i.
Proof.
  intros HN Hp E Hi. unfold table_cdf. destruct (Nat.eqb_spec i N) as [->|N0]; [symmetry; exact E|].
  assert (C : forall j, (j <= N)%nat -> clip (trap_cum N p j) 0 1 = trap_cum N p j).
  { intros j Hj. apply clip_id. split; [rewrite <- (trap_cum_0 N p)|rewrite <- E]; apply trap_cum_mono; try lia; intros k; left; apply Hp. }
  rewrite node_max_mono; [apply C; lia|]. intros j Hj. rewrite !C by lia. apply trap_cum_mono; try lia. intros k. left. apply Hp.
Qed.

(** ** The interpolant *)
Record good_H (H : R -> R) : Prop := {
  gh_lo : H (- PI) = 0;
  gh_hi : H PI = 1;
  gh_inc : forall a b, - PI <= a -> a < b -> b <= PI -> H a < H b;
  gh_cont : forall x, - PI <= x <= PI -> continuity_pt H x }.
Lemma cell_of N x : (0 < N)%nat -> - PI <= x <= PI -> exists i, (i < N)%nat /\ node N i <= x <= node N (S i).
Proof.
  intros HN Hx. assert (G : forall M, (M <= N)%nat -> x <= node N M -> (0 < M)%nat -> exists i, (i < N)%nat /\ node N i <= x <= node N (S i)).
  { induction M as [|M IH]; intros HM Hl H0; [lia|]. destruct (Rle_lt_dec (node N M) x) as [L|L]; [exists M; split; [lia|lra]|].
    destruct M as [|M]; [rewrite node_0 in L; lra|]. apply IH; [lia|lra|lia]. }
  apply (G N); [lia|rewrite node_N by exact HN; lra|exact HN].
Qed.
Lemma cell_ro N x : (0 < N)%nat -> - PI <= x < PI -> exists i, (i < N)%nat /\ node N i <= x < node N (S i).
Proof.
  intros HN Hx. assert (G : forall M, (M <= N)%nat -> x < node N M -> exists i, (i < N)%nat /\ node N i <= x < node N (S i)).
  { induction M as [|M IH]; intros HM Hl; [rewrite node_0 in Hl; lra|]. destruct (Rle_lt_dec (node N M) x) as [L|L]; [exists M; split; [lia|lra]|]. apply IH; [lia|lra]. }
  apply (G N); [lia|rewrite node_N by exact HN; lra].
Qed.
Lemma cell_lo N x : (0 < N)%nat -> - PI < x <= PI -> exists i, (i < N)%nat /\ node N i < x <= node N (S i).
Proof.
  intros HN Hx. assert (G : forall M, (M <= N)%nat -> x <= node N M -> exists i, (i < N)%nat /\ node N i < x <= node N (S i)).
  { induction M as [|M IH]; intros HM Hl; [rewrite node_0 in Hl; lra|]. destruct (Rlt_le_dec (node N M) x) as [L|L]; [exists M; split; [lia|lra]|]. apply IH; [lia|lra]. }
  apply (G N); [lia|rewrite node_N by exact HN; lra].
Qed.
Lemma interp_inc pchip N c : is_pchip pchip -> (0 < N)%nat -> (forall i, (i < N)%nat -> c i < c (S i)) ->
  forall a b, - PI <= a -> a < b -> b <= PI -> pchip N (node N) c a < pchip N (node N) c b.
Proof.
  intros HP HN Hc a b Ha Hab Hb. destruct (HP N (node N) c HN (fun i _ => node_lt N i (S i) HN ltac:(lia))) as (P1 & P2 & P3 & P4).
  set (H := pchip N (node N) c) in *.
  assert (LE : forall i x y, (i < N)%nat -> node N i <= x -> x <= y -> y <= node N (S i) -> H x <= H y).
  { intros i x y Hi A B C. destruct (Req_dec x y) as [->|Ne]; [lra|]. left. apply (P3 i); try assumption; [apply Hc; exact Hi|lra]. }
  assert (ND : forall i j, (i <= j)%nat -> (j <= N)%nat -> c i <= c j).
  { intros i j L. induction L as [|j L IH]; intros Hj; [lra|]. pose proof (Hc j ltac:(lia)). pose proof (IH ltac:(lia)). lra. }
  destruct (cell_ro N a HN ltac:(lra)) as (i & Hi & Ai). destruct (cell_lo N b HN ltac:(lra)) as (j & Hj & Bj).
  destruct (lt_eq_lt_dec i j) as [[L|E]|L].
  - assert (H a < c (S i)) by (rewrite <- (P1 (S i)) by lia; apply (P3 i); [lia|apply Hc; lia|lra|lra|lra]).
    assert (c j < H b) by (rewrite <- (P1 j) by lia; apply (P3 j); [lia|apply Hc; lia|lra|lra|lra]).
    pose proof (ND (S i) j L ltac:(lia)). lra.
  - subst j. apply (P3 i); [lia|apply Hc; lia|lra|lra|lra].
  - pose proof (node_le N (S j) i HN L). lra.
Qed.
Lemma interp_good pchip N c : is_pchip pchip -> (0 < N)%nat -> c 0%nat = 0 -> c N = 1 -> (forall i, (i < N)%nat -> c i < c (S i)) -> good_H (pchip N (node N) c).
Proof.
  intros HP HN C0 C1 Hc. destruct (HP N (node N) c HN (fun i _ => node_lt N i (S i) HN ltac:(lia))) as (P1 & P2 & P3 & P4). split.
  - rewrite <- (node_0 N), (P1 0%nat) by lia. exact C0.
  - rewrite <- (node_N N HN) at 1. rewrite (P1 N) by lia. exact C1.
  - apply interp_inc; assumption.
  - intros x Hx. apply P2. rewrite node_0, node_N by exact HN. exact Hx.
Qed.

(** ** The cdf *)
Lemma start_eq mu : 0 <= mu <= 2 * PI -> exists z : Z, pymod (- mu + PI) (2 * PI) - PI = - mu + 2 * PI * IZR z.
Proof. intros _. apply centre_turns. Qed.
Lemma phi_of mu x : 0 <= x < 2 * PI ->
  let s := pymod (- mu + PI) (2 * PI) - PI in
  pymod (x - mu + PI) (2 * PI) - PI = if Rlt_le_dec (s + x) PI then s + x else s + x - 2 * PI.
Proof.
  intros Hx s. pose proof PI_gt3. unfold s. destruct (centre_turns (- mu)) as [z E]. pose proof (centre_range (- mu)) as Rg. rewrite E in *.
  assert (U : forall y, - PI <= y < PI -> (exists k : Z, x - mu = y + 2 * PI * IZR k) -> pymod (x - mu + PI) (2 * PI) - PI = y).
  { intros y Hy [k Ek]. rewrite Ek. replace (y + 2 * PI * IZR k + PI) with (y + PI + 2 * PI * IZR k) by ring.
    rewrite pymod_add by lra. rewrite pymod_small by lra. ring. }
  destruct (Rlt_le_dec (- mu + 2 * PI * IZR z + x) PI) as [L|L]; apply U.
  - lra.
  - exists (- z)%Z. rewrite opp_IZR. ring.
  - lra.
  - exists (1 - z)%Z. rewrite minus_IZR. ring.
Qed.
Definition unwrap (H : R -> R) (t : R) : R := if Rlt_le_dec t PI then H t else H (t - 2 * PI) + 1.
Lemma unwrap_inc H a b : good_H H -> - PI <= a -> a < b -> b < 3 * PI -> b <= a + 2 * PI -> unwrap H a < unwrap H b.
Proof.
  intros G Ha Hab Hb Hb'. pose proof PI_gt3. unfold unwrap. destruct (Rlt_le_dec a PI) as [A|A], (Rlt_le_dec b PI) as [B|B].
  - apply (gh_inc H G); lra.
  - assert (H a < H PI) by (apply (gh_inc H G); lra). rewrite (gh_hi H G) in H1.
    assert (H (- PI) <= H (b - 2 * PI)). { destruct (Req_dec (- PI) (b - 2 * PI)) as [->|]; [lra|]. left. apply (gh_inc H G); lra. } rewrite (gh_lo H G) in H2. lra.
  - lra.
  - assert (H (a - 2 * PI) < H (b - 2 * PI)) by (apply (gh_inc H G); lra). lra.
Qed.
Lemma from_zero_unwrap H mu x : good_H H -> 0 < x < 2 * PI ->
  from_zero H mu x = unwrap H (pymod (- mu + PI) (2 * PI) - PI + x) - H (pymod (- mu + PI) (2 * PI) - PI) /\ 0 < from_zero H mu x < 1.
Proof.
  intros G Hx. pose proof PI_gt3. unfold from_zero. cbv zeta. pose proof (phi_of mu x ltac:(lra)) as E. cbv zeta in E. rewrite E.
  set (s := pymod (- mu + PI) (2 * PI) - PI) in *. pose proof (centre_range (- mu)) as Rg. fold s in Rg.
  assert (Lo : unwrap H s < unwrap H (s + x)) by (apply unwrap_inc; try assumption; lra).
  assert (S0 : unwrap H s = H s) by (unfold unwrap; destruct (Rlt_le_dec s PI); [reflexivity|lra]).
  assert (Hi : unwrap H (s + x) < H s + 1).
  { unfold unwrap. destruct (Rlt_le_dec (s + x) PI) as [A|A].
    - assert (H (s + x) < H PI) by (apply (gh_inc H G); lra). rewrite (gh_hi H G) in H1.
      assert (H (- PI) <= H s). { destruct (Req_dec (- PI) s) as [->|]; [lra|]. left. apply (gh_inc H G); lra. } rewrite (gh_lo H G) in H2. lra.
    - assert (H (s + x - 2 * PI) < H s) by (apply (gh_inc H G); lra). lra. }
  rewrite S0 in Lo.
  assert (V : (if Rltb (H (if Rlt_le_dec (s + x) PI then s + x else s + x - 2 * PI)) (H s) then H (if Rlt_le_dec (s + x) PI then s + x else s + x - 2 * PI) - H s + 1 else H (if Rlt_le_dec (s + x) PI then s + x else s + x - 2 * PI) - H s) = unwrap H (s + x) - H s).
  { revert Lo Hi. unfold unwrap. destruct (Rlt_le_dec (s + x) PI) as [A|A]; intros Lo Hi.
    - rewrite (proj2 (Rltb_false (H (s + x)) (H s))) by lra. reflexivity.
    - rewrite (proj2 (Rltb_true (H (s + x - 2 * PI)) (H s))) by lra. ring. }
  rewrite V, clip_id by lra. split; [reflexivity|lra].
Qed.
Definition flagged (F : R -> R) (x : R) : R := if isclose_tol 0 (/ 10 ^ 12) x (2 * PI) then 1 else F x.
Lemma flagged_hit F x : Rabs (x - 2 * PI) <= / 10 ^ 12 -> flagged F x = 1.
Proof. intros H. unfold flagged, isclose_tol. rewrite (proj2 (Rleb_true _ _)) by lra. reflexivity. Qed.
Lemma flagged_miss F x : / 10 ^ 12 < Rabs (x - 2 * PI) -> flagged F x = F x.
Proof. intros H. unfold flagged, isclose_tol. rewrite (proj2 (Rleb_false _ _)) by lra. reflexivity. Qed.
Lemma table_cdf_mono H mu a b : good_H H -> 0 <= a -> a <= b -> b <= 2 * PI -> pub_F (flagged (from_zero H mu)) a <= pub_F (flagged (from_zero H mu)) b.
Proof.
  intros G Ha Hab Hb. pose proof PI_gt3.
  assert (U : forall x, 0 <= x <= 2 * PI -> 0 <= pub_F (flagged (from_zero H mu)) x <= 1).
  { intros x Hx. unfold pub_F. rewrite wrap_in by exact Hx. destruct (Rleb_spec (2 * PI) x); [lra|]. destruct (Rltb_spec 0 x); [|lra].
    unfold flagged. destruct (isclose_tol 0 (/ 10 ^ 12) x (2 * PI)); [lra|]. pose proof (from_zero_unwrap H mu x G ltac:(lra)). lra. }
  destruct (Req_dec a b) as [->|N]; [lra|].
  destruct (Req_dec a 0) as [->|A0].
  { pose proof (U b ltac:(lra)). unfold pub_F at 1. rewrite wrap_in by lra. rewrite (proj2 (Rleb_false _ _)) by lra. rewrite (proj2 (Rltb_false 0 0)) by lra. lra. }
  destruct (Req_dec b (2 * PI)) as [->|B0].
  { pose proof (U a ltac:(lra)). unfold pub_F at 2. rewrite wrap_in by lra. rewrite (proj2 (Rleb_true _ _)) by lra. lra. }
  unfold pub_F. rewrite !wrap_in by lra. rewrite (proj2 (Rleb_false (2 * PI) a)), (proj2 (Rleb_false (2 * PI) b)), (proj2 (Rltb_true 0 a)), (proj2 (Rltb_true 0 b)) by lra.
  destruct (from_zero_unwrap H mu a G ltac:(lra)) as [Ea Ra]. destruct (from_zero_unwrap H mu b G ltac:(lra)) as [Eb Rb].
  destruct (Rle_lt_dec (Rabs (b - 2 * PI)) (/ 10 ^ 12)) as [Fb|Fb].
  - rewrite (flagged_hit _ b Fb). destruct (Rle_lt_dec (Rabs (a - 2 * PI)) (/ 10 ^ 12)) as [Fa|Fa]; [rewrite (flagged_hit _ a Fa)|rewrite (flagged_miss _ a Fa)]; lra.
  - rewrite (flagged_miss _ b Fb). rewrite (flagged_miss _ a) by (rewrite Rabs_left in Fb |- * by lra; lra). rewrite Ea, Eb. pose proof (centre_range (- mu)).
    assert (unwrap H (pymod (- mu + PI) (2 * PI) - PI + a) < unwrap H (pymod (- mu + PI) (2 * PI) - PI + b)) by (apply unwrap_inc; try assumption; lra). lra.
Qed.

(** ** The table of the flat-topped distribution *)
Lemma ftiny_700 : ftiny <= exp (- 700).
Proof.
  set (u := - (700 / 32704)). pose proof (exp_ge1 u) as E. unfold u at 1 in E.
  assert (H : / 2 <= exp u ^ 32). { eapply Rle_trans; [|apply pow_incr; split; [|exact E]]; lra. }
  unfold ftiny. rewrite <- pow_inv. eapply Rle_trans; [apply pow_incr; split; [|exact H]; lra|]. rewrite exp_pow, exp_pow. apply Req_le. f_equal.
  rewrite !INR_IZR_INZ. unfold u. replace (Z.of_nat 1022) with 1022%Z by reflexivity. replace (Z.of_nat 32) with 32%Z by reflexivity. field.
Qed.
Lemma trap_const N c : (0 < N)%nat -> trap_cum N (fun _ => c) N = 2 * PI * c.
Proof.
  intros HN. assert (G : forall i, trap_cum N (fun _ => c) i = c * INR i * (2 * PI / INR N)).
  { induction i as [|i IH]; [rewrite trap_cum_0; cbn [INR]; ring|]. rewrite trap_cum_S, IH, S_INR. field. apply lt_0_INR in HN. lra. }
  rewrite G. apply lt_0_INR in HN. field. lra.
Qed.
Lemma trap_le N p q i : (0 < N)%nat -> (forall k, p k <= q k) -> trap_cum N p i <= trap_cum N q i.
Proof.
  intros HN H. induction i as [|i IH]; [rewrite !trap_cum_0; lra|]. rewrite !trap_cum_S. pose proof (step_pos N HN). pose proof (H i). pose proof (H (S i)). nra.
Qed.
Lemma ft_T_bounds kappa nu : 0 <= kappa -> 2 * PI * exp (- kappa) <= ft_T kappa nu <= 2 * PI * exp kappa.
Proof.
  intros Hk. pose proof (ft_size_range kappa nu) as [HN _]. assert (HN' : (0 < ft_size kappa nu)%nat) by lia.
  rewrite <- (trap_const (ft_size kappa nu) (exp (- kappa)) HN'), <- (trap_const (ft_size kappa nu) (exp kappa) HN').
  split; apply trap_le; try exact HN'; intros k; apply expm_le; pose proof (ft_log_bound kappa nu (node (ft_size kappa nu) k) Hk) as B; apply abs_le_inv in B; lra.
Qed.
Lemma ln_2pi : 0 < ln (2 * PI) < 3.
Proof.
  pose proof PI_gt3. pose proof pi_hi. split; [rewrite <- ln_1; apply ln_increasing; lra|]. rewrite <- (ln_exp 3). apply ln_increasing; [lra|].
  replace 3 with (1 + (1 + 1)) by ring. rewrite !exp_plus. pose proof exp1_lo as E1. assert (E2 : 25 / 4 <= exp 1 * exp 1) by nra. assert (5 / 2 * (25 / 4) <= exp 1 * (exp 1 * exp 1)) by (apply Rmult_le_compat; lra). lra.
Qed.
Lemma ft_node_eq kappa nu i : 0 <= kappa <= 348 -> (i <= ft_size kappa nu)%nat ->
  ft_node_pdf kappa nu i = ft_shape kappa nu (node (ft_size kappa nu) i) / ft_T kappa nu.
Proof.
  intros Hk Hi. pose proof (ft_size_range kappa nu) as [HN _]. assert (HN' : (0 < ft_size kappa nu)%nat) by lia.
  pose proof (ft_T_bounds kappa nu ltac:(lra)) as TB. pose proof (ft_T_pos kappa nu) as TP.
  assert (LN : - kappa - 3 <= ft_lognorm kappa nu <= kappa).
  { assert (E : ft_lognorm kappa nu = - ln (ft_T kappa nu)) by (rewrite <- ln_Rinv, <- ft_norm_T, ln_exp by exact TP; reflexivity). rewrite E. pose proof ln_2pi as L2. pose proof PI_gt3.
    assert (ln (2 * PI * exp (- kappa)) <= ln (ft_T kappa nu)) by (apply ln_le_mono; [apply Rmult_lt_0_compat; [lra|apply exp_pos]|lra]).
    assert (ln (ft_T kappa nu) <= ln (2 * PI * exp kappa)) by (apply ln_le_mono; lra).
    rewrite !ln_mult, !ln_exp in * by (try apply exp_pos; lra). lra. }
  assert (P : forall j, Rmax (exp (clip (ft_log kappa nu (node (ft_size kappa nu) j) + ft_lognorm kappa nu) (- 700) 700)) ftiny
     = ft_shape kappa nu (node (ft_size kappa nu) j) / ft_T kappa nu).
  { intros j. pose proof (ft_log_bound kappa nu (node (ft_size kappa nu) j) ltac:(lra)) as B. apply abs_le_inv in B.
    rewrite clip_id by lra. rewrite Rmax_left; [rewrite exp_plus, ft_norm_T; reflexivity|]. eapply Rle_trans; [apply ftiny_700|apply expm_le; lra]. }
  unfold ft_node_pdf. cbv zeta. destruct (Nat.eqb_spec i (ft_size kappa nu)) as [->|N]; [|apply P].
  rewrite P, node_0, node_N by exact HN'. unfold ft_shape. rewrite ft_log_even. reflexivity.
Qed.
Lemma ft_good pchip kappa nu : is_pchip pchip -> 0 <= kappa <= 348 ->
  good_H (ft_H pchip kappa nu) /\
  (forall i, (i <= ft_size kappa nu)%nat -> ft_H pchip kappa nu (node (ft_size kappa nu) i) = trap_cum (ft_size kappa nu) (fun j => ft_shape kappa nu (node (ft_size kappa nu) j) / ft_T kappa nu) i) /\
  trap_cum (ft_size kappa nu) (fun j => ft_shape kappa nu (node (ft_size kappa nu) j) / ft_T kappa nu) (ft_size kappa nu) = 1.
Proof.
  intros HP Hk. pose proof (ft_size_range kappa nu) as [HN _]. assert (HN' : (0 < ft_size kappa nu)%nat) by lia.
  set (N := ft_size kappa nu) in *. set (p := fun j => ft_shape kappa nu (node N j) / ft_T kappa nu). pose proof (ft_T_pos kappa nu) as TP.
  assert (PP : forall k, 0 < p k) by (intros k; apply Rdiv_lt_0_compat; [apply exp_pos|exact TP]).
  assert (T1 : trap_cum N p N = 1).
  { rewrite (trap_cum_ext N p (fun j => / ft_T kappa nu * ft_shape kappa nu (node N j))) by (intros; unfold p, Rdiv; ring).
    rewrite trap_cum_scal. change (trap_cum N (fun j => ft_shape kappa nu (node N j)) N) with (ft_T kappa nu). field. lra. }
  assert (TC : forall i, (i <= N)%nat -> table_cdf N (ft_node_pdf kappa nu) i = trap_cum N p i).
  { intros i Hi. rewrite <- (table_cdf_eq N p i HN' PP T1 Hi). unfold table_cdf. destruct (Nat.eqb_spec i N); [reflexivity|].
    assert (E : forall j, (j <= N)%nat -> trap_cum N (ft_node_pdf kappa nu) j = trap_cum N p j).
    { intros j Hj. apply trap_cum_ext. intros k Hkj. apply ft_node_eq; [exact Hk|fold N; lia]. }
    assert (W : forall i', (i' <= N)%nat -> node_max i' (fun j => clip (trap_cum N (ft_node_pdf kappa nu) j) 0 1) = node_max i' (fun j => clip (trap_cum N p j) 0 1)).
    { induction i' as [|i' IH]; intros Hi'; [unfold node_max; cbn [seq fold_left]; rewrite E by lia; reflexivity|]. rewrite !node_max_S, IH, E by lia. reflexivity. }
    apply W. lia. }
  split; [|split; [|exact T1]].
  - unfold ft_H. fold N. apply interp_good; try assumption.
    + rewrite TC by lia. apply trap_cum_0.
    + rewrite TC by lia. exact T1.
    + intros i Hi. rewrite !TC by lia. apply trap_cum_strict; try assumption. lia.
  - intros i Hi. unfold ft_H. fold N. destruct (HP N (node N) (table_cdf N (ft_node_pdf kappa nu)) HN' (fun i _ => node_lt N i (S i) HN' ltac:(lia))) as (P1 & _).
    rewrite P1 by exact Hi. apply TC, Hi.
Qed.
