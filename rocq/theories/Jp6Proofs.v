(** jonespewsey_asym.cdf: a distribution function, how far from the integral of the pdf, and how wrong for sharp peaks. *)
From Verif Require Import Prelude NpModel NpProofs CircleSpec IntSpec IntProofs DistModel DistSpec DistProofs Dist2Proofs Dist4Proofs Dist5Proofs
  Dist6Proofs Dist7Proofs Dist8Proofs KjProofs Kj2Proofs Kj3Proofs VonModel VonSpec VonProofs Von2Proofs Von3Proofs Von4Proofs Von5Proofs Von6Proofs GaussProofs Ws2Proofs Ws3Proofs WnProofs Wn3Proofs Wn6Proofs
  JpModel JpSpec JpProofs Jp2Proofs Jp3Proofs Jp4Proofs Jp5Proofs.

Lemma delta_pos : 0 < as_delta. Proof. pose proof PI_gt3. unfold as_delta. lra. Qed.
Lemma delta_turn : 2 * PI = 4096 * as_delta. Proof. unfold as_delta. field. Qed.
(** The cell of an angle in one turn. *)
Lemma as_cell phi : 0 <= phi < 2 * PI -> exists j u, (j < 4096)%nat /\ 0 <= u < 1 /\ phi = (INR j + u) * as_delta /\
  forall t, as_interp t phi = t j + (t (S j) - t j) * u.
Proof.
  intros H. pose proof delta_pos as D. pose proof delta_turn as T. set (z := Rfloor (phi / as_delta)). destruct (Rfloor_spec (phi / as_delta)) as [F1 F2]. fold z in F1, F2.
  assert (E : phi / as_delta * as_delta = phi) by (field; lra). set (w := phi / as_delta) in *.
  assert (W : 0 <= w < 4096) by (split; [apply Rnot_lt_le; intros N; nra|apply Rnot_le_lt; intros N; nra]).
  assert (Z0 : (0 <= z)%Z). { assert (-1 < IZR z) by lra. apply (lt_IZR (-1)) in H0. lia. }
  assert (Z1 : (z < 4096)%Z). { assert (IZR z < 4096) by lra. apply lt_IZR in H0. exact H0. }
  assert (Ej : INR (Z.to_nat z) = IZR z) by (rewrite INR_IZR_INZ, Z2Nat.id by exact Z0; reflexivity).
  exists (Z.to_nat z), (w - IZR z). split; [apply Nat2Z.inj_lt; rewrite Z2Nat.id by exact Z0; exact Z1|]. split; [lra|]. split; [rewrite Ej; lra|].
  intros t. unfold as_interp. fold w. fold z. rewrite Ej. cbv zeta. rewrite <- E at 1. field. lra.
Qed.
Definition good_table (t : nat -> R) : Prop := t 0%nat = 0 /\ t 4096%nat = 1 /\ forall j, t j <= t (S j).
Lemma table_mono t i j : good_table t -> (i <= j)%nat -> t i <= t j.
Proof. intros (_ & _ & M) H. induction H; [lra|]. pose proof (M m). lra. Qed.
Lemma table_step t i j : good_table t -> (i <= j <= 4096)%nat -> 0 <= t j - t i <= INR j - INR i.
Proof.
  intros G H. pose proof (table_mono t i j G ltac:(lia)). pose proof (table_mono t 0 i G ltac:(lia)) as A. pose proof (table_mono t j 4096 G ltac:(lia)) as B. destruct G as (G0 & G1 & _).
  rewrite G0 in A. rewrite G1 in B. split; [lra|]. destruct (Nat.eq_dec i j) as [->|N]; [lra|].
  assert (INR (S i) <= INR j) as L by (apply le_INR; lia). rewrite S_INR in L. lra.
Qed.
Lemma cell_bounds t j u : good_table t -> (j < 4096)%nat -> 0 <= u < 1 ->
  0 <= (t (S j) - t j) * u <= u /\ 0 <= (t (S j) - t j) * (1 - u) <= 1 - u.
Proof. intros G Hj Hu. pose proof (table_step t j (S j) G ltac:(lia)) as S. rewrite S_INR in S. nra. Qed.
Lemma interp_ends t phi : good_table t -> 0 <= phi < 2 * PI -> 0 <= as_interp t phi <= phi / as_delta /\ 0 <= 1 - as_interp t phi <= (2 * PI - phi) / as_delta.
Proof.
  intros G H. pose proof delta_pos as D. destruct (as_cell phi H) as (j & u & Hj & Hu & E & I). rewrite I. pose proof (cell_bounds t j u G Hj Hu) as C.
  pose proof (table_step t 0 j G ltac:(lia)) as S0. pose proof (table_step t (S j) 4096 G ltac:(lia)) as S1. destruct G as (G0 & G1 & _). rewrite G0 in S0. rewrite G1 in S1.
  change (INR 0) with 0 in S0. replace (INR 4096) with 4096 in S1 by (rewrite INR_IZR_INZ; reflexivity). rewrite S_INR in S1.
  replace (phi / as_delta) with (INR j + u) by (rewrite E; field; lra). replace ((2 * PI - phi) / as_delta) with (4096 - (INR j + u)) by (rewrite E, delta_turn; field; lra). nra.
Qed.
Lemma interp_step t phi phi' : good_table t -> 0 <= phi -> phi <= phi' -> phi' < 2 * PI -> 0 <= as_interp t phi' - as_interp t phi <= (phi' - phi) / as_delta.
Proof.
  intros G H0 H1 H2. pose proof delta_pos as D. destruct (as_cell phi ltac:(lra)) as (j & u & Hj & Hu & E & I). destruct (as_cell phi' ltac:(lra)) as (k & w & Hk & Hw & E' & I').
  rewrite I, I'. replace ((phi' - phi) / as_delta) with (INR k + w - (INR j + u)) by (rewrite E, E'; field; lra).
  assert (L : INR j + u <= INR k + w) by (apply (Rmult_le_reg_r as_delta); [exact D|lra]).
  pose proof (cell_bounds t j u G Hj Hu) as C. pose proof (cell_bounds t k w G Hk Hw) as C'. destruct (lt_eq_lt_dec j k) as [[A| ->]|A].
  - pose proof (table_step t (S j) k G ltac:(lia)) as S. rewrite S_INR in S. nra.
  - pose proof (table_step t k (Datatypes.S k) G ltac:(lia)) as S. rewrite S_INR in S. nra.
  - assert (INR (S k) <= INR j) as M by (apply le_INR; lia). rewrite S_INR in M. lra.
Qed.
(** The same function wound over all turns. *)
Definition wound (g : R -> R) (phi : R) : R := g (pymod phi (2 * PI)) + IZR (Rfloor (phi / (2 * PI))).
Notation as_wound t := (wound (as_interp t)).
Lemma pymod_floor phi : phi = pymod phi (2 * PI) + 2 * PI * IZR (Rfloor (phi / (2 * PI))).
Proof. unfold pymod. ring. Qed.
Lemma wound_turns g phi (z : Z) : wound g (phi + 2 * PI * IZR z) = wound g phi + IZR z.
Proof.
  pose proof PI2_pos as P. unfold wound. rewrite pymod_add by exact P.
  replace (Rfloor ((phi + 2 * PI * IZR z) / (2 * PI))) with (Rfloor (phi / (2 * PI)) + z)%Z; [rewrite plus_IZR; ring|]. symmetry. apply Rfloor_unique. rewrite plus_IZR.
  replace ((phi + 2 * PI * IZR z) / (2 * PI)) with (phi / (2 * PI) + IZR z) by (field; lra). destruct (Rfloor_spec (phi / (2 * PI))). lra.
Qed.
Lemma wound_in g phi : 0 <= phi < 2 * PI -> wound g phi = g phi.
Proof.
  intros H. unfold wound. rewrite pymod_small by exact H. replace (Rfloor (phi / (2 * PI))) with 0%Z; [ring|]. symmetry. apply Rfloor_unique.
  assert (E : phi / (2 * PI) * (2 * PI) = phi) by (field; pose proof PI2_pos; lra). pose proof PI2_pos. nra.
Qed.
Lemma wound_step t phi phi' : good_table t -> phi <= phi' -> 0 <= as_wound t phi' - as_wound t phi <= (phi' - phi) / as_delta.
Proof.
  intros G H. pose proof delta_pos as D. pose proof delta_turn as T. pose proof PI2_pos as P. pose proof (pymod_floor phi) as E. pose proof (pymod_floor phi') as E'. unfold wound.
  pose proof (pymod_range phi (2 * PI) P) as R1. pose proof (pymod_range phi' (2 * PI) P) as R2.
  set (e := pymod phi (2 * PI)) in *. set (e' := pymod phi' (2 * PI)) in *. set (k := Rfloor (phi / (2 * PI))) in *. set (k' := Rfloor (phi' / (2 * PI))) in *.
  destruct (interp_ends t e G R1) as [A1 A2]. destruct (interp_ends t e' G R2) as [B1 B2].
  destruct (Z.lt_trichotomy k k') as [L|[L|L]].
  - assert (LR : IZR k + 1 <= IZR k') by (rewrite <- plus_IZR; apply IZR_le; lia).
    replace ((phi' - phi) / as_delta) with (e' / as_delta + (2 * PI - e) / as_delta + (IZR k' - IZR k - 1) * 4096).
    2: { assert (Ed : phi' - phi = e' - e + 4096 * as_delta * (IZR k' - IZR k)) by (rewrite <- T; lra). rewrite Ed, T. field. lra. }
    nra.
  - rewrite L in *. assert (e <= e') by lra. pose proof (interp_step t e e' G ltac:(lra) ltac:(lra) ltac:(lra)) as S. replace ((phi' - phi) / as_delta) with ((e' - e) / as_delta) by (rewrite E, E'; field; lra). lra.
  - assert (LR : IZR k' + 1 <= IZR k) by (rewrite <- plus_IZR; apply IZR_le; lia). exfalso. nra.
Qed.

(** ** The table *)
Lemma Rsum_pos_step f j : (forall i, 0 <= f i) -> Rsum (map f (seq 0 j)) <= Rsum (map f (seq 0 (S j))).
Proof. intros H. rewrite seq_S, map_app, Rsum_app. cbn [map]. change (Rsum [?x]) with (x + 0). pose proof (H (0 + j)%nat). lra. Qed.
Lemma as_table_good p xi : (forall x, 0 < p x) -> good_table (as_table p xi).
Proof.
  intros Pp. pose proof delta_pos as D. set (f := fun i => 1 / 2 * (p (pymod (xi + INR i * as_delta) (2 * PI)) + p (pymod (xi + INR (S i) * as_delta) (2 * PI))) * as_delta).
  assert (Pf : forall i, 0 < f i). { intros i. unfold f. pose proof (Pp (pymod (xi + INR i * as_delta) (2 * PI))). pose proof (Pp (pymod (xi + INR (S i) * as_delta) (2 * PI))). apply Rmult_lt_0_compat; lra. }
  assert (Ec : forall j, as_cum p xi j = Rsum (map f (seq 0 j))) by reflexivity.
  assert (M : forall i j, (i <= j)%nat -> Rsum (map f (seq 0 i)) <= Rsum (map f (seq 0 j))).
  { intros i j H. induction H; [lra|]. pose proof (Rsum_pos_step f m (fun i => Rlt_le _ _ (Pf i))). lra. }
  assert (T0 : 0 < as_cum p xi jp_size).
  { rewrite Ec. pose proof (M 1%nat jp_size ltac:(unfold jp_size; lia)) as L. change (Rsum (map f (seq 0 1))) with (f 0%nat + 0) in L. pose proof (Pf 0%nat). lra. }
  unfold as_table. cbv zeta. rewrite (proj2 (Rleb_false _ _)) by lra. split; [|split].
  - rewrite (Ec 0%nat). cbn [seq map]. change (Rsum []) with 0. unfold Rdiv. ring.
  - change 4096%nat with (Z.to_nat 4096). fold jp_size. field. lra.
  - intros j. apply Rmult_le_compat_r; [apply Rlt_le, Rinv_0_lt_compat, T0|]. rewrite !Ec. apply M. lia.
Qed.
Lemma as_pdf_turns quad xi kappa psi nu x (z : Z) : as_pdf quad xi kappa psi nu (x + 2 * PI * IZR z) = as_pdf quad xi kappa psi nu x.
Proof.
  unfold as_pdf. destruct (Rltb _ _); [reflexivity|]. f_equal. replace (x + 2 * PI * IZR z - xi) with (x - xi + 2 * PI * IZR z) by ring. apply as_kernel_turns.
Qed.

(** ** The cdf *)
Definition as_H (quad : (R -> R) -> R -> R -> R) (xi kappa psi nu x : R) : R :=
  let t := as_table (as_pdf quad xi kappa psi nu) xi in as_wound t (x - xi) - as_wound t (- xi).
Lemma as_cdf_wound iv num lpmv quad xi kappa psi nu x : (forall y, 0 < as_pdf quad xi kappa psi nu y) ->
  (jp_ktol <= kappa \/ / 10 ^ 12 <= nu) -> 0 < x < 2 * PI -> as_cdf iv num lpmv quad xi kappa psi nu x = as_H quad xi kappa psi nu x.
Proof.
  intros Pp Hc Hx. pose proof PI2_pos as P. unfold as_cdf.
  replace (Rltb kappa jp_ktol && Rltb (Rabs nu) (/ 10 ^ 12)) with false.
  2: { symmetry. apply andb_false_iff. rewrite !Rltb_false. destruct Hc as [Hc|Hc]; [lra|right]. pose proof (Rle_abs nu). lra. }
  cbv zeta. unfold as_H. set (t := as_table (as_pdf quad xi kappa psi nu) xi). assert (G : good_table t) by (apply as_table_good, Pp).
  pose proof (unwrap_cdf (as_wound t) xi x (wound_turns (as_interp t)) Hx) as U. cbv zeta in U. rewrite !wound_in in U by (apply pymod_range, P).
  pose proof (wound_step t (- xi) (x - xi) G ltac:(lra)) as S.
  pose proof (wound_step t (x - xi) (- xi + 2 * PI * IZR 1) G ltac:(rewrite Rmult_1_r; lra)) as S2. rewrite wound_turns in S2. fold t. rewrite <- U in *.
  destruct (Rleb _ _); apply clip_in; lra.
Qed.
Lemma as_cdf_flat iv num lpmv quad xi kappa psi nu x : 0 <= kappa < jp_ktol -> 0 <= nu < / 10 ^ 12 -> 0 < x < 2 * PI ->
  as_cdf iv num lpmv quad xi kappa psi nu x = x / (2 * PI).
Proof.
  intros Hk Hn Hx. unfold as_cdf. rewrite (proj2 (Rltb_true kappa _)), (proj2 (Rltb_true (Rabs nu) _)) by (try rewrite Rabs_pos_eq; lra). cbn [andb].
  rewrite at_angle_in by exact Hx. unfold jp_cdf. rewrite (proj2 (Rltb_true kappa _)) by lra. rewrite pymod_small by lra. reflexivity.
Qed.
Lemma as_cdf_function iv num lpmv quad xi kappa psi nu : as_ok xi kappa psi nu = true ->
  quad_exact quad (fun x => as_kernel kappa psi nu (x - xi)) (- PI) PI ->
  exists F, (forall x, public_cdf (as_ok xi kappa psi nu) (as_cdf iv num lpmv quad xi kappa psi nu) x = Fin (F x)) /\
    F 0 = 0 /\ F (2 * PI) = 1 /\
    forall x y, 0 <= x -> x <= y -> y <= 2 * PI -> 0 <= F y - F x <= 4096 / (2 * PI) * (y - x).
Proof.
  intros Ho Hq. pose proof PI_gt3 as P3. pose proof PI2_pos as P. pose proof (proj1 (as_ok_spec _ _ _ _) Ho) as (Hm & Hk & Hn).
  exists (pub_F (as_cdf iv num lpmv quad xi kappa psi nu)). split; [intros x; rewrite Ho; apply public_cdf_fin|].
  assert (K : (jp_ktol <= kappa \/ / 10 ^ 12 <= nu) \/ (kappa < jp_ktol /\ nu < / 10 ^ 12)) by lra.
  destruct K as [K|[K1 K2]].
  - set (t := as_table (as_pdf quad xi kappa psi nu) xi). assert (Pp : forall y, 0 < as_pdf quad xi kappa psi nu y) by (intros y; apply as_pdf_pos; assumption).
    assert (G : good_table t) by (apply as_table_good, Pp).
    assert (E : forall x, 0 <= x <= 2 * PI -> pub_F (as_cdf iv num lpmv quad xi kappa psi nu) x = as_H quad xi kappa psi nu x).
    { apply pub_F_eq; [unfold as_H; cbv zeta; rewrite Rminus_0_l; ring| |intros x Hx; apply as_cdf_wound; assumption].
      unfold as_H. cbv zeta. replace (2 * PI - xi) with (- xi + 2 * PI * IZR 1) by ring. rewrite wound_turns. ring. }
    rewrite !E by lra. split; [unfold as_H; cbv zeta; rewrite Rminus_0_l; ring|]. split; [unfold as_H; cbv zeta; replace (2 * PI - xi) with (- xi + 2 * PI * IZR 1) by ring; rewrite wound_turns; ring|].
    intros x y H0 H1 H2. rewrite !E by lra. unfold as_H. cbv zeta. fold t. pose proof (wound_step t (x - xi) (y - xi) G ltac:(lra)) as S.
    replace (4096 / (2 * PI) * (y - x)) with ((y - xi - (x - xi)) / as_delta) by (unfold as_delta; field; lra). lra.
  - assert (E : forall x, 0 <= x <= 2 * PI -> pub_F (as_cdf iv num lpmv quad xi kappa psi nu) x = x / (2 * PI)).
    { apply (pub_F_eq _ (fun x => x / (2 * PI))); [field; lra|field; lra|intros x Hx; apply as_cdf_flat; lra]. }
    rewrite !E by lra. split; [field; lra|]. split; [field; lra|]. intros x y H0 H1 H2. rewrite !E by lra.
    replace (y / (2 * PI) - x / (2 * PI)) with ((y - x) / (2 * PI)) by (field; lra). replace (4096 / (2 * PI) * (y - x)) with (4096 * ((y - x) / (2 * PI))) by (field; lra).
    assert (0 <= (y - x) / (2 * PI)); [|lra]. apply Rmult_le_pos; [lra|]. apply Rlt_le, Rinv_0_lt_compat, P.
Qed.

(** ** Accuracy *)
Lemma abs_integral f g a b v w e : a <= b -> (forall x, a <= x <= b -> Rabs (f x - g x) <= e) -> integral f a b v -> integral g a b w -> Rabs (v - w) <= e * (b - a).
Proof.
  intros L H I J. pose proof (integral_lin _ _ _ _ (-1) _ _ I J) as D. apply Rabs_le.
  assert (U : v + -1 * w <= e * (b - a)). { apply (integral_le (fun x => f x + -1 * g x) (fun _ => e) a b); [exact L| |exact D|apply integral_const]. intros x Hx. pose proof (abs_le_inv _ _ (H x Hx)). lra. }
  assert (V : - e * (b - a) <= v + -1 * w). { apply (integral_le (fun _ => - e) (fun x => f x + -1 * g x) a b); [exact L| |apply integral_const|exact D]. intros x Hx. pose proof (abs_le_inv _ _ (H x Hx)). lra. }
  lra.
Qed.
Lemma as_accuracy p xi L (I : R -> R) : 0 <= L -> (forall x, 0 < p x) -> (forall x (z : Z), p (x + 2 * PI * IZR z) = p x) -> (forall x y, Rabs (p x - p y) <= L * Rabs (x - y)) ->
  (forall a b, 0 <= a -> a <= b -> b <= 2 * PI -> integral (fun t => p (xi + t)) a b (I b - I a)) -> I 0 = 0 -> I (2 * PI) = 1 ->
  forall phi, 0 <= phi < 2 * PI -> Rabs (as_interp (as_table p xi) phi - I phi) <= L / 96.
Proof.
  intros L0 Pp Per Lip Int I0 I1. pose proof delta_pos as D. pose proof delta_turn as T. pose proof PI_gt3 as P3. pose proof pi_hi as Ph. pose proof PI2_pos as P.
  set (f := fun t => p (xi + t)) in *. set (d := as_delta) in *.
  assert (Ef : forall i, p (pymod (xi + INR i * d) (2 * PI)) = f (INR i * d)).
  { intros i. unfold f. destruct (pymod_cong (xi + INR i * d) (2 * PI)) as [z Hz]. rewrite Hz at 2. rewrite Per. reflexivity. }
  assert (Lf : forall x y, Rabs (f x - f y) <= L * Rabs (x - y)). { intros x y. unfold f. pose proof (Lip (xi + x) (xi + y)) as A. replace (xi + x - (xi + y)) with (x - y) in A by ring. exact A. }
  assert (B0 : forall j, (j <= 4096)%nat -> 0 <= INR j * d <= 2 * PI).
  { intros j Hj. apply le_INR in Hj. replace (INR 4096) with 4096 in Hj by (rewrite INR_IZR_INZ; reflexivity). pose proof (pos_INR j). rewrite T. nra. }
  assert (Cell : forall j, (j < 4096)%nat -> Rabs (I (INR (S j) * d) - I (INR j * d) - 1 / 2 * (f (INR j * d) + f (INR (S j) * d)) * d) <= L * d ^ 2 / 2).
  { intros j Hb. pose proof (B0 j ltac:(lia)). pose proof (B0 (S j) ltac:(lia)). set (m := 1 / 2 * (f (INR j * d) + f (INR (S j) * d))). assert (Hj : INR j * d <= INR (S j) * d) by (rewrite S_INR; nra).
    replace (m * d) with (m * (INR (S j) * d - INR j * d)) by (rewrite S_INR; ring). replace (L * d ^ 2 / 2) with (L * d / 2 * (INR (S j) * d - INR j * d)) by (rewrite S_INR; field).
    apply (abs_integral f (fun _ => m)); [exact Hj| |apply Int; lra|apply integral_const]. intros x Hx. rewrite S_INR in Hx.
    pose proof (abs_le_inv _ _ (Lf x (INR j * d))) as A. pose proof (abs_le_inv _ _ (Lf x (INR (S j) * d))) as B. rewrite (Rabs_pos_eq (x - INR j * d)) in A by lra.
    rewrite (Rabs_left1 (x - INR (S j) * d)) in B by (rewrite S_INR; lra). rewrite S_INR in B. apply Rabs_le. unfold m. rewrite S_INR. nra. }
  assert (Cum : forall j, (j <= 4096)%nat -> Rabs (as_cum p xi j - I (INR j * d)) <= INR j * (L * d ^ 2 / 2)).
  { induction j as [|j IH]; intros Hb.
    - unfold as_cum. cbn [seq map]. change (Rsum []) with 0. change (INR 0) with 0. rewrite !Rmult_0_l, I0. rewrite Rminus_0_r, Rabs_R0. lra.
    - unfold as_cum in *. cbv zeta in *. rewrite seq_S, map_app, Rsum_app. cbn [map]. change (Rsum [?x]) with (x + 0). rewrite Nat.add_0_l. fold d. fold d in IH. rewrite !Ef.
      pose proof (abs_le_inv _ _ (IH ltac:(lia))) as A. pose proof (abs_le_inv _ _ (Cell j ltac:(lia))) as B. apply Rabs_le.
      replace (INR (S j) * (L * d ^ 2 / 2)) with (INR j * (L * d ^ 2 / 2) + L * d ^ 2 / 2) by (rewrite S_INR; ring).
      match type of A with context [Rsum ?l] => set (X := Rsum l) in * end. lra. }
  set (e0 := PI * L * d). assert (E0 : forall j, (j <= 4096)%nat -> Rabs (as_cum p xi j - I (INR j * d)) <= e0).
  { intros j Hj. eapply Rle_trans; [apply Cum, Hj|]. apply le_INR in Hj. replace (INR 4096) with 4096 in Hj by (rewrite INR_IZR_INZ; reflexivity). unfold e0.
    replace (PI * L * d) with (4096 * (L * d ^ 2 / 2)) by (replace PI with (4096 * d / 2) by lra; field). apply Rmult_le_compat_r; [nra|exact Hj]. }
  set (tot := as_cum p xi jp_size). assert (G : good_table (as_table p xi)) by (apply as_table_good, Pp).
  assert (Tt : 0 < tot).
  { destruct G as (_ & G1 & _). unfold as_table in G1. cbv zeta in G1. change 4096%nat with (Z.to_nat 4096) in G1. fold jp_size in G1. fold tot in G1.
    destruct (Rleb_spec tot 0) as [A|A]; [|lra]. unfold Rdiv in G1. rewrite Rinv_1 in G1. lra. }
  assert (Tot : Rabs (tot - 1) <= e0).
  { unfold tot. rewrite <- I1, T. fold d. replace 4096 with (INR 4096) at 1 by (rewrite INR_IZR_INZ; reflexivity). change jp_size with 4096%nat. apply E0. lia. }
  assert (Tab : forall j, (j <= 4096)%nat -> Rabs (as_table p xi j - I (INR j * d)) <= 2 * e0).
  { intros j Hj. pose proof (table_mono _ 0 j G ltac:(lia)) as M0. pose proof (table_mono _ j 4096 G Hj) as M1. destruct G as (G0 & G1 & _). rewrite G0 in M0. rewrite G1 in M1.
    assert (Et : as_table p xi j * tot = as_cum p xi j). { unfold as_table. cbv zeta. fold tot. rewrite (proj2 (Rleb_false _ _)) by lra. field. lra. }
    pose proof (abs_le_inv _ _ (E0 j Hj)) as A. pose proof (abs_le_inv _ _ Tot) as B. apply Rabs_le. set (t := as_table p xi j) in *. nra. }
  intros phi Hphi. destruct (as_cell phi Hphi) as (j & u & Hj & Hu & E & Ei). fold d in E. rewrite Ei.
  pose proof (abs_le_inv _ _ (Tab j ltac:(lia))) as A. pose proof (abs_le_inv _ _ (Tab (S j) ltac:(lia))) as B.
  assert (Hj1 : INR j * d <= phi) by nra.
  assert (C1 : Rabs (I phi - I (INR j * d) - f (INR j * d) * (phi - INR j * d)) <= L * d * (phi - INR j * d)).
  { apply (abs_integral f (fun _ => f (INR j * d))); [exact Hj1| |pose proof (B0 j ltac:(lia)); apply Int; lra|apply integral_const]. intros x Hx. eapply Rle_trans; [apply Lf|]. rewrite Rabs_pos_eq by lra. apply Rmult_le_compat_l; [exact L0|]. nra. }
  assert (Hj2 : INR j * d <= INR (S j) * d) by (rewrite S_INR; nra).
  assert (C2 : Rabs (I (INR (S j) * d) - I (INR j * d) - f (INR j * d) * (INR (S j) * d - INR j * d)) <= L * d * (INR (S j) * d - INR j * d)).
  { apply (abs_integral f (fun _ => f (INR j * d))); [exact Hj2| |pose proof (B0 j ltac:(lia)); pose proof (B0 (S j) ltac:(lia)); apply Int; lra|apply integral_const]. intros x Hx. eapply Rle_trans; [apply Lf|]. rewrite S_INR in Hx. rewrite Rabs_pos_eq by lra. apply Rmult_le_compat_l; [exact L0|]. lra. }
  replace (INR (S j) * d - INR j * d) with d in C2 by (rewrite S_INR; ring). replace (phi - INR j * d) with (u * d) in C1 by (rewrite E; ring).
  apply abs_le_inv in C1. apply abs_le_inv in C2.
  assert (Q : 2 * e0 + 2 * (L * d * d) <= L / 96).
  { unfold e0. assert (Hd : d <= 162 / 102400) by lra. assert (2 * PI * d + 2 * d * d <= / 96) by nra. nra. }
  set (tj := as_table p xi j) in *. set (tk := as_table p xi (S j)) in *. set (ij := I (INR j * d)) in *. set (ik := I (INR (S j) * d)) in *. set (fj := f (INR j * d)) in *.
  assert (X1 : - (2 * e0) <= (1 - u) * (tj - ij) + u * (tk - ik) <= 2 * e0) by nra.
  assert (X2 : - (2 * (L * d * d)) <= I phi - ij - u * (ik - ij) <= 2 * (L * d * d)).
  { assert (Q0 : 0 <= L * d * d) by (apply Rmult_le_pos; [apply Rmult_le_pos; lra|lra]).
    assert (Zq : L * d * (u * d) = u * (L * d * d)) by ring. rewrite Zq in C1. set (q := L * d * d) in *. set (w := ik - ij - fj * d) in *.
    assert (Y : - q <= u * w <= q). { split; [apply Rle_trans with (u * - q); nra|apply Rle_trans with (u * q); nra]. }
    assert (Zu : u * q <= q) by nra. assert (Ew : u * (ik - ij) = u * w + fj * (u * d)) by (unfold w; ring). lra. }
  apply Rabs_le. nra.
Qed.
Lemma as_cdf_close iv num lpmv quad xi kappa psi nu L x v : as_ok xi kappa psi nu = true ->
  quad_exact quad (fun x => as_kernel kappa psi nu (x - xi)) (- PI) PI -> 0 < x < 2 * PI ->
  (forall y z, Rabs (as_pdf quad xi kappa psi nu y - as_pdf quad xi kappa psi nu z) <= L * Rabs (y - z)) ->
  integral (as_pdf quad xi kappa psi nu) 0 x v ->
  exists u, public_cdf (as_ok xi kappa psi nu) (as_cdf iv num lpmv quad xi kappa psi nu) x = Fin u /\ Rabs (u - v) <= L / 48.
Proof.
  intros Ho Hq Hx Lip Iv. pose proof PI_gt3 as P3. pose proof PI2_pos as P. pose proof (proj1 (as_ok_spec _ _ _ _) Ho) as (Hm & Hk & Hn). rewrite Ho.
  set (p := as_pdf quad xi kappa psi nu) in *.
  assert (L0 : 0 <= L). { pose proof (Lip 1 0) as A. rewrite Rminus_0_r, Rabs_R1, Rmult_1_r in A. pose proof (Rabs_pos (p 1 - p 0)). lra. }
  eexists. split; [rewrite at_angle_pub, at_angle_in by exact Hx; reflexivity|].
  assert (K : (jp_ktol <= kappa \/ / 10 ^ 12 <= nu) \/ (kappa < jp_ktol /\ nu < / 10 ^ 12)) by lra. destruct K as [K|[K1 K2]].
  - assert (Pp : forall y, 0 < p y) by (intros y; apply as_pdf_pos; assumption).
    rewrite as_cdf_wound by assumption. unfold as_H. cbv zeta. fold p. set (t := as_table p xi).
    assert (Cp : forall y, continuity_pt p y).
    { intros y. unfold p, as_pdf. destruct (Rltb _ _); [apply cont_const|]. apply cont_mult; [apply cont_const|]. apply (continuity_shift (as_kernel kappa psi nu)). apply as_kernel_cont. }
    assert (Pt : forall y (z : Z), p (y + 2 * PI * IZR z) = p y) by (intros; apply as_pdf_turns).
    destruct (as_density quad xi kappa psi nu Ho Hq) as (g & Eg & _ & _ & Ig). rewrite Ho in Eg. fold p in Eg.
    assert (Itot : integral p 0 (2 * PI) 1).
    { revert Ig. apply integral_ext; [lra|]. intros y Hy. pose proof (Eg y) as E. rewrite public_pdf_fin, wrap_in in E by lra. injection E as E. symmetry. exact E. }
    set (f := fun s => p (xi + s)).
    assert (Cf : forall s, continuity_pt f s). { intros s. unfold f. apply (cont_comp p (fun s => xi + s)); [apply cont_plus; [apply cont_const|apply derivable_continuous_pt, derivable_pt_id]|apply Cp]. }
    assert (Pf : forall y (z : Z), f (y + 2 * PI * IZR z) = f y). { intros y z. unfold f. replace (xi + (y + 2 * PI * IZR z)) with (xi + y + 2 * PI * IZR z) by ring. apply Pt. }
    destruct (primitive_exists f 0 (4 * PI)) as [Q HQ]; [lra|intros; apply Cf|].
    assert (IQ : forall a b, 0 <= a -> a <= b -> b <= 4 * PI -> integral f a b (Q b - Q a)) by (intros; apply ftc; [lra|intros; apply Cf|intros; apply HQ; lra]).
    assert (Sh : forall y, 0 <= y <= 2 * PI -> Q (y + 2 * PI) - Q (2 * PI) = Q y - Q 0).
    { intros y Hy. assert (J : integral f 0 y (Q (y + 2 * PI) - Q (0 + 2 * PI))).
      { apply (ftc f (fun s => Q (s + 2 * PI))); [lra|intros; apply Cf|]. intros s Hs. eapply dlim_eq; [|apply (dlim_comp Q (fun s => s + 2 * PI)); [apply dlim_plus; [apply dlim_id|apply dlim_const]|apply HQ; lra]].
        cbv beta. rewrite Rplus_0_r, Rmult_1_r. rewrite <- (Pf s 1%Z). f_equal. ring. }
      rewrite Rplus_0_l in J. exact (integral_unique _ _ _ _ _ J (IQ 0 y ltac:(lra) ltac:(lra) ltac:(lra))). }
    assert (Q1 : Q (2 * PI) - Q 0 = 1).
    { apply (integral_unique f 0 (2 * PI)); [apply IQ; lra|].
      apply (integral_ext (fun s => p (s - - xi))); [lra|intros s _; unfold f; f_equal; ring|]. apply int_shift_to; [lra|exact Cp|].
      replace (0 - - xi) with xi by ring. replace (2 * PI - - xi) with (xi + 2 * PI) by ring. apply int_turn; assumption. }
    set (I := fun s => Q s - Q 0).
    assert (Acc : forall phi, 0 <= phi < 2 * PI -> Rabs (as_interp t phi - I phi) <= L / 96).
    { apply (as_accuracy p xi L I); auto; [|unfold I; ring]. intros a b H0 H1 H2. unfold I. replace (Q b - Q 0 - (Q a - Q 0)) with (Q b - Q a) by ring. apply IQ; lra. }
    set (s := pymod (- xi) (2 * PI)). set (e := pymod (x - xi) (2 * PI)).
    assert (Rs : 0 <= s < 2 * PI) by (apply pymod_range, P). assert (Re : 0 <= e < 2 * PI) by (apply pymod_range, P).
    pose proof (unwrap_cdf (as_wound t) xi x (wound_turns _) Hx) as U. pose proof (unwrap_cdf (wound I) xi x (wound_turns I) Hx) as V. cbv zeta in U, V.
    fold s in U, V. fold e in U, V. rewrite !wound_in in U, V by assumption. rewrite <- U.
    assert (Ev : v = if Rleb s e then I e - I s else 1 - (I s - I e)).
    { assert (J : integral p 0 x (Q (s + x) - Q (s + 0))).
      { apply (ftc p (fun y => Q (s + y))); [lra|intros; apply Cp|]. intros y Hy. eapply dlim_eq; [|apply (dlim_comp Q (fun y => s + y)); [apply dlim_plus; [apply dlim_const|apply dlim_id]|apply HQ; lra]].
        cbv beta. rewrite Rplus_0_l, Rmult_1_r. unfold f. destruct (pymod_cong (- xi) (2 * PI)) as [z Hz]. fold s in Hz.
        replace (xi + (s + y)) with (y + 2 * PI * IZR (- z)) by (rewrite opp_IZR; lra). apply Pt. }
      rewrite (integral_unique _ _ _ _ _ Iv J), Rplus_0_r. unfold I.
      assert (Sx : s + x = e \/ s + x = e + 2 * PI).
      { destruct (pymod_cong (- xi) (2 * PI)) as [z Hz]. destruct (pymod_cong (x - xi) (2 * PI)) as [w Hw]. fold s in Hz. fold e in Hw.
        assert (E : s + x = e + 2 * PI * IZR (w - z)) by (rewrite minus_IZR; lra). assert (B : -1 < IZR (w - z) < 2) by nra. destruct B as [B1 B2]. apply lt_IZR in B1, B2.
        assert (C : (w - z = 0 \/ w - z = 1)%Z) by lia. destruct C as [C|C]; rewrite C in E; [left|right]; lra. }
      destruct Sx as [Sx|Sx]; rewrite Sx; destruct (Rleb_spec s e); try lra. pose proof (Sh e ltac:(lra)). lra. }
    rewrite Ev. pose proof (abs_le_inv _ _ (Acc s Rs)). pose proof (abs_le_inv _ _ (Acc e Re)). apply Rabs_le. destruct (Rleb s e); lra.
  - rewrite as_cdf_flat by lra. replace v with (x / (2 * PI)); [rewrite Rminus_diag_eq by reflexivity; rewrite Rabs_R0; lra|].
    apply (integral_unique p 0 x); [|exact Iv]. apply (integral_ext (fun _ => 1 / (2 * PI))); [lra| |apply (integral_val _ _ _ (1 / (2 * PI) * (x - 0))); [field; lra|apply integral_const]].
    intros y _. unfold p, as_pdf. rewrite (proj2 (Rltb_true _ _)); [reflexivity|rewrite Rabs_pos_eq; lra].
Qed.
