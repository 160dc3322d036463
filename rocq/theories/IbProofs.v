(** The two warps of the inverse Batschelet distribution and their inverses. *)
From Verif Require Import Prelude NpModel NpProofs CircleSpec IntSpec IntProofs DistModel DistSpec DistProofs Dist2Proofs Dist4Proofs Dist5Proofs
  Dist6Proofs Dist7Proofs KjProofs Kj2Proofs VonModel VonSpec Von3Proofs Von4Proofs JpProofs Jp3Proofs Wn3Proofs Wn6Proofs Ws3Proofs GaussProofs Von6Proofs Jp5Proofs
  FtModel FtSpec FtProofs Ft2Proofs Ft3Proofs Ft4Proofs Ft5Proofs Ft8Proofs IbModel.

Lemma chord_cos a b : a < b -> Rabs (cos b - cos a) < b - a.
Proof.
  intros H. assert (E : cos b - cos a = - 2 * sin ((a + b) / 2) * sin ((b - a) / 2)).
  { replace b with ((a + b) / 2 + (b - a) / 2) at 1 by field. replace a with ((a + b) / 2 - (b - a) / 2) at 3 by field. rewrite cos_plus, cos_minus. ring. }
  assert (S : Rabs (sin ((b - a) / 2)) < (b - a) / 2).
  { apply Rabs_def1; [apply sin_lt_x; lra|]. pose proof PI_gt3. destruct (Rle_lt_dec ((b - a) / 2) PI) as [L|L]; [pose proof (sin_ge_0 ((b - a) / 2) ltac:(lra) L); lra|].
    pose proof (SIN_bound ((b - a) / 2)). lra. }
  rewrite E, !Rabs_mult. replace (Rabs (- 2)) with 2 by (rewrite Rabs_left by lra; ring). pose proof (SIN_bound ((a + b) / 2)).
  assert (Rabs (sin ((a + b) / 2)) <= 1) by (apply Rabs_le; lra). pose proof (Rabs_pos (sin ((a + b) / 2))). pose proof (Rabs_pos (sin ((b - a) / 2))). nra.
Qed.
Lemma chord_sin a b : a < b -> Rabs (sin b - sin a) < b - a.
Proof.
  intros H. pose proof (chord_cos (PI / 2 - b) (PI / 2 - a) ltac:(lra)) as C. rewrite !cos_shift in C. rewrite Rabs_minus_sym. lra.
Qed.

(** A continuous increasing map of the circle that keeps -pi. *)
Record warp (W : R -> R) : Prop := {
  wp_cont : forall x, continuity_pt W x;
  wp_inc : forall a b, a < b -> W a < W b;
  wp_turns : forall x (z : Z), W (x + 2 * PI * IZR z) = W x + 2 * PI * IZR z;
  wp_pi : W (- PI) = - PI }.
Definition warp_nu (nu y : R) : R := y - nu * (1 + cos y).
Definition warp_sin (a u : R) : R := u - a * sin u.
Lemma warp_nu_ok nu : -1 <= nu <= 1 -> warp (warp_nu nu).
Proof.
  intros Hn. unfold warp_nu. split.
  - intros x. apply derivable_continuous_pt. reg.
  - intros a b ab. pose proof (chord_cos a b ab) as C. assert (Rabs (nu * (cos b - cos a)) < b - a).
    { rewrite Rabs_mult. assert (Rabs nu <= 1) by (apply Rabs_le; lra). pose proof (Rabs_pos nu). pose proof (Rabs_pos (cos b - cos a)). nra. }
    pose proof (Rle_abs (nu * (cos b - cos a))). lra.
  - intros x z. rewrite NpProofs.cos_turns. ring.
  - rewrite cos_neg, cos_PI. ring.
Qed.
Lemma warp_sin_ok a : 0 <= a <= 1 -> warp (warp_sin a).
Proof.
  intros Hn. unfold warp_sin. split.
  - intros x. apply derivable_continuous_pt. reg.
  - intros x y xy. pose proof (chord_sin x y xy) as C. assert (Rabs (a * (sin y - sin x)) < y - x).
    { rewrite Rabs_mult, (Rabs_pos_eq a) by lra. pose proof (Rabs_pos (sin y - sin x)). nra. }
    pose proof (Rle_abs (a * (sin y - sin x))). lra.
  - intros x z. rewrite NpProofs.sin_turns. ring.
  - rewrite sin_neg, sin_PI. ring.
Qed.
Lemma warp_inj W a b : warp W -> W a = W b -> a = b.
Proof. intros Hw E. destruct (Rtotal_order a b) as [L|[L|L]]; [|exact L|]; apply (wp_inc W Hw) in L; lra. Qed.
Lemma warp_hi W : warp W -> W PI = PI.
Proof. intros Hw. pose proof (wp_turns W Hw (- PI) 1) as T. rewrite (wp_pi W Hw) in T. replace (- PI + 2 * PI * 1) with PI in T by ring. exact T. Qed.
Lemma centre_in t : - PI <= t < PI -> centre t = t.
Proof. intros H. unfold centre. rewrite pymod_small by lra. ring. Qed.
(** The root of W y = phi that the code looks for. *)
Definition winv (root : (R -> R) -> R -> R -> R) (W : R -> R) (phi : R) : R := centre (root (fun y => W y - phi) (- PI) PI).
Lemma winv_spec root W phi : is_root root -> warp W -> - PI <= phi < PI -> - PI <= winv root W phi < PI /\ W (winv root W phi) = phi.
Proof.
  intros Hr Hw Hp. pose proof PI_gt3.
  destruct (Hr (fun y => W y - phi) (- PI) PI ltac:(lra)) as [B E].
  - intros x. apply continuity_pt_minus; [apply (wp_cont W Hw)|apply cont_const].
  - rewrite (wp_pi W Hw), (warp_hi W Hw). lra.
  - unfold winv. set (y := root (fun y => W y - phi) (- PI) PI) in *. assert (y < PI).
    { destruct (Rle_lt_dec PI y) as [L|L]; [|exact L]. assert (y = PI) as Ey by lra. rewrite Ey, (warp_hi W Hw) in E. lra. }
    rewrite centre_in by lra. split; lra.
Qed.
(** The inverse on the whole line. *)
Definition ginv root W phi : R := winv root W (centre phi) + (phi - centre phi).
Lemma ginv_spec root W phi : is_root root -> warp W -> W (ginv root W phi) = phi.
Proof.
  intros Hr Hw. destruct (winv_spec root W (centre phi) Hr Hw (centre_range phi)) as [_ E]. unfold ginv. destruct (centre_turns phi) as [z Ez].
  change (pymod (phi + PI) (2 * PI) - PI) with (centre phi) in Ez. replace (phi - centre phi) with (2 * PI * IZR (- z)) by (rewrite opp_IZR; lra).
  rewrite (wp_turns W Hw), E. rewrite opp_IZR. lra.
Qed.
Lemma ginv_unique root W phi y : is_root root -> warp W -> W y = phi -> ginv root W phi = y.
Proof. intros Hr Hw E. apply (warp_inj W _ _ Hw). rewrite (ginv_spec root W phi Hr Hw). symmetry. exact E. Qed.
Lemma ginv_in root W phi : is_root root -> warp W -> - PI <= phi < PI -> winv root W phi = ginv root W phi.
Proof. intros Hr Hw Hp. symmetry. apply ginv_unique; [exact Hr|exact Hw|]. apply (winv_spec root W phi Hr Hw Hp). Qed.
Lemma ginv_turns root W phi (z : Z) : is_root root -> warp W -> ginv root W (phi + 2 * PI * IZR z) = ginv root W phi + 2 * PI * IZR z.
Proof. intros Hr Hw. apply ginv_unique; [exact Hr|exact Hw|]. rewrite (wp_turns W Hw), (ginv_spec root W phi Hr Hw). reflexivity. Qed.
Lemma ginv_inc root W a b : is_root root -> warp W -> a < b -> ginv root W a < ginv root W b.
Proof.
  intros Hr Hw ab. destruct (Rlt_le_dec (ginv root W a) (ginv root W b)) as [L|L]; [exact L|]. exfalso.
  assert (W (ginv root W b) <= W (ginv root W a)). { destruct L as [L| ->]; [left; apply (wp_inc W Hw), L|right; reflexivity]. } rewrite !(ginv_spec root W _ Hr Hw) in H. lra.
Qed.
Lemma ginv_cont root W x : is_root root -> warp W -> continuity_pt (ginv root W) x.
Proof.
  intros Hr Hw eps He. set (y := ginv root W x). pose proof (ginv_spec root W x Hr Hw) as E. fold y in E.
  pose proof (wp_inc W Hw (y - eps / 2) y ltac:(lra)) as L1. pose proof (wp_inc W Hw y (y + eps / 2) ltac:(lra)) as L2. rewrite E in L1, L2.
  exists (Rmin (x - W (y - eps / 2)) (W (y + eps / 2) - x)). split; [apply Rmin_glb_lt; lra|]. intros t [_ D]. unfold dist in *. cbn in *. unfold R_dist in *. fold y.
  assert (D1 : Rabs (t - x) < x - W (y - eps / 2)) by (eapply Rlt_le_trans; [exact D|apply Rmin_l]). assert (D2 : Rabs (t - x) < W (y + eps / 2) - x) by (eapply Rlt_le_trans; [exact D|apply Rmin_r]).
  apply Rabs_def2 in D1. apply Rabs_def2 in D2.
  pose proof (ginv_inc root W (W (y - eps / 2)) t Hr Hw ltac:(lra)) as I1. pose proof (ginv_inc root W t (W (y + eps / 2)) Hr Hw ltac:(lra)) as I2.
  rewrite (ginv_unique root W (W (y - eps / 2)) (y - eps / 2) Hr Hw eq_refl) in I1. rewrite (ginv_unique root W (W (y + eps / 2)) (y + eps / 2) Hr Hw eq_refl) in I2.
  apply Rabs_def1; lra.
Qed.
Lemma warp_0_nu y : warp_nu 0 y = y. Proof. unfold warp_nu. ring. Qed.
Lemma sin_odd a y : warp_sin a (- y) = - warp_sin a y.
Proof. unfold warp_sin. rewrite sin_neg. ring. Qed.
Lemma ginv_odd root a y : is_root root -> 0 <= a <= 1 -> ginv root (warp_sin a) (- y) = - ginv root (warp_sin a) y.
Proof.
  intros Hr Ha. apply ginv_unique; [exact Hr|apply warp_sin_ok, Ha|]. rewrite sin_odd, (ginv_spec root (warp_sin a) y Hr (warp_sin_ok a Ha)). reflexivity.
Qed.

(** Substitution. *)
Lemma substitution f X X' a b v : a <= b -> X a <= X b -> (forall x, continuity_pt f x) -> (forall x, derivable_pt_lim X x (X' x)) -> (forall x, continuity_pt X' x) ->
  (forall x, a <= x <= b -> X a <= X x <= X b) ->
  integral f (X a) (X b) v -> integral (fun y => f (X y) * X' y) a b v.
Proof.
  intros ab Xab Cf DX CX HX I. destruct (primitive_exists f (X a) (X b)) as [Q HQ]; [exact Xab|intros; apply Cf|].
  assert (I2 : integral f (X a) (X b) (Q (X b) - Q (X a))) by (apply ftc; [exact Xab|intros; apply Cf|exact HQ]).
  rewrite (integral_unique _ _ _ _ _ I I2).
  refine (ftc (fun y => f (X y) * X' y) (fun y => Q (X y)) a b ab _ _).
  - intros x _. apply cont_mult; [|apply CX]. apply (cont_comp f X); [exact (dlim_cont _ _ _ (DX x))|apply Cf].
  - intros x Hx. apply (dlim_comp Q X x (f (X x)) (X' x)); [apply DX|]. apply HQ, HX, Hx.
Qed.
