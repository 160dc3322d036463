(** The circular-linear regression: weights, one iteration, the loop. *)
From Verif Require Import Prelude NpModel NpProofs UtilsModel CircleSpec IntSpec IntProofs VonSpec VonProofs Von2Proofs RegModel RegSpec RegProofs Reg2Proofs Reg3Proofs Reg4Proofs Desc9Proofs Em5Proofs.

Lemma A1_pos iv k : is_iv iv -> 0 < k -> 0 < A1 (iv 0%nat) (iv 1%nat) k.
Proof. intros H Hk. exact (vr_pos iv k 0 H Hk). Qed.
Lemma A1_lt1 iv k : is_iv iv -> 0 < k -> A1 (iv 0%nat) (iv 1%nat) k <= 1.
Proof. intros H Hk. exact (vr_le1 iv k 0 H Hk). Qed.
(** The variance of the cosine under the von Mises density. *)
Lemma A1p_nonneg iv k : is_iv iv -> 0 < k -> 0 <= A1p (iv 0%nat) (iv 1%nat) k.
Proof.
  intros H Hk. set (A := A1 (iv 0%nat) (iv 1%nat) k). pose proof (iv_pos iv 0 k H Hk) as P0. pose proof PI_RGT_0 as HP.
  pose proof (H 0%nat k) as H0. pose proof (H 1%nat k) as H1. pose proof (H 2%nat k) as H2.
  pose proof (integral_lin _ _ _ _ (- 2 * A) _ _ (integral_lin _ _ _ _ (1 / 2) _ _ (integral_scal _ _ _ (A ^ 2 + 1 / 2) _ (Rlt_le 0 (2 * PI) ltac:(lra)) H0) H2) H1) as L.
  assert (N : 0 * (2 * PI - 0) <= (A ^ 2 + 1 / 2) * (2 * PI * iv 0%nat k) + 1 / 2 * (2 * PI * iv 2%nat k) + - 2 * A * (2 * PI * iv 1%nat k)).
  { eapply integral_le; [| |apply (integral_const 0 (2 * PI) 0)|exact L]; [lra|]. intros x _. cbv beta. cbn [INR]. rewrite Rmult_0_l, cos_0, ?(Rmult_1_l x).
    replace ((1 + 1) * x) with (2 * x) by ring. rewrite cos_2a_cos. pose proof (exp_pos (k * cos x)). pose proof (pow2_ge_0 (cos x - A)).
    replace ((A ^ 2 + 1 / 2) * (1 * exp (k * cos x)) + 1 / 2 * ((2 * cos x * cos x - 1) * exp (k * cos x)) + - 2 * A * (cos x * exp (k * cos x)))
      with ((cos x - A) ^ 2 * exp (k * cos x)) by field. apply Rmult_le_pos; lra. }
  pose proof (iv_rec iv 0 k H) as R. cbn [INR] in R.
  assert (E1 : iv 1%nat k = A * iv 0%nat k) by (unfold A, A1; field; lra).
  assert (E2 : iv 2%nat k = (1 - 2 * A / k) * iv 0%nat k). { apply (Rmult_eq_reg_l k); [|lra]. rewrite R, E1. field. lra. }
  rewrite E1, E2 in N. unfold A1p. fold A.
  assert (N' : 0 <= 2 * PI * iv 0%nat k * (1 - A / k - A ^ 2)). { eapply Rle_trans; [|eapply Rle_trans; [exact N|]]; [lra|]. right. field. lra. }
  apply (Rmult_le_reg_l (2 * PI * iv 0%nat k)); [apply Rmult_lt_0_compat; lra|]. lra.
Qed.
Lemma A1inv_nonneg r : 0 <= r < 1 -> 0 <= A1inv r.
Proof. intros H. destruct (Rlt_dec r (85/100)); [apply (A1inv_mono r r); lra|apply (A1inv_mono r r); lra]. Qed.
Lemma weight_nonneg iv k : is_iv iv -> 0 <= k -> 0 <= k * A1 (iv 0%nat) (iv 1%nat) k.
Proof. intros H [Hk|<-]; [|lra]. apply Rmult_le_pos; [lra|]. left. now apply A1_pos. Qed.

Lemma grow_length b o : length (grow b o) = length (snd o).
Proof. unfold grow. apply map_length. Qed.
Lemma grow_nth b o j : nth j (grow b o) 0 = 2 * nth j (snd o) 0 / (1 + dot (snd o) b ^ 2).
Proof.
  unfold grow. destruct (Nat.lt_ge_cases j (length (snd o))) as [Hj|Hj]; [apply (nth_map_d (fun x => 2 * x / (1 + dot (snd o) b ^ 2)) (snd o) j 0 0 Hj)|].
  rewrite !nth_overflow; [|exact Hj|rewrite map_length; exact Hj]. unfold Rdiv. ring.
Qed.
Lemma grow_inner b o v : inner (grow b o) v = 2 / (1 + inner (snd o) b ^ 2) * inner (snd o) v.
Proof.
  rewrite (inner_sum (length (snd o)) (grow b o) v) by apply grow_length. rewrite (inner_sum (length (snd o)) (snd o) v) by auto.
  rewrite <- sumn_scal. apply sumn_ext. intros j _. rewrite grow_nth, dot_inner. unfold Rdiv. ring.
Qed.
Lemma x1_inner o v : inner (x1 o) v = hd 0 v + inner (snd o) (tl v).
Proof. unfold x1. destruct v as [|a v]; cbn; [destruct (snd o); cbn; ring|ring]. Qed.

(** ** Data *)
Definition rows_ok (p : nat) (l : list obs) : Prop := forall o, In o l -> length (snd o) = p.
Lemma combine_ok p theta (rows : list (list R)) : (forall r, In r rows -> length r = p) -> rows_ok p (combine theta rows).
Proof. intros H [t r] Ho. apply in_combine_r in Ho. exact (H r Ho). Qed.

(** ** The three updates as equations *)
Lemma tmul_nth p g u l j : (j < p)%nat -> nth j (tmul p g u l) 0 = Rsum (map (fun o => nth j (g o) 0 * u o) l).
Proof. intros. unfold tmul. now rewrite nth_vec_of. Qed.
Lemma tmul_length p g u l : length (tmul p g u l) = p.
Proof. apply vec_of_length. Qed.

(** The mean model: the matrix form of the right-hand side. *)
Definition mean_rhs (p : nat) (b : vec) (w : R) (u : obs -> R) (l : list obs) : vec :=
  vadd (tmul p (grow b) u l) (mv (mscale w (gram p (fun _ => 1) (grow b) l)) b).
Lemma mscale_row w A j : nth j (mscale w A) [] = map (Rmult w) (nth j A []).
Proof. unfold mscale. change (@nil R) with (map (Rmult w) (@nil R)) at 1. apply map_nth. Qed.
Lemma inner_map_scal w u v : inner (map (Rmult w) u) v = w * inner u v.
Proof. revert v. induction u as [|a u IH]; intros [|c v]; cbn; try ring. rewrite IH. ring. Qed.
Lemma gram_mv p w g l x i : (i < p)%nat -> length x = p -> (forall o, In o l -> length (g o) = p) ->
  inner (nth i (gram p w g l) []) x = Rsum (map (fun o => w o * nth i (g o) 0 * inner (g o) x) l).
Proof.
  intros Hi Hx Hg. unfold gram. rewrite row_mat_of by auto. rewrite inner_vec_of.
  rewrite (sumn_ext _ _ (fun k => Rsum (map (fun o => w o * (nth i (g o) 0 * nth k (g o) 0) * nth k x 0) l))).
  - rewrite sumn_sum. apply Rsum_map_ext. intros o Ho. rewrite (inner_sum p (g o) x) by auto. rewrite <- sumn_scal. apply sumn_ext. intros k _. ring.
  - intros k _. now rewrite <- Rsum_map_scal_r.
Qed.
Lemma mean_rhs_length p b w u l : length (mean_rhs p b w u l) = p.
Proof. apply vadd_length; [apply tmul_length|]. rewrite mv_length. unfold mscale, gram, mat_of. now rewrite !map_length, seq_length. Qed.
Lemma mean_rhs_nth p b w u l j : (j < p)%nat -> length b = p -> rows_ok p l ->
  nth j (mean_rhs p b w u l) 0 = Rsum (map (fun o => nth j (grow b o) 0 * u o) l) + Rsum (map (fun o => w * 1 * nth j (grow b o) 0 * inner (grow b o) b) l).
Proof.
  intros Hj Hb Hl. unfold mean_rhs. rewrite (vadd_nth p); auto; [|apply tmul_length|rewrite mv_length; unfold mscale, gram, mat_of; now rewrite !map_length, seq_length].
  rewrite tmul_nth by auto. f_equal. rewrite mv_nth by (unfold mscale, gram, mat_of; now rewrite !map_length, seq_length).
  rewrite mscale_row, inner_map_scal, gram_mv; auto; [|intros o Ho; rewrite grow_length; exact (Hl o Ho)].
  rewrite <- Rsum_map_scal. apply Rsum_map_ext. intros; ring.
Qed.

(** ** One iteration *)
Definition Rres (b : vec) (l : list obs) : R := hypot (mean (map (fun o => sin (rdev b o)) l)) (mean (map (fun o => cos (rdev b o)) l)).
Definition Mres (b : vec) (l : list obs) : R := arctan2 (mean (map (fun o => sin (rdev b o)) l)) (mean (map (fun o => cos (rdev b o)) l)).
Definition mean_ll (i0 : R -> R) (l : list obs) (b : vec) (mu k : R) : R :=
  - INR (length l) * ln (i0 k) + k * Rsum (map (fun o => cos (rdev b o - mu)) l).
Lemma mean_step_inv i0 i1 solve pinv p l q new mu kap ll : mean_step i0 i1 solve pinv p l q = Step new mu kap ll ->
  Rres (p_beta q) l <> 1 /\ mu = Mres (p_beta q) l /\ (exists k, kap = One k /\ k = A1inv (Rres (p_beta q) l) /\ ll = mean_ll i0 l (p_beta q) mu k /\
    p_alpha new = p_alpha q /\ p_gamma new = p_gamma q /\
    p_beta new = safe_solve solve pinv (gridge p (fun _ => k * A1 i0 i1 k * 1) (grow (p_beta q)) l)
      (mean_rhs p (p_beta q) (k * A1 i0 i1 k) (fun o => k * sin (rdev (p_beta q) o - mu)) l)).
Proof.
  unfold mean_step. fold (Rres (p_beta q) l). fold (Mres (p_beta q) l). destruct (Reqb_spec (Rres (p_beta q) l) 1); [discriminate|]. intros E. injection E as <- <- <- <-.
  split; [auto|]. split; [reflexivity|]. exists (A1inv (Rres (p_beta q) l)). cbn [p_beta p_alpha p_gamma]. rewrite ridge_scaled. repeat split.
Qed.
Lemma sincos_le {A} (f : A -> R) l : Rsum (map (fun o => sin (f o)) l) ^ 2 + Rsum (map (fun o => cos (f o)) l) ^ 2 <= INR (length l) ^ 2.
Proof.
  assert (D : forall t, sin t * Rsum (map (fun o => sin (f o)) l) + cos t * Rsum (map (fun o => cos (f o)) l) <= INR (length l)).
  { intros t. rewrite <- !Rsum_map_scal, <- Rsum_map_plus. rewrite <- (Rmult_1_l (INR (length l))), <- (Rsum_map_const 1 l). apply Rsum_map_le. intros o _.
    pose proof (COS_bound (t - f o)) as [_ B]. rewrite cos_minus in B. lra. }
  revert D. generalize (Rsum (map (fun o => sin (f o)) l)) (Rsum (map (fun o => cos (f o)) l)). intros S C D. pose proof (polar C S) as [E1 E2]. specialize (D (arctan2 S C)). pose proof (hypot_nonneg C S) as HN.
  pose proof (sin2_cos2 (arctan2 S C)) as T. unfold Rsqr in T. set (h := hypot C S) in *. set (a := arctan2 S C) in *.
  assert (Hh : h <= INR (length l)). { rewrite <- E1, <- E2 in D. replace (sin a * (h * sin a) + cos a * (h * cos a)) with (h * (sin a * sin a + cos a * cos a)) in D by ring. rewrite T in D. lra. }
  rewrite <- E1, <- E2. replace ((h * sin a) ^ 2 + (h * cos a) ^ 2) with (h ^ 2 * (sin a * sin a + cos a * cos a)) by ring. rewrite T, Rmult_1_r. apply pow_incr. lra.
Qed.
Lemma Rres_bounds b l : l <> [] -> 0 <= Rres b l <= 1.
Proof.
  intros Hl. split; [apply hypot_nonneg|]. unfold Rres.
  assert (Q : (mean (map (fun o => sin (rdev b o)) l)) ^ 2 + (mean (map (fun o => cos (rdev b o)) l)) ^ 2 <= 1).
  { pose proof (sincos_le (rdev b) l) as K. unfold mean. rewrite !map_length.
    assert (0 < INR (length l)) by (apply lt_0_INR; destruct l; [congruence|cbn; lia]).
    replace ((Rsum (map (fun o => sin (rdev b o)) l) / INR (length l)) ^ 2 + (Rsum (map (fun o => cos (rdev b o)) l) / INR (length l)) ^ 2)
      with ((Rsum (map (fun o => sin (rdev b o)) l) ^ 2 + Rsum (map (fun o => cos (rdev b o)) l) ^ 2) / INR (length l) ^ 2) by (field; lra).
    apply Rmult_le_reg_r with (INR (length l) ^ 2); [apply pow_lt; lra|]. unfold Rdiv. rewrite Rmult_assoc, Rinv_l, Rmult_1_r, Rmult_1_l; [|apply pow_nonzero; lra]. exact K. }
  unfold hypot. rewrite <- sqrt_1. apply sqrt_le_1_alt. lra.
Qed.
