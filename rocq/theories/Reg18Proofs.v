(** The Fisher information of the circular-linear models. *)
From Verif Require Import Prelude NpModel NpProofs UtilsModel CircleSpec IntSpec IntProofs DistModel DistSpec DistProofs Dist2Proofs Dist4Proofs Dist5Proofs Dist6Proofs Dist7Proofs Dist8Proofs KjProofs Kj2Proofs VonSpec VonProofs Von2Proofs Von3Proofs Von4Proofs RegModel RegSpec RegClSpec RegSeSpec RegProofs Reg4Proofs Reg9Proofs Reg10Proofs Reg11Proofs Reg12Proofs Reg13Proofs Reg14Proofs.

(** ** One observation *)
Lemma var_cos iv k : is_iv iv -> 0 < k -> integral (fun u => (cos u - A1 (iv 0%nat) (iv 1%nat) k) ^ 2 * vE k u) 0 (2 * PI) (2 * PI * iv 0%nat k * A1p (iv 0%nat) (iv 1%nat) k).
Proof.
  intros H Hk. set (A := A1 (iv 0%nat) (iv 1%nat) k). pose proof (iv_pos iv 0 k H Hk) as P0. pose proof PI_RGT_0 as HP.
  pose proof (H 0%nat k) as H0. pose proof (H 1%nat k) as H1. pose proof (H 2%nat k) as H2.
  pose proof (integral_lin _ _ _ _ (- 2 * A) _ _ (integral_lin _ _ _ _ (1 / 2) _ _ (integral_scal _ _ _ (A ^ 2 + 1 / 2) _ (Rlt_le 0 (2 * PI) ltac:(lra)) H0) H2) H1) as L.
  pose proof (iv_rec iv 0 k H) as R. cbn [INR] in R.
  assert (E1 : iv 1%nat k = A * iv 0%nat k) by (unfold A, A1; field; lra).
  assert (E2 : iv 2%nat k = (1 - 2 * A / k) * iv 0%nat k). { apply (Rmult_eq_reg_l k); [|lra]. rewrite R, E1. field. lra. }
  eapply integral_val; [|refine (integral_ext _ _ _ _ _ _ _ L)]; [|lra|].
  - rewrite E1, E2. unfold A1p. fold A. field. lra.
  - intros x _. cbv beta. cbn [INR]. rewrite Rmult_0_l, cos_0, ?(Rmult_1_l x). replace ((1 + 1) * x) with (2 * x) by ring. rewrite cos_2a_cos. unfold vE. field.
Qed.
Lemma mean_sin2 iv k : is_iv iv -> 0 < k -> integral (fun u => sin u ^ 2 * vE k u) 0 (2 * PI) (2 * PI * iv 0%nat k * (A1 (iv 0%nat) (iv 1%nat) k / k)).
Proof.
  intros H Hk. pose proof (iv_pos iv 0 k H Hk) as P0. pose proof PI_RGT_0 as HP. pose proof (H 0%nat k) as H0. pose proof (H 2%nat k) as H2.
  pose proof (integral_lin _ _ _ _ (- / 2) _ _ (integral_scal _ _ _ (/ 2) _ (Rlt_le 0 (2 * PI) ltac:(lra)) H0) H2) as L. pose proof (iv_rec iv 0 k H) as R. cbn [INR] in R.
  eapply integral_val; [|refine (integral_ext _ _ _ _ _ _ _ L)]; [|lra|].
  - assert (E2 : iv 2%nat k = iv 0%nat k - 2 * (iv 1%nat k / k)). { apply (Rmult_eq_reg_l k); [|lra]. rewrite R. field. lra. } rewrite E2. unfold A1. field. lra.
  - intros x _. cbv beta. cbn [INR]. rewrite Rmult_0_l, cos_0. replace ((1 + 1) * x) with (2 * x) by ring. rewrite cos_2a_sin. unfold vE. field.
Qed.
Lemma cov_sin_cos k A : k <> 0 -> integral (fun u => (cos u - A) * sin u * vE k u) 0 (2 * PI) 0.
Proof.
  intros Hk. apply (closed_integral _ (fun u => - (cos u / k - (/ k + A) / k) * vE k u)).
  - intros t. apply cont_mult; [apply cont_mult|apply vE_cont].
    + eapply dlim_cont. apply dlim_minus; [apply (dlim_cos (fun y => y)); apply dlim_id|apply dlim_const].
    + eapply dlim_cont. apply (dlim_sin (fun y => y)); apply dlim_id.
  - intros t. eapply dlim_eq; [|apply dlim_mult; [apply dlim_opp; apply dlim_minus; [apply dlim_mult; [apply (dlim_cos (fun y => y)); apply dlim_id|apply dlim_const]|apply dlim_const]|apply vE_d]].
    cbv beta. field. exact Hk.
  - rewrite <- (Rplus_0_l (2 * PI)) at 2. rewrite vE_per, cos_2PI, cos_0. reflexivity.
Qed.
(** E (a (cos - A1) + b sin)^2. *)
Lemma score_moment iv k a b : is_iv iv -> 0 < k ->
  integral (fun u => (a * (cos u - A1 (iv 0%nat) (iv 1%nat) k) + b * sin u) ^ 2 * vE k u) 0 (2 * PI) (2 * PI * iv 0%nat k * (a ^ 2 * A1p (iv 0%nat) (iv 1%nat) k + b ^ 2 * (A1 (iv 0%nat) (iv 1%nat) k / k))).
Proof.
  intros H Hk. pose proof PI_RGT_0 as HP.
  pose proof (integral_lin _ _ _ _ (2 * a * b) _ _ (integral_lin _ _ _ _ (b ^ 2) _ _ (integral_scal _ _ _ (a ^ 2) _ (Rlt_le 0 (2 * PI) ltac:(lra)) (var_cos iv k H Hk)) (mean_sin2 iv k H Hk)) (cov_sin_cos k (A1 (iv 0%nat) (iv 1%nat) k) ltac:(lra))) as L.
  eapply integral_val; [|refine (integral_ext _ _ _ _ _ _ _ L)]; [ring|lra|]. intros x _. cbv beta. ring.
Qed.
Lemma score_info iv m k a b : is_iv iv -> 0 < k ->
  integral (fun t => (a * (cos (t - m) - A1 (iv 0%nat) (iv 1%nat) k) + b * sin (t - m)) ^ 2 * vm_dens iv m k t) 0 (2 * PI) (a ^ 2 * A1p (iv 0%nat) (iv 1%nat) k + b ^ 2 * (A1 (iv 0%nat) (iv 1%nat) k / k)).
Proof.
  intros H Hk. pose proof PI_RGT_0 as HP. pose proof (iv_pos iv 0 k H Hk) as P0. set (A := A1 (iv 0%nat) (iv 1%nat) k).
  set (f := fun u => (a * (cos u - A) + b * sin u) ^ 2 * vE k u).
  assert (C : forall x, continuity_pt f x).
  { intros x. apply cont_mult; [|apply vE_cont]. eapply dlim_cont. apply (dlim_pow 1). apply dlim_plus; [apply dlim_scal; apply dlim_minus; [apply (dlim_cos (fun y => y)); apply dlim_id|apply dlim_const]|apply dlim_scal; apply (dlim_sin (fun y => y)); apply dlim_id]. }
  assert (P : forall x (z : Z), f (x + 2 * PI * IZR z) = f x). { intros x z. unfold f. rewrite vE_turns, cos_turns, sin_turns. reflexivity. }
  assert (I : integral (fun t => f (t - m)) 0 (2 * PI) (2 * PI * iv 0%nat k * (a ^ 2 * A1p (iv 0%nat) (iv 1%nat) k + b ^ 2 * (A / k)))).
  { apply int_shift_to; [lra|exact C|]. replace (2 * PI - m) with (0 - m + 2 * PI) by ring. apply int_turn; [exact C|exact P|apply score_moment; assumption]. }
  pose proof (integral_scal _ _ _ (/ (2 * PI * iv 0%nat k)) _ (Rlt_le 0 (2 * PI) ltac:(lra)) I) as J.
  eapply integral_val; [|refine (integral_ext _ _ _ _ _ _ _ J)]; [field; split; lra|lra|]. intros x _. cbv beta. unfold f, vm_dens, vE. field. split; lra.
Qed.
Lemma score_d iv (loc conc : R -> R) ml kl t : is_iv iv -> derivable_pt_lim loc 0 ml -> derivable_pt_lim conc 0 kl ->
  derivable_pt_lim (fun s => ln (vm_dens iv (loc s) (conc s) t)) 0 (kl * (cos (t - loc 0) - A1 (iv 0%nat) (iv 1%nat) (conc 0)) + conc 0 * ml * sin (t - loc 0)).
Proof.
  intros H Dl Dc. pose proof PI_RGT_0 as HP. pose proof (i0_pos iv (conc 0) H) as P0.
  apply (dlim_ext (fun s => conc s * cos (t - loc s) - (ln (2 * PI) + ln (iv 0%nat (conc s))))).
  { intros s. pose proof (i0_pos iv (conc s) H). unfold vm_dens, Rdiv. rewrite (ln_mult (exp _)); [|apply exp_pos|apply Rinv_0_lt_compat; apply Rmult_lt_0_compat; lra].
    rewrite ln_exp, ln_Rinv by (apply Rmult_lt_0_compat; lra). rewrite (ln_mult (2 * PI)) by lra. ring. }
  eapply dlim_eq; [|apply dlim_minus; [apply dlim_mult; [exact Dc|apply dlim_cos; apply dlim_minus; [apply dlim_const|exact Dl]]|apply dlim_plus; [apply dlim_const|apply dlim_ln; [exact P0|apply (dlim_comp (iv 0%nat) conc); [exact Dc|apply i0_d; exact H]]]]].
  cbv beta. unfold A1. field. lra.
Qed.
(** ** All of them *)
Lemma fisher_sum iv loc conc rows (ml kl : list R -> R) : is_iv iv ->
  (forall x, In x rows -> derivable_pt_lim (fun s => loc s x) 0 (ml x) /\ derivable_pt_lim (fun s => conc s x) 0 (kl x) /\ 0 < conc 0 x) ->
  fisher iv loc conc rows (Rsum (map (fun x => kl x ^ 2 * A1p (iv 0%nat) (iv 1%nat) (conc 0 x) + conc 0 x * A1 (iv 0%nat) (iv 1%nat) (conc 0 x) * ml x ^ 2) rows)).
Proof.
  intros H D. eexists. split; [reflexivity|]. induction rows as [|x rows IH]; [constructor|]. cbn [map]. constructor; [|apply IH; intros y Hy; apply D; now right].
  destruct (D x (or_introl eq_refl)) as (D1 & D2 & P). exists (fun t => kl x * (cos (t - loc 0 x) - A1 (iv 0%nat) (iv 1%nat) (conc 0 x)) + conc 0 x * ml x * sin (t - loc 0 x)). split.
  - intros t. exact (score_d iv (fun s => loc s x) (fun s => conc s x) (ml x) (kl x) t H D1 D2).
  - eapply integral_val; [|apply score_info; assumption]. field. lra.
Qed.
Lemma fisher_eq iv loc conc rows v v' : v = v' -> fisher iv loc conc rows v -> fisher iv loc conc rows v'.
Proof. now intros ->. Qed.

(** The Gram matrix. *)
Lemma gram_quad p w g (l : list obs) e : (forall o, In o l -> List.length (g o) = p) -> quad_form p (gram p w g l) e = Rsum (map (fun o => w o * inner (g o) e ^ 2) l).
Proof.
  intros Hg. unfold quad_form. change (sumn p (fun i => sumn p (fun j => nth i e 0 * entry (gram p w g l) i j * nth j e 0)) = Rsum (map (fun o => w o * inner (g o) e ^ 2) l)).
  transitivity (sumn p (fun i => Rsum (map (fun o => sumn p (fun j => w o * (nth i (g o) 0 * nth i e 0) * (nth j (g o) 0 * nth j e 0))) l))).
  { apply sumn_ext. intros i Hi. rewrite <- sumn_sum. apply sumn_ext. intros j Hj. unfold gram. change (entry ?A i j) with (ent A i j). rewrite ent_mat_of by auto.
    rewrite <- Rsum_map_scal, <- Rsum_map_scal_r. apply Rsum_map_ext. intros o _. ring. }
  rewrite sumn_sum. apply Rsum_map_ext. intros o Ho. rewrite (inner_sum p (g o) e) by auto.
  transitivity (sumn p (fun i => w o * (nth i (g o) 0 * nth i e 0) * sumn p (fun j => nth j (g o) 0 * nth j e 0))).
  - apply sumn_ext. intros i _. apply sumn_scal.
  - rewrite sumn_scal_r, sumn_scal. ring.
Qed.
Lemma gram_sym p w g l : symmetric p (gram p w g l).
Proof.
  split; [apply shaped_mat_of|]. intros i j Hi Hj. change (ent (gram p w g l) i j = ent (gram p w g l) j i). unfold gram. rewrite !ent_mat_of by auto. apply Rsum_map_ext. intros o _. ring.
Qed.
Lemma gram_inverse inv pinv p w g l : right_inv inv -> (forall o, In o l -> List.length (g o) = p /\ 0 <= w o) ->
  inverse_of p (/ 10 ^ 8) (gram p w g l) (safe_inverse inv pinv (gridge p w g l)).
Proof.
  intros Hv Hg. unfold safe_inverse. specialize (Hv p (gridge p w g l) (gridge_shaped p w g l)). destruct (inv (gridge p w g l)) as [B|].
  2:{ exfalso. destruct Hv as [y Hy]. now apply (null_not p w g l y Hg). }
  destruct Hv as [Sh Hv]. split; [exact Sh|]. intros i j Hi Hj. rewrite <- (Hv i j Hi Hj). apply Rsum_map_ext. intros k Hk. apply in_seq in Hk. f_equal.
  rewrite <- ridge_gram. change (entry (ridge p (gram p w g l)) i k) with (ent (ridge p (gram p w g l)) i k). rewrite ridge_ent by lia. change (entry (gram p w g l) i k) with (ent (gram p w g l) i k). destruct (Nat.eqb i k); [|reflexivity]. f_equal. unfold eps8. field.
Qed.
Lemma diag_root inv pinv p w g l from to : right_inv inv -> (forall o, In o l -> List.length (g o) = p /\ 0 <= w o) -> (from + to <= p)%nat ->
  diag from to (safe_inverse inv pinv (gridge p w g l)) = root_diag (safe_inverse inv pinv (gridge p w g l)) (seq from to).
Proof.
  intros Hv Hg Hp. apply map_ext_in. intros j Hj. apply in_seq in Hj. destruct (inv_diag inv pinv p w g l j Hv Hg ltac:(lia)) as (v & Pv & E). change (entry ?A j j) with (ent A j j).
  unfold fsqrt in *. destruct (Rltb _ _); [discriminate|reflexivity].
Qed.
