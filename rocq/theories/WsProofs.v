(** wrapstable: the truncated series, its moments and its integral. *)
From Verif Require Import Prelude NpModel NpProofs UtilsModel UtilsProofs DescModel DescProofs CircleSpec IntSpec IntProofs DistModel DistSpec DistProofs Dist2Proofs Dist4Proofs Dist5Proofs
  Dist6Proofs Dist7Proofs Dist8Proofs KjProofs Kj2Proofs Kj6Proofs Kj7Proofs WnModel WnProofs WsModel WsSpec.

Lemma ws_ok_spec d a b g : ws_ok d a b g = true -> 0 <= d <= 2 * PI /\ 0 < a <= 2 /\ -1 < b < 1 /\ 0 < g.
Proof. unfold ws_ok. rewrite !andb_true_iff, !Rleb_true, !Rltb_true. lra. Qed.
Lemma ws_ok_intro d a b g : 0 <= d <= 2 * PI -> 0 < a <= 2 -> -1 < b < 1 -> 0 < g -> ws_ok d a b g = true.
Proof. intros. unfold ws_ok. rewrite !andb_true_iff, !Rleb_true, !Rltb_true. lra. Qed.

(** ** The number of terms *)
Lemma ws_rho_pos a g p : 0 < ws_rho a g p.
Proof. apply exp_pos. Qed.
Lemma ws_rho_anti a g p q : 0 < a -> 0 < g -> (1 <= p <= q)%nat -> ws_rho a g q <= ws_rho a g p.
Proof.
  intros Ha Hg [H1 H2]. unfold ws_rho. apply le_INR in H1, H2. change (INR 1) with 1 in H1.
  assert (L : Rpower (g * INR p) a <= Rpower (g * INR q) a).
  { apply Rle_Rpower_l; [lra|]. split; [apply Rmult_lt_0_compat; lra|apply Rmult_le_compat_l; lra]. }
  destruct (Rle_lt_or_eq_dec _ _ L) as [K| ->]; [|lra]. left. apply exp_increasing. lra.
Qed.
Lemma ws_rho_le1 a g p : ws_rho a g p <= 1.
Proof. unfold ws_rho. rewrite <- exp_0. left. apply exp_increasing. pose proof (exp_pos (a * ln (g * INR p))) as E. unfold Rpower. lra. Qed.
Lemma ws_max_val : ws_max = Z.to_nat 20000. Proof. reflexivity. Qed.
Lemma ws_max_ge : (2 <= ws_max)%nat.
Proof. unfold ws_max. lia. Qed.
Lemma ws_loop_spec a g fuel : forall P, (1 <= P <= ws_max)%nat -> (ws_max + 1 <= fuel + P)%nat ->
  let Q := ws_loop a g fuel P in (P <= Q <= S ws_max)%nat /\ (ws_rho a g Q <= / 10 ^ 12 \/ (ws_max <= Q)%nat).
Proof.
  induction fuel as [|f IH]; intros P HP HF Q; subst Q; cbn [ws_loop].
  - exfalso. lia.
  - destruct (Rleb_spec (ws_rho a g P) (/ 10 ^ 12)) as [L|L]; cbn [andb].
    + destruct (Rleb (ws_rho a g P / INR P) (/ 10 ^ 12)); [split; [lia|left; exact L]|].
      destruct (Nat.leb_spec ws_max (S P)) as [M|M]; [split; [lia|right; lia]|].
      destruct (IH (S P) ltac:(lia) ltac:(lia)) as [K1 K2]. split; [lia|exact K2].
    + destruct (Nat.leb_spec ws_max (S P)) as [M|M]; [split; [lia|right; lia]|].
      destruct (IH (S P) ltac:(lia) ltac:(lia)) as [K1 K2]. split; [lia|exact K2].
Qed.
Lemma ws_initial_le a g tol : (ws_initial a g tol <= ws_max)%nat.
Proof. unfold ws_initial. destruct (Rltb _ _); lia. Qed.
Lemma ws_order_spec a g : 0 < a -> 0 < g ->
  (1 <= ws_order a g <= S ws_max)%nat /\ (ws_rho a g ws_max <= / 10 ^ 12 -> ws_rho a g (ws_order a g) <= / 10 ^ 12).
Proof.
  intros Ha Hg. unfold ws_order. pose proof (ws_initial_le a g (/ 10 ^ 12)) as L. pose proof ws_max_ge as M.
  set (P := Nat.max 1 _). destruct (ws_loop_spec a g ws_max P ltac:(lia) ltac:(lia)) as [K1 K2]. split; [lia|]. intros T.
  destruct K2 as [K2|K2]; [exact K2|]. pose proof (ws_rho_anti a g ws_max (ws_loop a g ws_max P) Ha Hg ltac:(lia)). lra.
Qed.
(** The count starts at the initial order. *)
Lemma ws_order_ge a g : (ws_initial a g (/ 10 ^ 12) <= ws_order a g)%nat.
Proof.
  unfold ws_order. pose proof (ws_initial_le a g (/ 10 ^ 12)) as L. pose proof ws_max_ge as M. cbv zeta.
  match goal with |- (_ <= ws_loop a g ws_max ?P)%nat => destruct (ws_loop_spec a g ws_max P ltac:(lia) ltac:(lia)) as [K1 _] end. lia.
Qed.

(** ** Cosine polynomials with phases *)
Definition spoly (r m : nat -> R) (P : nat) (t : R) : R := (1 + 2 * Rsum (map (fun p => r p * cos (INR p * t - m p)) (seq 1 P))) / (2 * PI).
Definition sprim (r m : nat -> R) (P : nat) (x : R) : R :=
  x / (2 * PI) + 1 / PI * Rsum (map (fun p => r p / INR p * (sin (INR p * x - m p) + sin (m p))) (seq 1 P)).
Lemma ortho_ss (n p : nat) : (1 <= p)%nat -> integral (fun t => sin (INR n * t) * sin (INR p * t)) 0 (2 * PI) (if Nat.eqb n p then PI else 0).
Proof.
  intros Hp. pose proof PI_RGT_0 as P0. assert (L : 0 <= 2 * PI) by lra.
  pose proof (integral_lin _ _ _ _ (-1) _ _ (int_cos_diff n p) (int_cos_n (n + p) ltac:(lia))) as K.
  pose proof (integral_scal _ _ _ (1 / 2) _ L K) as J.
  refine (integral_val _ _ _ _ _ _ (integral_ext _ _ _ _ _ L _ J)); [destruct (Nat.eqb n p); field|].
  intros t _. rewrite plus_INR.
  replace ((INR n + INR p) * t) with (INR n * t + INR p * t) by ring. replace ((INR n - INR p) * t) with (INR n * t - INR p * t) by ring. rewrite cos_plus, cos_minus. field.
Qed.
Lemma spoly_split r m P t : spoly r m P t =
  (1 + 2 * (Rsum (map (fun p => r p * cos (m p) * cos (INR p * t)) (seq 1 P)) + Rsum (map (fun p => r p * sin (m p) * sin (INR p * t)) (seq 1 P)))) / (2 * PI).
Proof. unfold spoly. rewrite <- Rsum_plus_map. do 3 f_equal. apply Rsum_ext_map. intros p _. rewrite cos_minus. ring. Qed.
Lemma spoly_moment r m P n : (1 <= n)%nat ->
  integral (fun t => cos (INR n * t) * spoly r m P t) 0 (2 * PI) (if Nat.leb n P then r n * cos (m n) else 0) /\
  integral (fun t => sin (INR n * t) * spoly r m P t) 0 (2 * PI) (if Nat.leb n P then r n * sin (m n) else 0).
Proof.
  intros Hn. pose proof PI_RGT_0 as P0. assert (L : 0 <= 2 * PI) by lra.
  assert (SC : forall a b : nat, integral (fun t => cos (INR a * t) * sin (INR b * t)) 0 (2 * PI) 0).
  { intros a b. apply (integral_ext (fun t => sin (INR b * t) * cos (INR a * t))); [exact L|intros; ring|apply ortho_sc]. }
  split.
  - pose proof (integral_Rsum (fun p t => (r p * cos (m p)) * (cos (INR n * t) * cos (INR p * t))) (fun p => (r p * cos (m p)) * (if Nat.eqb n p then PI else 0)) (seq 1 P) 0 (2 * PI) L
      (fun p I => integral_scal _ _ _ (r p * cos (m p)) _ L (ortho_cc n p (proj1 (proj1 (in_seq _ _ _) I))))) as K1.
    pose proof (integral_Rsum (fun p t => (r p * sin (m p)) * (cos (INR n * t) * sin (INR p * t))) (fun p => (r p * sin (m p)) * 0) (seq 1 P) 0 (2 * PI) L
      (fun p I => integral_scal _ _ _ (r p * sin (m p)) _ L (SC n p))) as K2.
    rewrite Rsum_pick in K1 by apply seq_NoDup. rewrite existsb_seq, (proj2 (Nat.leb_le 1 n)) in K1 by exact Hn. cbn [andb] in K1.
    pose proof (integral_lin _ _ _ _ 2 _ _ (int_cos_n n Hn) (integral_plus _ _ _ _ _ _ L K1 K2)) as J. pose proof (integral_scal _ _ _ (/ (2 * PI)) _ L J) as J'.
    refine (integral_val _ _ _ _ _ _ (integral_ext _ _ _ _ _ L _ J')).
    + rewrite (Rsum_ext_map (fun p => r p * sin (m p) * 0) (fun p => 0 * r p)) by (intros; ring). rewrite Rsum_scal_map. destruct (Nat.leb n P); field; lra.
    + intros t _. cbv beta. rewrite spoly_split.
      rewrite (Rsum_ext_map (fun p => r p * cos (m p) * (cos (INR n * t) * cos (INR p * t))) (fun p => cos (INR n * t) * (r p * cos (m p) * cos (INR p * t)))) by (intros; ring).
      rewrite (Rsum_ext_map (fun p => r p * sin (m p) * (cos (INR n * t) * sin (INR p * t))) (fun p => cos (INR n * t) * (r p * sin (m p) * sin (INR p * t)))) by (intros; ring).
      rewrite !Rsum_scal_map. field. lra.
  - pose proof (integral_Rsum (fun p t => (r p * cos (m p)) * (sin (INR n * t) * cos (INR p * t))) (fun p => (r p * cos (m p)) * 0) (seq 1 P) 0 (2 * PI) L
      (fun p I => integral_scal _ _ _ (r p * cos (m p)) _ L (ortho_sc n p))) as K1.
    pose proof (integral_Rsum (fun p t => (r p * sin (m p)) * (sin (INR n * t) * sin (INR p * t))) (fun p => (r p * sin (m p)) * (if Nat.eqb n p then PI else 0)) (seq 1 P) 0 (2 * PI) L
      (fun p I => integral_scal _ _ _ (r p * sin (m p)) _ L (ortho_ss n p (proj1 (proj1 (in_seq _ _ _) I))))) as K2.
    rewrite Rsum_pick in K2 by apply seq_NoDup. rewrite existsb_seq, (proj2 (Nat.leb_le 1 n)) in K2 by exact Hn. cbn [andb] in K2.
    pose proof (integral_lin _ _ _ _ 2 _ _ (int_sin_n n) (integral_plus _ _ _ _ _ _ L K1 K2)) as J. pose proof (integral_scal _ _ _ (/ (2 * PI)) _ L J) as J'.
    refine (integral_val _ _ _ _ _ _ (integral_ext _ _ _ _ _ L _ J')).
    + rewrite (Rsum_ext_map (fun p => r p * cos (m p) * 0) (fun p => 0 * r p)) by (intros; ring). rewrite Rsum_scal_map. destruct (Nat.leb n P); field; lra.
    + intros t _. cbv beta. rewrite spoly_split.
      rewrite (Rsum_ext_map (fun p => r p * cos (m p) * (sin (INR n * t) * cos (INR p * t))) (fun p => sin (INR n * t) * (r p * cos (m p) * cos (INR p * t)))) by (intros; ring).
      rewrite (Rsum_ext_map (fun p => r p * sin (m p) * (sin (INR n * t) * sin (INR p * t))) (fun p => sin (INR n * t) * (r p * sin (m p) * sin (INR p * t)))) by (intros; ring).
      rewrite !Rsum_scal_map. field. lra.
Qed.
Lemma dlim_pm c m x : derivable_pt_lim (fun y => c * y - m) x c.
Proof. eapply dlim_eq; [|apply dlim_minus; [apply dlim_mulc|apply dlim_const]]. ring. Qed.
Lemma sprim_d r m P x : derivable_pt_lim (sprim r m P) x (spoly r m P x).
Proof.
  pose proof PI_RGT_0 as P0. unfold sprim, spoly. eapply dlim_eq; [|apply dlim_plus; [apply dlim_divc, dlim_id|apply dlim_scal;
    apply (dlim_Rsum (fun p y => r p / INR p * (sin (INR p * y - m p) + sin (m p))) (fun p => r p * cos (INR p * x - m p)))]]; [cbv beta; set (q := Rsum _); field; lra|].
  intros p I. apply in_seq in I. assert (Hp : INR p <> 0) by (apply not_0_INR; lia).
  eapply dlim_eq; [|apply dlim_scal, dlim_plus; [apply dlim_sin, dlim_pm|apply dlim_const]]. cbv beta. field. exact Hp.
Qed.
Lemma spoly_d r m P x : derivable_pt_lim (spoly r m P) x ((2 * Rsum (map (fun p => r p * (- sin (INR p * x - m p) * INR p)) (seq 1 P))) / (2 * PI)).
Proof.
  unfold spoly. apply dlim_divc. eapply dlim_eq; [|apply dlim_plus; [apply dlim_const|apply dlim_scal;
    apply (dlim_Rsum (fun p y => r p * cos (INR p * y - m p)) (fun p => r p * (- sin (INR p * x - m p) * INR p)))]]; [cbv beta; set (q := Rsum _); ring|].
  intros p _. apply dlim_scal. apply (dlim_cos (fun y => INR p * y - m p)), dlim_pm.
Qed.
Lemma spoly_cont r m P x : continuity_pt (spoly r m P) x.
Proof. eapply dlim_cont. apply spoly_d. Qed.
Lemma spoly_per r m P x : spoly r m P (x + 2 * PI) = spoly r m P x.
Proof.
  unfold spoly. do 3 f_equal. apply Rsum_ext_map. intros p _. replace (INR p * (x + 2 * PI) - m p) with (INR p * x - m p + 2 * INR p * PI) by ring.
  rewrite cos_period. reflexivity.
Qed.
Lemma sprim_0 r m P : sprim r m P 0 = 0.
Proof.
  unfold sprim. rewrite (Rsum_ext_map _ (fun p => 0 * r p)); [rewrite Rsum_scal_map; field; apply PI_neq0|].
  intros p _. replace (INR p * 0 - m p) with (- m p) by ring. rewrite sin_neg. ring.
Qed.
Lemma sprim_2pi r m P : sprim r m P (2 * PI) = 1.
Proof.
  pose proof PI_RGT_0 as P0. unfold sprim. rewrite (Rsum_ext_map _ (fun p => 0 * r p)); [rewrite Rsum_scal_map; field; lra|].
  intros p _. replace (INR p * (2 * PI) - m p) with (- m p + 2 * INR p * PI) by ring. rewrite sin_period, sin_neg. ring.
Qed.
Lemma spoly_int r m P a b : a <= b -> integral (spoly r m P) a b (sprim r m P b - sprim r m P a).
Proof. intros H. apply ftc; [exact H|intros; apply spoly_cont|intros; apply sprim_d]. Qed.
Lemma spoly_total r m P : integral (spoly r m P) 0 (2 * PI) 1.
Proof.
  pose proof PI_RGT_0 as P0. apply (integral_val _ _ _ (sprim r m P (2 * PI) - sprim r m P 0)); [rewrite sprim_0, sprim_2pi; ring|]. apply spoly_int. lra.
Qed.

(** ** wrapstable *)
Lemma ws_pdf_eq d a b g x : ws_pdf d a b g x = spoly (ws_rho a g) (ws_mu d a b g) (ws_order a g) x.
Proof. unfold ws_pdf, spoly. field. apply PI_neq0. Qed.
Lemma ws_raw_eq d a b g x : ws_raw d a b g x = sprim (ws_rho a g) (ws_mu d a b g) (ws_order a g) x.
Proof.
  unfold ws_raw, sprim. cbv zeta.
  rewrite (Rsum_ext_map (fun p => ws_rho a g p / INR p * sin (- ws_mu d a b g p)) (fun p => - 1 * (ws_rho a g p / INR p * sin (ws_mu d a b g p)))) by (intros; rewrite sin_neg; ring).
  rewrite (Rsum_ext_map (fun p => ws_rho a g p / INR p * (sin (INR p * x - ws_mu d a b g p) + sin (ws_mu d a b g p)))
    (fun p => ws_rho a g p / INR p * sin (INR p * x - ws_mu d a b g p) + ws_rho a g p / INR p * sin (ws_mu d a b g p))) by (intros; ring).
  rewrite Rsum_scal_map, Rsum_plus_map. ring.
Qed.
Lemma integral_fun (f g : R -> R) a b v : a <= b -> (forall x, f x = g x) -> integral g a b v -> integral f a b v.
Proof. intros L E. apply integral_ext; [exact L|intros; symmetry; apply E]. Qed.
Lemma ws_total d a b g : integral (ws_pdf d a b g) 0 (2 * PI) 1.
Proof. pose proof PI_RGT_0. eapply integral_fun; [lra|apply ws_pdf_eq|apply spoly_total]. Qed.
Lemma ws_pub_total d a b g f : ws_ok d a b g = true -> (forall x, public_pdf (ws_ok d a b g) (ws_pdf d a b g) x = Fin (f x)) -> integral f 0 (2 * PI) 1.
Proof.
  intros Hok E. rewrite Hok in E. pose proof (pub_pdf_on _ _ E) as E'. pose proof PI_RGT_0.
  apply (integral_ext (ws_pdf d a b g)); [lra|intros; symmetry; apply E'; assumption|apply ws_total].
Qed.
(** The exact moments. *)
Lemma ws_moment_exact d a b g f n : (1 <= n)%nat -> ws_ok d a b g = true -> (forall x, public_pdf (ws_ok d a b g) (ws_pdf d a b g) x = Fin (f x)) ->
  let r := if Nat.leb n (ws_order a g) then ws_rho a g n else 0 in
  trig_moment_of f (Z.of_nat n) (r * cos (ws_mu d a b g n)) (r * sin (ws_mu d a b g n)).
Proof.
  intros Hn Hok E r. rewrite Hok in E. pose proof (pub_pdf_on _ _ E) as E'. pose proof PI_RGT_0 as P0. assert (L : 0 <= 2 * PI) by lra.
  destruct (spoly_moment (ws_rho a g) (ws_mu d a b g) (ws_order a g) n Hn) as [A B]. unfold trig_moment_of. rewrite <- INR_IZR_INZ. split.
  - refine (integral_val _ _ _ _ _ _ (integral_ext _ _ _ _ _ L _ A)); [unfold r; destruct (Nat.leb _ _); ring|].
    intros t Ht. cbv beta. rewrite (E' t Ht), ws_pdf_eq. reflexivity.
  - refine (integral_val _ _ _ _ _ _ (integral_ext _ _ _ _ _ L _ B)); [unfold r; destruct (Nat.leb _ _); ring|].
    intros t Ht. cbv beta. rewrite (E' t Ht), ws_pdf_eq. reflexivity.
Qed.
