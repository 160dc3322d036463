(** The gamma function is unique; Legendre's duplication formula; the gamma function at 1/2. *)
From Verif Require Import Prelude NpModel NpProofs IntSpec IntProofs CwModel CwSpec GamProofs Gam2Proofs.

Lemma gam_shift g x n : is_gamma g -> 0 < x -> forall h, is_gamma h ->
  ln (g (INR n + x)) - ln (h (INR n + x)) = ln (g x) - ln (h x).
Proof.
  intros G X h H. induction n as [|n IH]; [replace (INR 0 + x) with x by (cbn; ring); reflexivity|].
  rewrite S_INR. pose proof (pos_INR n) as N. destruct G as (_ & G & _), H as (_ & H & _).
  destruct (G (INR n + x) ltac:(lra)) as [P E]. destruct (H (INR n + x) ltac:(lra)) as [Q F].
  replace (INR n + 1 + x) with (INR n + x + 1) by ring. rewrite E, F, !ln_mult by lra. lra.
Qed.
Lemma gam_unit g h y : is_gamma g -> is_gamma h -> 0 < y <= 1 -> ln (g y) = ln (h y).
Proof.
  intros G H Y. destruct (Req_dec (ln (g y) - ln (h y)) 0) as [E|E]; [lra|exfalso].
  pose proof (Rabs_pos_lt _ E) as Q. set (d := Rabs (ln (g y) - ln (h y))) in *.
  destruct (archimed_cor1 d Q) as (n & Hn & n0). assert (n1 : (1 <= n)%nat) by lia.
  assert (N : 1 <= INR n) by (replace 1 with (INR 1) by reflexivity; apply le_INR, n1).
  pose proof (gam_bounds1 g (INR n) y G ltac:(lra) ltac:(lra)) as A. pose proof (gam_bounds1 h (INR n) y H ltac:(lra) ltac:(lra)) as B.
  pose proof (gam_shift g 1 n G ltac:(lra) h H) as S1. destruct G as (G1 & G'), H as (H1 & H'). rewrite G1, H1 in S1.
  pose proof (gam_shift g y (S n) (conj G1 G') ltac:(lra) h (conj H1 H')) as S2. rewrite S_INR in S2.
  pose proof (ln_gap n n1) as L. pose proof (ln_mono (INR n) (INR n + 1) ltac:(lra) ltac:(lra)) as M.
  assert (V : y * (ln (INR n + 1) - ln (INR n)) <= / INR n) by nra.
  assert (d <= / INR n); [|lra]. unfold d. rewrite <- S2. apply Rabs_le. lra.
Qed.
Lemma gam_unique g h x : is_gamma g -> is_gamma h -> 0 < x -> g x = h x.
Proof.
  intros G H X. destruct (proj1 (proj2 G) x X) as [P _]. destruct (proj1 (proj2 H) x X) as [Q _]. apply ln_inv; [exact P|exact Q|].
  set (z := Rfloor (- x)). destruct (Rfloor_spec (- x)) as [F1 F2]. fold z in F1, F2. set (k := (- z - 1)%Z).
  assert (k0 : (0 <= k)%Z). { unfold k. assert (L : IZR z < 0) by lra. apply lt_IZR in L. lia. }
  assert (Ek : IZR k = - IZR z - 1) by (unfold k; rewrite minus_IZR, opp_IZR; ring).
  pose proof (gam_shift g (x - IZR k) (Z.to_nat k) G ltac:(lra) h H) as S. rewrite INR_IZR_INZ, Z2Nat.id in S by exact k0.
  replace (IZR k + (x - IZR k)) with x in S by ring. rewrite (gam_unit g h (x - IZR k) G H) in S by lra. lra.
Qed.
Definition dup (g : R -> R) (x : R) : R := Rpower 2 (x - 1) * g (x / 2) * g ((x + 1) / 2) / g (1 / 2).
Lemma dup_ln g x : is_gamma g -> 0 < x -> ln (dup g x) = (x - 1) * ln 2 + ln (g (x / 2)) + ln (g ((x + 1) / 2)) - ln (g (1 / 2)).
Proof.
  intros (_ & G & _) X. destruct (G (x / 2) ltac:(lra)) as [A _]. destruct (G ((x + 1) / 2) ltac:(lra)) as [B _]. destruct (G (1 / 2) ltac:(lra)) as [C _].
  assert (P : 0 < Rpower 2 (x - 1)) by apply exp_pos. unfold dup, Rdiv at 1. pose proof (Rinv_0_lt_compat _ C).
  assert (0 < Rpower 2 (x - 1) * g (x / 2)) by (apply Rmult_lt_0_compat; assumption).
  rewrite ln_mult; [|apply Rmult_lt_0_compat; assumption|assumption]. rewrite ln_mult by assumption. rewrite ln_mult by assumption.
  rewrite ln_Rinv by exact C. unfold Rpower. rewrite ln_exp. ring.
Qed.
Lemma dup_gamma g : is_gamma g -> is_gamma (dup g).
Proof.
  intros G. pose proof G as (G1 & Gr & Gc). destruct (Gr (1 / 2) ltac:(lra)) as [C _]. split; [|split].
  - unfold dup. replace (1 - 1) with 0 by ring. rewrite Rpower_O by lra. replace ((1 + 1) / 2) with 1 by field. rewrite G1. field. lra.
  - intros x X. destruct (Gr (x / 2) ltac:(lra)) as [A E]. destruct (Gr ((x + 1) / 2) ltac:(lra)) as [B _]. split.
    + unfold dup. assert (0 < Rpower 2 (x - 1)) by apply exp_pos. apply Rdiv_lt_0_compat; [|exact C]. repeat apply Rmult_lt_0_compat; assumption.
    + unfold dup. replace ((x + 1 + 1) / 2) with (x / 2 + 1) by field. rewrite E. replace (x + 1 - 1) with (x - 1 + 1) by ring. rewrite Rpower_plus, Rpower_1 by lra. field. lra.
  - intros x y t X Y T. assert (Z : 0 < t * x + (1 - t) * y) by (destruct (Req_dec t 0) as [->|]; [lra|]; assert (0 < t * x) by (apply Rmult_lt_0_compat; lra); nra).
    rewrite !dup_ln by assumption.
    pose proof (Gc (x / 2) (y / 2) t ltac:(lra) ltac:(lra) T) as C1. pose proof (Gc ((x + 1) / 2) ((y + 1) / 2) t ltac:(lra) ltac:(lra) T) as C2.
    replace (t * (x / 2) + (1 - t) * (y / 2)) with ((t * x + (1 - t) * y) / 2) in C1 by field.
    replace (t * ((x + 1) / 2) + (1 - t) * ((y + 1) / 2)) with ((t * x + (1 - t) * y + 1) / 2) in C2 by field. nra.
Qed.
(** Legendre. *)
Lemma duplication g x : is_gamma g -> 0 < x -> Rpower 2 (2 * x - 1) * g x * g (x + 1 / 2) = g (1 / 2) * g (2 * x).
Proof.
  intros G X. pose proof (gam_unique (dup g) g (2 * x) (dup_gamma g G) G ltac:(lra)) as E. unfold dup in E.
  replace (2 * x / 2) with x in E by field. replace ((2 * x + 1) / 2) with (x + 1 / 2) in E by field. rewrite <- E.
  destruct G as (_ & Gr & _). destruct (Gr (1 / 2) ltac:(lra)) as [C _]. field. lra.
Qed.
(** The integral of sqrt (1 + cos u) over a turn. *)
Lemma kc_half u : kc (1 / 2) u = sqrt 2 * Rabs (cos (u / 2)).
Proof.
  unfold kc. assert (E : 1 + cos u = 2 * (cos (u / 2) * cos (u / 2))) by (replace u with (2 * (u / 2)) at 1 by field; rewrite cos_2a_cos; ring).
  rewrite E. assert (S : sqrt (2 * (cos (u / 2) * cos (u / 2))) = sqrt 2 * Rabs (cos (u / 2))) by (rewrite sqrt_mult by nra; f_equal; apply sqrt_Rsqr_abs).
  destruct (Req_dec (cos (u / 2)) 0) as [Z|Z].
  - rewrite Z, Rabs_R0, npow_0 by lra. ring.
  - rewrite npow_pos by nra. replace (1 / 2) with (/ 2) by field. rewrite Rpower_sqrt by nra. exact S.
Qed.
Lemma half_sin_d c x : derivable_pt_lim (fun u => c * sin (u / 2)) x (c / 2 * cos (x / 2)).
Proof.
  replace (c / 2 * cos (x / 2)) with (c * (cos (x / 2) * / 2)) by field. apply derivable_pt_lim_scal.
  apply (derivable_pt_lim_comp (fun u => u / 2) sin x (/ 2) (cos (x / 2))); [|apply derivable_pt_lim_sin].
  replace (/ 2) with (1 * / 2 + x * 0) by ring. apply (derivable_pt_lim_mult id (fun _ => / 2)); [apply derivable_pt_lim_id|apply derivable_pt_lim_const].
Qed.
Lemma half_cos_c c x : continuity_pt (fun u => c / 2 * cos (u / 2)) x.
Proof. reg. Qed.
Lemma integral_val f a b v w : v = w -> integral f a b v -> integral f a b w.
Proof. intros ->. auto. Qed.
Lemma kc_half_mass : integral (kc (1 / 2)) 0 (2 * PI) (4 * sqrt 2).
Proof.
  pose proof PI_RGT_0 as P. replace (4 * sqrt 2) with (2 * sqrt 2 + 2 * sqrt 2) by ring. apply integral_split with PI.
  - apply integral_ext with (fun u => (2 * sqrt 2) / 2 * cos (u / 2)); [lra| |].
    + intros u U. rewrite kc_half, Rabs_right; [field|]. apply Rle_ge, cos_ge_0; lra.
    + apply integral_val with (2 * sqrt 2 * sin (PI / 2) - 2 * sqrt 2 * sin (0 / 2)); [rewrite sin_PI2; replace (0 / 2) with 0 by field; rewrite sin_0; ring|].
      apply (ftc _ (fun u => 2 * sqrt 2 * sin (u / 2))); [lra|intros; apply half_cos_c|intros; apply half_sin_d].
  - apply integral_ext with (fun u => (- (2 * sqrt 2)) / 2 * cos (u / 2)); [lra| |].
    + intros u U. rewrite kc_half, Rabs_left1; [field|]. apply cos_le_0; lra.
    + apply integral_val with (- (2 * sqrt 2) * sin (2 * PI / 2) - - (2 * sqrt 2) * sin (PI / 2)); [rewrite sin_PI2; replace (2 * PI / 2) with PI by field; rewrite sin_PI; ring|].
      apply (ftc _ (fun u => - (2 * sqrt 2) * sin (u / 2))); [lra|intros; apply half_cos_c|intros; apply half_sin_d].
Qed.
Lemma gam_half g : is_gamma g -> g (1 / 2) = sqrt PI.
Proof.
  intros G. pose proof (kc_mass g (1 / 2) _ G ltac:(lra) kc_half_mass) as E. destruct G as (G1 & Gr & _). destruct (Gr (1 / 2) ltac:(lra)) as [A B].
  destruct (Gr 1 ltac:(lra)) as [_ D]. replace (1 + 2 * (1 / 2)) with (1 + 1) in E by field. rewrite D, G1 in E. rewrite (Rplus_comm 1 (1 / 2)), B in E.
  replace (Rpower 2 (1 / 2)) with (sqrt 2) in E by (replace (1 / 2) with (/ 2) by field; rewrite Rpower_sqrt by lra; reflexivity).
  assert (S0 : 0 < sqrt 2) by (apply sqrt_lt_R0; lra). assert (S : sqrt 2 * sqrt 2 = 2) by (apply sqrt_sqrt; lra). pose proof PI_RGT_0 as P.
  set (y := g (1 / 2)) in *. assert (Y : y * y = PI).
  { apply Rmult_eq_reg_l with (/ 2 * / (y * y)); [|apply Rmult_integral_contrapositive; split; [lra|apply Rinv_neq_0_compat; nra]].
    assert (Q : 4 * sqrt 2 * sqrt 2 = 2 * PI / ((1 / 2 * y) ^ 2)) by (rewrite E; field; lra).
    replace (/ 2 * / (y * y) * (y * y)) with (/ 2) by (field; lra). rewrite Rmult_assoc, S in Q.
    replace (/ 2 * / (y * y) * PI) with (2 * PI / (1 / 2 * y) ^ 2 / 16) by (field; lra). rewrite <- Q. field. }
  rewrite <- Y. symmetry. apply sqrt_square. lra.
Qed.
