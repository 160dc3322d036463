(** cartwright._moment_r. *)
From Verif Require Import Prelude NpModel NpProofs IntSpec DistModel DistSpec CwModel CwSpec CwProofs DupModel DupProofs CwEx.

Lemma cw_log_r_val l g z : is_gamma g -> is_gammaln l g -> 0 < z -> exp (cw_log_r l z) = 1 / (1 + z).
Proof.
  intros G L Z. pose proof (inv_pos z Z) as A. set (a := 1 / z) in *. assert (E : 1 / (1 + z) = a / (1 + a)) by (unfold a; field; lra).
  pose proof (duplication g a G A) as D. rewrite (gam_half g G) in D. pose proof G as (_ & Gr & _).
  destruct (Gr a A) as [P1 _]. destruct (Gr (a + 1 / 2) ltac:(lra)) as [P2 _]. destruct (Gr (2 * a) ltac:(lra)) as [P3 E3]. rewrite Rplus_comm in E3. destruct (Gr (1 + 2 * a) ltac:(lra)) as [P4 _].
  pose proof PI_RGT_0 as P. pose proof (sqrt_lt_R0 PI P) as S. unfold cw_log_r. fold a. rewrite !L by lra. rewrite E.
  assert (Q : 0 < Rpower 2 (2 * a - 1)) by apply exp_pos. assert (D' : ln (Rpower 2 (2 * a - 1) * g a * g (a + 1 / 2)) = ln (sqrt PI * g (2 * a))) by (rewrite D; reflexivity).
  rewrite !ln_mult in D' by (try apply Rmult_lt_0_compat; assumption). unfold Rpower in D' at 1. rewrite ln_exp in D'.
  assert (SP : ln PI = 2 * ln (sqrt PI)) by (rewrite <- (sqrt_sqrt PI ltac:(lra)) at 1; rewrite ln_mult by assumption; ring).
  assert (V : ln (g (1 + 2 * a)) = ln 2 + ln a + ln (g (2 * a))) by (rewrite E3, ln_mult by lra; rewrite (ln_mult 2 a) by lra; reflexivity).
  assert (W : ln (a ^ 2 / (a + 1)) = 2 * ln a - ln (a + 1)).
  { unfold Rdiv. rewrite ln_mult; [|nra|apply Rinv_0_lt_compat; lra]. rewrite ln_Rinv by lra. replace (a ^ 2) with (a * a) by ring. rewrite ln_mult by assumption. ring. }
  rewrite V, W, SP. match goal with |- exp ?x = _ => replace x with (ln a - ln (a + 1)) by lra end.
  unfold Rminus. rewrite exp_plus, exp_Ropp, !exp_ln by lra. rewrite Rplus_comm. reflexivity.
Qed.
Lemma cw_moment_r_val l g zs : is_gamma g -> is_gammaln l g ->
  (Forall (fun z => 0 < z) zs -> cw_moment_r l zs = Ok (map (fun z => 1 / (1 + z)) zs)) /\
  (Exists (fun z => z <= 0) zs -> cw_moment_r l zs = Err ValueError).
Proof.
  intros G L. unfold cw_moment_r. split; intros H.
  - assert (B : existsb (fun z => Rleb z 0) zs = false).
    { rewrite Forall_forall in H. destruct (existsb _ zs) eqn:B; [|reflexivity]. apply existsb_exists in B as (z & I & B). apply Rleb_true in B. specialize (H z I). cbn in H. lra. }
    rewrite B. f_equal. apply map_ext_in. intros z I. rewrite Forall_forall in H. apply (cw_log_r_val l g z G L (H z I)).
  - assert (B : existsb (fun z => Rleb z 0) zs = true).
    { apply Exists_exists in H as (z & I & Z). apply existsb_exists. exists z. split; [exact I|]. apply Rleb_true, Z. }
    rewrite B. reflexivity.
Qed.
(** The resultant length of the density is what the function returns. *)
Lemma cw_moment_r_law l g mu z r : is_gamma g -> is_gammaln l g -> cw_ok mu z = true -> cw_moment_r l [z] = Ok [r] ->
  trig_moment_of (cw_pdf g mu z) 1 (r * cos mu) (r * sin mu).
Proof.
  intros G L K E. pose proof K as K'. apply cw_ok_spec in K' as [_ Z]. destruct (cw_moment_r_val l g [z] G L) as [A _].
  rewrite (A (Forall_cons _ Z (Forall_nil _))) in E. assert (r = 1 / (1 + z)) by (cbn [map] in E; congruence). subst r. apply cw_moment; assumption.
Qed.
