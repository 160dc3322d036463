(** The von Mises rejection sampler, and where the quantile function fails. *)
From Coq Require Import Ranalysis5.
From Verif Require Import Prelude NpModel NpProofs UtilsModel UtilsProofs DescModel DescProofs CircleSpec IntSpec IntProofs DistModel DistSpec DistProofs Dist2Proofs Dist4Proofs Dist5Proofs
  Dist6Proofs Dist7Proofs Dist8Proofs KjProofs Kj2Proofs Kj6Proofs Kj7Proofs VonModel VonSpec VonProofs Von2Proofs Von3Proofs Von4Proofs Von5Proofs.

Lemma von_r_gt k : 0 < k -> 1 < von_r k.
Proof.
  intros Hk. unfold von_r. set (q := sqrt (1 + 4 * k ^ 2)).
  assert (Q2 : q * q = 1 + 4 * k ^ 2) by (apply sqrt_sqrt; pose proof (pow2_ge_0 k); lra).
  assert (Q0 : 0 <= q) by apply sqrt_pos. assert (Q1 : 1 < q) by nra. assert (Q3 : q < 1 + 2 * k) by nra.
  set (a := 1 + q). set (w := sqrt (2 * a)). assert (W2 : w * w = 2 * a) by (apply sqrt_sqrt; unfold a; lra).
  assert (W0 : 0 <= w) by apply sqrt_pos. assert (W1 : 2 < w) by (unfold a in W2; nra). assert (W3 : w < a) by (unfold a in *; nra).
  set (b := (a - w) / (2 * k)). assert (B0 : 0 < b) by (apply Rdiv_lt_0_compat; lra).
  assert (B1 : b < 1).
  { unfold b. apply Rmult_lt_reg_r with (2 * k); [lra|]. unfold Rdiv. rewrite Rmult_assoc, Rinv_l by lra. unfold a. lra. }
  apply Rmult_lt_reg_r with (2 * b); [lra|]. unfold Rdiv. rewrite Rmult_assoc, Rinv_l by lra. nra.
Qed.
(** The angle of a proposal, as a smooth function of the uniform number. *)
Definition bf_s (r : R) : R := sqrt ((r - 1) / (r + 1)).
Definition bf_N (r u : R) : R := (bf_s r - 1) * (sin (PI / 2 * u) * cos (PI / 2 * u)).
Definition bf_D (r u : R) : R := cos (PI / 2 * u) * cos (PI / 2 * u) + bf_s r * (sin (PI / 2 * u) * sin (PI / 2 * u)).
Definition bf_g (r u : R) : R := PI * u + 2 * atan (bf_N r u / bf_D r u).
Lemma bf_s_pos r : 1 < r -> 0 < bf_s r /\ bf_s r * bf_s r = (r - 1) / (r + 1).
Proof.
  intros H. assert (0 < (r - 1) / (r + 1)) by (apply Rdiv_lt_0_compat; lra). split; [apply sqrt_lt_R0; assumption|apply sqrt_sqrt; lra].
Qed.
Lemma sc2 x : cos x * cos x = 1 - sin x * sin x.
Proof. pose proof (sin2_cos2 x) as E. unfold Rsqr in E. lra. Qed.
Lemma bf_D_pos r u : 1 < r -> 0 < bf_D r u.
Proof.
  intros H. destruct (bf_s_pos r H) as [S _]. unfold bf_D. pose proof (sc2 (PI / 2 * u)). set (c := cos _) in *. set (n := sin _) in *.
  assert (0 <= n * n) by nra. assert (0 <= c * c) by nra. destruct (Req_dec (n * n) 0); nra.
Qed.
Lemma bf_norm r u : bf_D r u * bf_D r u + bf_N r u * bf_N r u = cos (PI / 2 * u) * cos (PI / 2 * u) + bf_s r * bf_s r * (sin (PI / 2 * u) * sin (PI / 2 * u)).
Proof.
  unfold bf_D, bf_N. pose proof (sc2 (PI / 2 * u)) as E. set (c := cos _) in *. set (n := sin _) in *. set (s := bf_s r).
  transitivity ((c * c + s * (n * n)) * (c * c + s * (n * n)) + (s - 1) * (s - 1) * (n * n) * (c * c)); [ring|]. rewrite E. ring.
Qed.
Lemma bf_norm_pos r u : 1 < r -> 0 < cos (PI / 2 * u) * cos (PI / 2 * u) + bf_s r * bf_s r * (sin (PI / 2 * u) * sin (PI / 2 * u)).
Proof. intros H. rewrite <- bf_norm. pose proof (bf_D_pos r u H). nra. Qed.
Lemma bf_g_d r u : 1 < r -> derivable_pt_lim (bf_g r) u (PI * (bf_s r / (cos (PI / 2 * u) * cos (PI / 2 * u) + bf_s r * bf_s r * (sin (PI / 2 * u) * sin (PI / 2 * u))))).
Proof.
  intros H. pose proof (bf_D_pos r u H) as D. pose proof (bf_norm_pos r u H) as Np. pose proof (bf_norm r u) as En.
  assert (Dn : derivable_pt_lim (bf_N r) u ((bf_s r - 1) * (PI / 2 * (cos (PI / 2 * u) * cos (PI / 2 * u) - sin (PI / 2 * u) * sin (PI / 2 * u))))).
  { unfold bf_N. eapply dlim_eq; [|apply dlim_scal; apply dlim_mult; [apply dlim_sin; apply dlim_mulc|apply dlim_cos; apply dlim_mulc]]. cbv beta. ring. }
  assert (Dd : derivable_pt_lim (bf_D r) u (PI * (bf_s r - 1) * (sin (PI / 2 * u) * cos (PI / 2 * u)))).
  { unfold bf_D. eapply dlim_eq; [|apply dlim_plus; [apply dlim_mult; apply dlim_cos; apply dlim_mulc|apply dlim_scal; apply dlim_mult; apply dlim_sin; apply dlim_mulc]]. cbv beta. field. }
  unfold bf_g. eapply dlim_eq; [|apply dlim_plus; [apply dlim_mulc|apply dlim_scal; apply dlim_atan; apply dlim_div; [lra|exact Dn|exact Dd]]].
  pose proof (sc2 (PI / 2 * u)) as E. cbv beta.
  set (W := cos (PI / 2 * u) * cos (PI / 2 * u) + bf_s r * bf_s r * (sin (PI / 2 * u) * sin (PI / 2 * u))) in *.
  assert (Q : 1 + (bf_N r u / bf_D r u) ^ 2 = W / (bf_D r u) ^ 2) by (rewrite <- En; field; lra).
  rewrite Q. apply Rmult_eq_reg_r with W; [|lra].
  transitivity (PI * W + 2 * ((bf_s r - 1) * (PI / 2 * (cos (PI / 2 * u) * cos (PI / 2 * u) - sin (PI / 2 * u) * sin (PI / 2 * u))) * bf_D r u -
     bf_N r u * (PI * (bf_s r - 1) * (sin (PI / 2 * u) * cos (PI / 2 * u))))); [field; lra|].
  transitivity (PI * bf_s r); [|field; lra]. unfold W, bf_D, bf_N. set (c := cos (PI / 2 * u)) in *. set (n := sin (PI / 2 * u)) in *. set (q := bf_s r).
  transitivity (PI * (c * c + q * q * (n * n)) + ((q - 1) * PI * (c * c - n * n) * (c * c + q * (n * n)) - 2 * PI * (q - 1) * (q - 1) * (n * n) * (c * c))); [field|].
  rewrite E. ring.
Qed.
Lemma bf_g_0 r : bf_g r 0 = 0.
Proof. unfold bf_g, bf_N. rewrite !Rmult_0_r, sin_0, Rmult_0_l, Rmult_0_r. unfold Rdiv. rewrite Rmult_0_l, atan_0. ring. Qed.
Lemma bf_g_1 r : bf_g r 1 = PI.
Proof. unfold bf_g, bf_N. rewrite !Rmult_1_r, cos_PI2, Rmult_0_r, Rmult_0_r. unfold Rdiv. rewrite Rmult_0_l, atan_0. ring. Qed.
Lemma bf_g_inc r u v : 1 < r -> u < v -> bf_g r u < bf_g r v.
Proof.
  intros H L. set (d := fun u => PI * (bf_s r / (cos (PI / 2 * u) * cos (PI / 2 * u) + bf_s r * bf_s r * (sin (PI / 2 * u) * sin (PI / 2 * u))))).
  destruct (MVT_cor2 (bf_g r) d u v L (fun c _ => bf_g_d r c H)) as (c & E & _).
  assert (0 < d c); [|nra]. unfold d. apply Rmult_lt_0_compat; [apply PI_RGT_0|]. apply Rdiv_lt_0_compat; [apply bf_s_pos; exact H|apply bf_norm_pos; exact H].
Qed.
(** The cosine of the angle is the number the code computes. *)
Lemma bf_cos r u : 1 < r -> cos (bf_g r u) = (1 + r * cos (PI * u)) / (r + cos (PI * u)).
Proof.
  intros H. pose proof (bf_D_pos r u H) as D. pose proof (bf_norm_pos r u H) as Wp. pose proof (bf_norm r u) as En. destruct (bf_s_pos r H) as [S0 S2].
  set (y := atan (bf_N r u / bf_D r u)). set (x := PI / 2 * u) in *.
  assert (Ty : sin y = bf_N r u / bf_D r u * cos y).
  { assert (Tn : tan y = bf_N r u / bf_D r u) by apply tan_atan. rewrite <- Tn. unfold tan. pose proof (atan_bound (bf_N r u / bf_D r u)) as B.
    assert (0 < cos y) by (apply cos_gt_0; unfold y; lra). field. lra. }
  assert (C2 : cos y * cos y * (cos x * cos x + bf_s r * bf_s r * (sin x * sin x)) = bf_D r u * bf_D r u).
  { pose proof (sin2_cos2 y) as Q. unfold Rsqr in Q. rewrite Ty in Q.
    assert (Q2 : cos y * cos y * (bf_D r u * bf_D r u + bf_N r u * bf_N r u) = bf_D r u * bf_D r u).
    { transitivity ((bf_N r u / bf_D r u * cos y * (bf_N r u / bf_D r u * cos y) + cos y * cos y) * (bf_D r u * bf_D r u)); [field; lra|]. rewrite Q. ring. }
    rewrite En in Q2. exact Q2. }
  set (W := cos x * cos x + bf_s r * bf_s r * (sin x * sin x)) in *.
  pose proof (sc2 x) as Ex.
  (* cos(x + y) and sin(x + y) *)
  assert (A1 : cos (x + y) = cos x * (cos y / bf_D r u)).
  { rewrite cos_plus, Ty. transitivity ((cos x * bf_D r u - sin x * bf_N r u) * (cos y / bf_D r u)); [field; lra|]. f_equal.
    unfold bf_D, bf_N. fold x. transitivity (cos x * (cos x * cos x + sin x * sin x)); [ring|]. rewrite Ex. ring. }
  assert (A2 : sin (x + y) = bf_s r * sin x * (cos y / bf_D r u)).
  { rewrite sin_plus, Ty. transitivity ((sin x * bf_D r u + cos x * bf_N r u) * (cos y / bf_D r u)); [field; lra|]. f_equal.
    unfold bf_D, bf_N. fold x. transitivity (sin x * ((cos x * cos x) + bf_s r * (sin x * sin x) + (bf_s r - 1) * (cos x * cos x))); [ring|]. rewrite Ex. ring. }
  assert (Eg : bf_g r u = 2 * (x + y)) by (unfold bf_g, y, x; field).
  rewrite Eg, cos_2a, A1, A2.
  assert (K : cos y / bf_D r u * (cos y / bf_D r u) = / W).
  { apply Rmult_eq_reg_r with W; [|lra]. rewrite Rinv_l by lra. transitivity (cos y * cos y * W / (bf_D r u * bf_D r u)); [field; lra|]. rewrite C2. field. lra. }
  transitivity ((cos x * cos x - bf_s r * bf_s r * (sin x * sin x)) * (cos y / bf_D r u * (cos y / bf_D r u))); [ring|]. rewrite K.
  assert (Ez : cos (PI * u) = 1 - 2 * (sin x * sin x)) by (replace (PI * u) with (2 * x) by (unfold x; field); rewrite cos_2a; rewrite Ex; ring).
  unfold W in *. rewrite S2, Ex in *. rewrite Ez. set (n := sin x * sin x) in *.
  assert (Nn : 0 <= n <= 1) by (unfold n; pose proof (SIN_bound x); nra).
  assert (R1 : r + (1 - 2 * n) <> 0) by lra.
  assert (R2 : 1 - n + (r - 1) / (r + 1) * n <> 0) by lra.
  assert (E3 : 1 - n + (r - 1) / (r + 1) * n = (r + (1 - 2 * n)) / (r + 1)) by (field; lra). rewrite E3. field. split; [exact R1|lra].
Qed.
Lemma bf_g_range r u : 1 < r -> 0 <= u <= 1 -> 0 <= bf_g r u <= PI.
Proof.
  intros H Hu. split.
  - destruct (Req_dec u 0) as [->|]; [rewrite bf_g_0; lra|]. rewrite <- (bf_g_0 r). left. apply bf_g_inc; [exact H|lra].
  - destruct (Req_dec u 1) as [->|]; [rewrite bf_g_1; lra|]. rewrite <- (bf_g_1 r). left. apply bf_g_inc; [exact H|lra].
Qed.
Lemma bf_acos k u : 0 < k -> 0 <= u <= 1 -> acos (von_propose k u) = bf_g (von_r k) u.
Proof.
  intros Hk Hu. pose proof (von_r_gt k Hk) as H. unfold von_propose. cbv zeta. rewrite <- bf_cos by exact H. apply acos_cos. apply bf_g_range; assumption.
Qed.
(** The probability of accepting a proposal, and the accepted numbers. *)
Definition bf_p (k u : R) : R := let c := k * (von_r k - von_propose k u) in c * exp (1 - c).
Lemma bf_c_pos k u : 0 < k -> 0 < k * (von_r k - von_propose k u).
Proof.
  intros Hk. pose proof (von_r_gt k Hk) as H. unfold von_propose. cbv zeta. rewrite <- bf_cos by exact H.
  pose proof (COS_bound (bf_g (von_r k) u)). apply Rmult_lt_0_compat; lra.
Qed.
Lemma exp_ge1 x : 1 + x <= exp x.
Proof. destruct (Req_dec x 0) as [->|N]; [rewrite exp_0; lra|]. pose proof (exp_ineq1 x N). lra. Qed.
Lemma bf_p_range k u : 0 < k -> 0 <= bf_p k u <= 1.
Proof.
  intros Hk. unfold bf_p. cbv zeta. pose proof (bf_c_pos k u Hk) as C. set (c := k * (von_r k - von_propose k u)) in *.
  pose proof (exp_pos (1 - c)) as E. split; [nra|].
  pose proof (exp_ge1 (c - 1)) as G. assert (M : exp (c - 1) * exp (1 - c) = 1) by (rewrite <- exp_plus; replace (c - 1 + (1 - c)) with 0 by ring; apply exp_0). nra.
Qed.
Lemma bf_accept k u1 u2 : 0 < k -> von_accept k (von_propose k u1) u2 = Rleb u2 (bf_p k u1).
Proof.
  intros Hk. unfold von_accept, bf_p. cbv zeta. pose proof (bf_c_pos k u1 Hk) as C. set (c := k * (von_r k - von_propose k u1)) in *.
  destruct (Rleb_spec u2 (c * exp (1 - c))) as [L|L]; [apply orb_true_r|]. rewrite orb_false_r. apply Rltb_false.
  pose proof (exp_ge1 (1 - c)). nra.
Qed.
Lemma bf_p_int k a b w : 0 < k -> a <= b -> integral (vE k) (bf_g (von_r k) a) (bf_g (von_r k) b) w ->
  integral (bf_p k) a b (k * (von_r k - 1) / (PI * bf_s (von_r k)) * exp (1 - k * von_r k) * w).
Proof.
  intros Hk L W. pose proof (von_r_gt k Hk) as H. destruct (bf_s_pos _ H) as [S0 S2]. pose proof PI_RGT_0 as P0. set (r := von_r k) in *.
  assert (Lg : bf_g r a <= bf_g r b) by (destruct (Req_dec a b) as [->|]; [lra|left; apply bf_g_inc; [exact H|lra]]).
  destruct (primitive_exists (vE k) (bf_g r a) (bf_g r b) Lg) as [Q HQ]; [intros; apply vE_cont|].
  set (A := k * (r - 1) / (PI * bf_s r) * exp (1 - k * r)).
  assert (Ew : w = Q (bf_g r b) - Q (bf_g r a)) by (eapply integral_unique; [exact W|apply ftc; [exact Lg|intros; apply vE_cont|exact HQ]]).
  assert (Eq : forall u, bf_p k u = A * (vE k (bf_g r u) * (PI * (bf_s r / (cos (PI / 2 * u) * cos (PI / 2 * u) + bf_s r * bf_s r * (sin (PI / 2 * u) * sin (PI / 2 * u))))))).
  { intros u. unfold bf_p. cbv zeta. fold r. assert (Ef : von_propose k u = cos (bf_g r u)) by (unfold von_propose; cbv zeta; fold r; symmetry; apply bf_cos; exact H).
    rewrite Ef. unfold vE. replace (1 - k * (r - cos (bf_g r u))) with ((1 - k * r) + k * cos (bf_g r u)) by ring. rewrite exp_plus.
    assert (Ez : cos (PI * u) = 1 - 2 * (sin (PI / 2 * u) * sin (PI / 2 * u))) by (replace (PI * u) with (2 * (PI / 2 * u)) by field; rewrite cos_2a, sc2; ring).
    assert (Er : r - cos (bf_g r u) = (r - 1) / (PI * bf_s r) * (PI * (bf_s r / (cos (PI / 2 * u) * cos (PI / 2 * u) + bf_s r * bf_s r * (sin (PI / 2 * u) * sin (PI / 2 * u)))))).
    { rewrite bf_cos, Ez, S2, sc2 by exact H. set (n := sin (PI / 2 * u) * sin (PI / 2 * u)).
      assert (0 <= n <= 1) by (unfold n; pose proof (SIN_bound (PI / 2 * u)); nra).
      assert (E3 : 1 - n + (r - 1) / (r + 1) * n = (r + (1 - 2 * n)) / (r + 1)) by (field; lra). rewrite E3. field. repeat split; lra. }
    rewrite Er at 1. unfold A. unfold Rdiv. ring. }
  apply (integral_ext (fun u => A * (vE k (bf_g r u) * (PI * (bf_s r / (cos (PI / 2 * u) * cos (PI / 2 * u) + bf_s r * bf_s r * (sin (PI / 2 * u) * sin (PI / 2 * u)))))))); [exact L|intros u _; symmetry; apply Eq|].
  rewrite Ew. apply integral_scal; [exact L|].
  apply (ftc _ (fun u => Q (bf_g r u))); [exact L| |].
  - intros u _. apply cont_mult.
    + apply (continuity_pt_comp (bf_g r) (vE k)); [eapply dlim_cont; apply bf_g_d; exact H|apply vE_cont].
    + pose proof (bf_norm_pos r u H) as Wp.
      eapply dlim_cont. apply dlim_scal. apply dlim_div; [lra|apply dlim_const|].
      apply dlim_plus; [apply dlim_mult; apply dlim_cos; apply dlim_mulc|apply dlim_scal; apply dlim_mult; apply dlim_sin; apply dlim_mulc].
  - intros u Hu. apply (dlim_comp Q (bf_g r)); [apply bf_g_d; exact H|]. apply HQ. split.
    + destruct (Req_dec a u) as [->|]; [lra|left; apply bf_g_inc; [exact H|lra]].
    + destruct (Req_dec u b) as [->|]; [lra|left; apply bf_g_inc; [exact H|lra]].
Qed.
Lemma int_mirror f a b v : a <= b -> (forall x, continuity_pt f x) -> (forall x, f (- x) = f x) -> integral f a b v -> integral f (- b) (- a) v.
Proof.
  intros L C O Hv. destruct (primitive_exists f a b L) as [Q HQ]; [auto|].
  assert (E : v = Q b - Q a) by (eapply integral_unique; [exact Hv|apply ftc; [exact L|auto|exact HQ]]).
  replace v with (- Q (- - a) - - Q (- - b)) by (rewrite !Ropp_involutive, E; ring).
  apply (ftc f (fun x => - Q (- x))); [lra|auto|]. intros x Hx. eapply dlim_eq; [|apply dlim_opp; apply (dlim_comp Q (fun x => - x)); [apply dlim_opp; apply dlim_id|apply HQ; lra]].
  rewrite O. ring.
Qed.
Lemma von_sampler iv mu k : is_iv iv -> / 10 ^ 9 < k -> rejection_sampler (von_rvs mu k) (von_pdf iv mu k) mu.
Proof.
  intros H Hk. assert (Hk0 : 0 < k) by lra. pose proof (von_r_gt k Hk0) as R1. pose proof PI_RGT_0 as P0. pose proof PI2_pos as P2.
  destruct (bf_s_pos _ R1) as [S0 _]. pose proof (i0_pos iv k H) as I0.
  set (A := k * (von_r k - 1) / (PI * bf_s (von_r k)) * exp (1 - k * von_r k)).
  assert (HA : 0 < A).
  { unfold A. apply Rmult_lt_0_compat; [|apply exp_pos]. apply Rdiv_lt_0_compat; apply Rmult_lt_0_compat; lra. }
  exists (bf_p k), (bf_g (von_r k)), (A * (2 * PI * iv 0%nat k) / 2). split; [|split; [|split; [|split; [apply bf_g_0|split; [apply bf_g_1|split]]]]].
  - assert (0 < A * (2 * PI * iv 0%nat k)) by (apply Rmult_lt_0_compat; [exact HA|nra]). lra.
  - intros u1 u2 rest Hu1 Hu2. unfold von_rvs. cbv zeta. rewrite (proj2 (Rleb_false k _)) by lra. cbn [von_draw]. cbv zeta. rewrite bf_accept by exact Hk0. split.
    + intros L. rewrite (proj2 (Rleb_false _ _)) by exact L. reflexivity.
    + intros u3 L N. rewrite (proj2 (Rleb_true _ _)) by exact L. eexists. split; [reflexivity|]. split; [apply pymod_range; exact P2|].
      eapply same_dir_trans; [apply pymod_same_dir|]. rewrite bf_acos by assumption. destruct (pymod_cong mu (2 * PI)) as [z Hz].
      assert (Sg : sign (u3 - 1 / 2) * bf_g (von_r k) u1 = (if Rltb (1 / 2) u3 then bf_g (von_r k) u1 else - bf_g (von_r k) u1)).
      { unfold sign, Reqb. destruct (Rltb_spec (u3 - 1 / 2) 0) as [B|B]; [rewrite (proj2 (Rltb_false _ _)) by lra; ring|].
        destruct (Req_EM_T (u3 - 1 / 2) 0) as [B2|B2]; [lra|]. rewrite (proj2 (Rltb_true _ _)) by lra. ring. }
      rewrite Sg. exists (- z)%Z. rewrite opp_IZR. lra.
  - intros u Hu. apply bf_p_range. exact Hk0.
  - intros u v L. apply bf_g_inc; assumption.
  - intros a b Ha L Hb. assert (Lg : bf_g (von_r k) a <= bf_g (von_r k) b) by (destruct (Req_dec a b) as [->|]; [lra|left; apply bf_g_inc; [exact R1|lra]]).
    set (ga := bf_g (von_r k) a) in *. set (gb := bf_g (von_r k) b) in *.
    destruct (continuous_integral (vE k) ga gb Lg) as [w W]; [intros; apply vE_cont|].
    exists (2 * (w / (2 * PI * iv 0%nat k))). split; [|split].
    + eapply integral_val; [|apply bf_p_int; [exact Hk0|exact L|exact W]]. fold A. field. split; lra.
    + eapply integral_val; [|apply (von_int iv mu k (mu + ga) (mu + gb) w H); [lra|]]; [field; split; lra|].
      replace (mu + ga - mu) with ga by ring. replace (mu + gb - mu) with gb by ring. exact W.
    + eapply integral_val; [|apply (von_int iv mu k (mu - gb) (mu - ga) w H); [lra|]]; [field; split; lra|].
      replace (mu - ga - mu) with (- ga) by ring. replace (mu - gb - mu) with (- gb) by ring. apply int_mirror; [exact Lg|apply vE_cont| |exact W].
      intros x. unfold vE. rewrite cos_neg. reflexivity.
Qed.
(** ** Where the quantile function fails *)
Lemma von_ppf_wrong iv num ndtri : is_iv iv ->
  let q := 1 - / 10 ^ 7 in
  forall w, integral (von_pdf iv 0 1) 0 (von_ppf iv num ndtri 0 1 q) w -> w <= q - 5 / 10 ^ 7.
Proof.
  intros H. cbv zeta. set (q := 1 - / 10 ^ 7). intros w W. pose proof PI_gt3 as P3. pose proof PI_4 as P4. pose proof PI2_pos as P2.
  assert (Hq : 0 < q < 1) by (unfold q; lra).
  destruct (von_ppf_spec iv num ndtri 0 1 q ltac:(lra) Hq) as [Rg S]. cbv zeta in S. set (th := von_ppf iv num ndtri 0 1 q) in *.
  rewrite (pymod_small 0 (2 * PI)) in S by lra. rewrite (clip_in q) in S by (unfold q; lra).
  destruct (von_truth iv 0 1 H) as (G & G0 & G1 & GD & GI & GM).
  assert (Ok : von_ok 0 1 = true) by (unfold von_ok; rewrite !andb_true_iff, !Rleb_true, Rltb_true; lra).
  assert (Ew : w = G th) by (eapply integral_unique; [exact W|apply GI; lra]).
  assert (Low : forall x, 0 <= x -> x <= 2 * PI - 6 / 100000 -> G x <= 1 - 6 / 10 ^ 7).
  { intros x Hx0 Hx. assert (A : G x <= G (2 * PI - 6 / 100000)) by (apply GM; lra).
    assert (J : integral (von_pdf iv 0 1) (2 * PI - 6 / 100000) (2 * PI) (G (2 * PI) - G (2 * PI - 6 / 100000))).
    { apply ftc; [lra|intros; apply von_pdf_cont|intros; apply GD; lra]. }
    apply (integral_le (fun _ => / 72) (von_pdf iv 0 1) _ _ (/ 72 * (2 * PI - (2 * PI - 6 / 100000)))) in J; [rewrite G1 in J; lra|lra| |apply integral_const].
    intros t _. unfold von_pdf. pose proof (i0_le iv 1 H) as I0. rewrite Rabs_R1 in I0. pose proof (i0_pos iv 1 H) as I1. pose proof exp_le_3 as E3.
    assert (El : / 3 <= exp (1 * cos (t - 0))).
    { pose proof (COS_bound (t - 0)). apply Rle_trans with (exp (-1)).
      - replace (-1) with (- (1)) by ring. rewrite exp_Ropp. apply Rinv_le_contravar; [apply exp_pos|exact E3].
      - destruct (Req_dec (-1) (1 * cos (t - 0))) as [<-|]; [lra|left; apply exp_increasing; lra]. }
    apply Rmult_le_reg_r with (2 * PI * iv 0%nat 1); [nra|]. unfold Rdiv. rewrite (Rmult_assoc (exp _)), Rinv_l, Rmult_1_r by nra.
    eapply Rle_trans; [|exact El]. assert (2 * PI * iv 0%nat 1 <= 8 * 3) by nra. lra. }
  assert (Acc : forall x, 0 <= x < 2 * PI -> (x <= 2 * PI - (6 / 100000 + / 10 ^ 8) /\ Rabs (von_F iv num 0 1 x - G x) <= / 10 ^ 10) \/ von_F iv num 0 1 x = 1).
  { intros x Hx. destruct (Req_dec x 0) as [->|N0]; [left; split; [lra|]; rewrite von_F_0, G0, Rminus_diag_eq, Rabs_R0 by reflexivity; lra|].
    rewrite von_F_in by lra. destruct (close_2pi x) eqn:Cl.
    - right. unfold von_cdf. rewrite Cl, (proj2 (Rltb_false _ _)) by lra. cbv zeta.
      destruct (von_loop _ _ _ _ _ _ _ _) as [[a b]|] eqn:El; [reflexivity|exfalso; revert El; apply von_converges; [exact H|lra]].
    - left. split.
      + destruct (Rle_dec x (2 * PI - (6 / 100000 + / 10 ^ 8))) as [|N]; [assumption|exfalso].
        assert (T : close_2pi x = true) by (apply close_2pi_spec; [lra|]; lra). congruence.
      + apply von_cdf_acc; try assumption; try lra. apply GI; lra. }
  rewrite Ew. unfold q in *. apply Rle_trans with (1 - 6 / 10 ^ 7); [|lra]. apply Low; [lra|].
  destruct S as [S|(L & U & S1 & S2 & S3 & S4 & S5)].
  - apply abs_le_inv in S. destruct (Acc th Rg) as [[A _]|A]; lra.
  - destruct (Acc L ltac:(lra)) as [[A _]|A]; lra.
Qed.
