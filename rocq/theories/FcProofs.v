(** cardioid and wrapcauchy: the likelihoods have no spurious maximum. *)
From Verif Require Import Prelude NpModel NpProofs CircleSpec IntSpec IntProofs DescModel DescProofs DistModel DistSpec DistProofs Dist2Proofs Dist3Proofs Dist4Proofs Dist6Proofs Dist7Proofs JpProofs Jp8Proofs CwModel CwSpec Cw3Proofs FcModel FcSpec.

Lemma ln_tangent u v : 0 < u -> 0 < v -> ln v <= ln u + (v - u) / u.
Proof.
  intros U V. replace v with (u * (v / u)) at 1 by (field; lra). assert (Q : 0 < v / u) by (apply Rdiv_lt_0_compat; assumption). rewrite ln_mult by assumption. apply Rplus_le_compat_l.
  replace ((v - u) / u) with (v / u - 1) by (field; lra). pose proof (exp_ineq1_le (ln (v / u))) as H. rewrite exp_ln in H by exact Q. lra.
Qed.
Lemma ln_concave x y p : 0 < x -> 0 < y -> 0 <= p <= 1 -> p * ln x + (1 - p) * ln y <= ln (p * x + (1 - p) * y).
Proof.
  intros X Y P. set (m := p * x + (1 - p) * y). assert (M : 0 < m). { unfold m. destruct (Rlt_dec 0 p); [|assert (p = 0) by lra; subst p; lra]. assert (0 < p * x) by (apply Rmult_lt_0_compat; lra). assert (0 <= (1 - p) * y) by (apply Rmult_le_pos; lra). lra. }
  pose proof (ln_tangent m x M X) as A. pose proof (ln_tangent m y M Y) as B. apply (Rmult_le_compat_l p) in A; [|lra]. apply (Rmult_le_compat_l (1 - p)) in B; [|lra].
  assert (E : p * ((x - m) / m) + (1 - p) * ((y - m) / m) = 0) by (unfold m at 1 3; field_simplify; [unfold m; field_simplify; [|fold m; lra]|lra..]; try (unfold Rdiv; ring)). nra.
Qed.

(** ** cardioid *)
Definition car_G1 (s : list (R * R)) mu rho := Rsum (map (fun p => snd p / car_den mu rho (fst p) * sin (fst p - mu)) s).
Definition car_G2 (s : list (R * R)) mu rho := Rsum (map (fun p => snd p / car_den mu rho (fst p) * cos (fst p - mu)) s).
Lemma car_pdf_den mu rho x : car_pdf mu rho x = car_den mu rho x / (2 * PI).
Proof. unfold car_pdf, car_den. field. pose proof PI_neq0. lra. Qed.
Lemma car_den_of_pdf mu rho x : 0 < car_pdf mu rho x -> 0 < car_den mu rho x.
Proof. intros H. rewrite car_pdf_den in H. pose proof PI_RGT_0. replace (car_den mu rho x) with (car_den mu rho x / (2 * PI) * (2 * PI)) by (field; lra). apply Rmult_lt_0_compat; lra. Qed.
Lemma ln_div_pos a b : 0 < a -> 0 < b -> ln (a / b) = ln a - ln b.
Proof. intros A B. unfold Rdiv. rewrite ln_mult, ln_Rinv; try assumption; [ring|apply Rinv_0_lt_compat, B]. Qed.
Lemma car_loglik mu rho s : (forall d, In d s -> 0 < car_den mu rho (fst d)) -> loglik (car_pdf mu rho) s = Rsum (map (fun p => snd p * ln (car_den mu rho (fst p))) s) - Rsum (map snd s) * ln (2 * PI).
Proof.
  intros H. pose proof PI_RGT_0 as P. unfold loglik. induction s as [|d s IH]; [simpl; ring|]. cbn [map]. rewrite !Rsum_cons. rewrite IH by (intros; apply H; right; assumption). rewrite car_pdf_den, ln_div_pos by (try lra; apply H; left; reflexivity). ring.
Qed.
Lemma car_gap s mu rho m r : (forall d, In d s -> 0 <= snd d) -> (forall d, In d s -> 0 < car_den mu rho (fst d)) -> (forall d, In d s -> 0 < car_den m r (fst d)) ->
  loglik (car_pdf m r) s <= loglik (car_pdf mu rho) s + (r * cos (m - mu) - rho) * (2 * car_G2 s mu rho) + r * sin (m - mu) * (2 * car_G1 s mu rho).
Proof.
  intros Hw Hu Hv. rewrite !car_loglik by assumption. unfold car_G1, car_G2.
  assert (K : Rsum (map (fun p => snd p * ln (car_den m r (fst p))) s) <= Rsum (map (fun p => snd p * ln (car_den mu rho (fst p)) + ((2 * (r * cos (m - mu) - rho)) * (snd p / car_den mu rho (fst p) * cos (fst p - mu)) + (2 * (r * sin (m - mu))) * (snd p / car_den mu rho (fst p) * sin (fst p - mu)))) s)).
  { apply Rsum_le_map. intros d Hd. pose proof (Hw d Hd) as W. pose proof (Hu d Hd) as U. pose proof (Hv d Hd) as V. pose proof (ln_tangent _ _ U V) as T. apply (Rmult_le_compat_l (snd d)) in T; [|exact W]. eapply Rle_trans; [exact T|]. right.
    rewrite Rmult_plus_distr_l. f_equal. unfold car_den in *. replace (fst d - m) with ((fst d - mu) - (m - mu)) by ring. rewrite cos_minus. field. lra. }
  rewrite (Rsum_plus_map (fun p => snd p * ln (car_den mu rho (fst p)))) in K. rewrite (Rsum_plus_map (fun p => 2 * (r * cos (m - mu) - rho) * (snd p / car_den mu rho (fst p) * cos (fst p - mu)))) in K. rewrite !Rsum_scal_map in K. lra.
Qed.
Lemma car_near s mu rho : (forall d, In d s -> 0 <= snd d) -> 0 < rho <= 1 / 2 -> (forall d, In d s -> 0 < car_pdf mu rho (fst d)) ->
  near_mle car_pdf (fun m r => 0 <= r <= 1 / 2) s mu rho (sqrt (fst (car_grad s mu rho) ^ 2 + snd (car_grad s mu rho) ^ 2) * (1 + 1 / (2 * rho))).
Proof.
  intros Hw Hr Hu m r Hmr Hv. assert (Hu' : forall d, In d s -> 0 < car_den mu rho (fst d)) by (intros; apply car_den_of_pdf; auto). assert (Hv' : forall d, In d s -> 0 < car_den m r (fst d)) by (intros; apply car_den_of_pdf; auto).
  pose proof (car_gap s mu rho m r Hw Hu' Hv') as G. unfold car_grad. assert (B : existsb (fun p => Rleb (car_den mu rho (fst p)) 0) s = false).
  { apply not_true_is_false. intros B. apply existsb_exists in B. destruct B as (d & D1 & D2). apply Rleb_true in D2. pose proof (Hu' d D1). lra. }
  rewrite B. cbn [fst snd]. fold (car_G1 s mu rho) (car_G2 s mu rho). set (g1 := car_G1 s mu rho) in *. set (g2 := car_G2 s mu rho) in *. set (N := sqrt ((- 2 * rho * g1) ^ 2 + (- 2 * g2) ^ 2)).
  assert (N1 : Rabs (2 * rho * g1) <= N) by (unfold N; rewrite <- sqrt_Rsqr_abs; apply sqrt_le_1_alt; unfold Rsqr; nra). assert (N2 : Rabs (2 * g2) <= N) by (unfold N; rewrite <- sqrt_Rsqr_abs; apply sqrt_le_1_alt; unfold Rsqr; nra).
  pose proof (COS_bound (m - mu)) as C. pose proof (SIN_bound (m - mu)) as S. assert (N0 : 0 <= N) by apply sqrt_pos.
  assert (A1 : (r * cos (m - mu) - rho) * (2 * g2) <= N).
  { eapply Rle_trans; [apply Rle_abs|]. rewrite Rabs_mult. assert (Rabs (r * cos (m - mu) - rho) <= 1) by (apply Rabs_le; nra). pose proof (Rabs_pos (2 * g2)). nra. }
  assert (A2 : r * sin (m - mu) * (2 * g1) <= N * (1 / (2 * rho))).
  { replace (r * sin (m - mu) * (2 * g1)) with (r * sin (m - mu) * 2 * (2 * rho * g1) * (1 / (2 * rho))) by (field; lra). apply Rmult_le_compat_r; [apply Rlt_le, Rdiv_lt_0_compat; lra|]. eapply Rle_trans; [apply Rle_abs|]. rewrite Rabs_mult.
    assert (Rabs (r * sin (m - mu) * 2) <= 1) by (apply Rabs_le; nra). pose proof (Rabs_pos (2 * rho * g1)). nra. }
  lra.
Qed.
Lemma loglik_car_dmu s mu rho : (forall d, In d s -> 0 < car_den mu rho (fst d)) -> derivable_pt_lim (fun m => loglik (car_pdf m rho) s) mu (2 * rho * car_G1 s mu rho).
Proof.
  intros H. pose proof PI_RGT_0 as P. unfold loglik, car_G1. rewrite <- Rsum_scal_map. apply (dlim_Rsum (fun p m => snd p * ln (car_pdf m rho (fst p)))). intros d Hd. pose proof (H d Hd) as U. eapply dlim_eq; [|apply dlim_scal; apply dlim_ln].
  2:{ rewrite car_pdf_den. apply Rdiv_lt_0_compat; lra. }
  2:{ unfold car_pdf. apply dlim_divc. apply dlim_divc. apply dlim_plus; [apply dlim_const|apply dlim_scal, dlim_cos_mu]. }
  cbv beta. rewrite car_pdf_den. field. split; lra.
Qed.
Lemma loglik_car_drho s mu rho : (forall d, In d s -> 0 < car_den mu rho (fst d)) -> derivable_pt_lim (fun r => loglik (car_pdf mu r) s) rho (2 * car_G2 s mu rho).
Proof.
  intros H. pose proof PI_RGT_0 as P. unfold loglik, car_G2. rewrite <- Rsum_scal_map. apply (dlim_Rsum (fun p r => snd p * ln (car_pdf mu r (fst p)))). intros d Hd. pose proof (H d Hd) as U. eapply dlim_eq; [|apply dlim_scal; apply dlim_ln].
  2:{ rewrite car_pdf_den. apply Rdiv_lt_0_compat; lra. }
  2:{ unfold car_pdf. apply dlim_divc. apply dlim_divc. apply dlim_plus; [apply dlim_const|apply dlim_mult; [apply dlim_scal, dlim_id|apply dlim_const]]. }
  cbv beta. rewrite car_pdf_den. field. split; lra.
Qed.
Lemma car_stationary s mu rho g : (forall d, In d s -> 0 <= snd d) -> 0 < rho <= 1 / 2 -> (forall d, In d s -> 0 < car_pdf mu rho (fst d)) ->
  derivable_pt_lim (fun m => loglik (car_pdf m rho) s) mu 0 -> derivable_pt_lim (fun r => loglik (car_pdf mu r) s) rho g -> g = 0 \/ (rho = 1 / 2 /\ 0 <= g) ->
  near_mle car_pdf (fun m r => 0 <= r <= 1 / 2) s mu rho 0.
Proof.
  intros Hw Hr Hu D1 D2 Hg m r Hmr Hv. assert (Hu' : forall d, In d s -> 0 < car_den mu rho (fst d)) by (intros; apply car_den_of_pdf; auto). assert (Hv' : forall d, In d s -> 0 < car_den m r (fst d)) by (intros; apply car_den_of_pdf; auto).
  pose proof (car_gap s mu rho m r Hw Hu' Hv') as G. pose proof (uniqueness_limite _ _ _ _ D1 (loglik_car_dmu s mu rho Hu')) as E1. pose proof (uniqueness_limite _ _ _ _ D2 (loglik_car_drho s mu rho Hu')) as E2. rewrite <- E2 in G.
  assert (Z : 2 * car_G1 s mu rho = 0) by nra. rewrite Z in G. pose proof (COS_bound (m - mu)) as C. assert ((r * cos (m - mu) - rho) * g <= 0) by (destruct Hg as [->|[-> Hg]]; [lra|]; assert (r * cos (m - mu) <= 1 / 2) by nra; nra). lra.
Qed.
(** At rho = 0 the likelihood is within the resultant of the optimum. *)
Lemma car_flat s mu : (forall d, In d s -> 0 <= snd d) -> near_mle car_pdf (fun m r => 0 <= r <= 1 / 2) s mu 0 (Rlen s).
Proof.
  intros Hw m r Hmr Hv. assert (Hv' : forall d, In d s -> 0 < car_den m r (fst d)) by (intros; apply car_den_of_pdf; auto).
  assert (U : forall x, car_den m 0 x = 1) by (intros x; unfold car_den; ring). pose proof (car_gap s m 0 m r Hw ltac:(intros; rewrite U; lra) Hv') as G. replace (m - m) with 0 in G by ring. rewrite cos_0, sin_0 in G.
  assert (E : loglik (car_pdf mu 0) s = loglik (car_pdf m 0) s) by (unfold loglik; apply Rsum_ext_map; intros d _; unfold car_pdf; do 2 f_equal; field; apply PI_neq0). rewrite E.
  assert (Q : car_G2 s m 0 <= Rlen s).
  { unfold car_G2. rewrite (Rsum_ext_map _ (fun x => snd x * cos (fst x - m))) by (intros d _; rewrite U; field). rewrite <- proj_eq. unfold Rlen. pose proof (sin2_cos2 m) as T. unfold Rsqr in T. eapply Rle_trans; [apply Rle_abs|]. rewrite <- sqrt_Rsqr_abs. apply sqrt_le_1_alt. unfold Rsqr.
    assert (Id : (Csum s * cos m + Ssum s * sin m) * (Csum s * cos m + Ssum s * sin m) + (Csum s * sin m - Ssum s * cos m) * (Csum s * sin m - Ssum s * cos m) = Csum s * Csum s + Ssum s * Ssum s).
    { transitivity ((Csum s * Csum s + Ssum s * Ssum s) * (sin m * sin m + cos m * cos m)); [ring|rewrite T; ring]. }
    pose proof (Rle_0_sqr (Csum s * sin m - Ssum s * cos m)) as Z. unfold Rsqr in Z. lra. }
  assert (L : 0 <= Rlen s) by apply sqrt_pos. assert (L1 : r * car_G2 s m 0 <= r * Rlen s) by (apply Rmult_le_compat_l; lra). assert (L2 : r * Rlen s <= 1 / 2 * Rlen s) by (apply Rmult_le_compat_r; lra). lra.
Qed.

(** ** wrapcauchy *)
Definition wc_D (mu rho x : R) := 1 + rho ^ 2 - 2 * rho * cos (x - mu).
Lemma wc_D_pos mu rho x : 0 <= rho < 1 -> 0 < wc_D mu rho x.
Proof. intros H. unfold wc_D. pose proof (COS_bound (x - mu)). nra. Qed.
Definition wc_P (s : list (R * R)) mu rho := Rsum (map (fun p => snd p / wc_D mu rho (fst p)) s).
Definition wc_Q (s : list (R * R)) mu rho := Rsum (map (fun p => snd p / wc_D mu rho (fst p) * cos (fst p - mu)) s).
Definition wc_S (s : list (R * R)) mu rho := Rsum (map (fun p => snd p / wc_D mu rho (fst p) * sin (fst p - mu)) s).
Lemma wc_PQ s mu rho : 0 <= rho < 1 -> (1 + rho ^ 2) * wc_P s mu rho - 2 * rho * wc_Q s mu rho = Rsum (map snd s).
Proof.
  intros H. unfold wc_P, wc_Q. induction s as [|d s IH]; [simpl; ring|]. cbn [map]. rewrite !Rsum_cons. rewrite <- IH. pose proof (wc_D_pos mu rho (fst d) H) as D.
  replace (snd d) with (snd d / wc_D mu rho (fst d) * wc_D mu rho (fst d)) at 3 by (field; lra). unfold wc_D at 6. ring.
Qed.
Lemma chord_ln K t : 1 <= K -> 0 < t -> t ^ 2 - 2 * K * t + 1 <= 0 -> exists lam, forall t, 0 < t -> t ^ 2 - 2 * K * t + 1 <= 0 -> lam * (t - K) <= ln t.
Proof.
  intros HK _ _. destruct (Req_dec K 1) as [->|NK].
  - exists 0. intros u U Q. assert (u = 1) by nra. subst u. rewrite ln_1. lra.
  - assert (K1 : 1 < K) by lra. set (q := sqrt (K ^ 2 - 1)). assert (q0 : 0 < q) by (apply sqrt_lt_R0; nra). assert (q2 : q * q = K ^ 2 - 1) by (apply sqrt_sqrt; nra). set (E := K + q). assert (E0 : 1 < E) by (unfold E; lra). assert (Ei : / E = K - q) by (apply Rmult_eq_reg_l with E; [rewrite Rinv_r by lra; unfold E; nra|lra]).
    exists (ln E / q). intros u U Q. assert (B : K - q <= u <= K + q).
    { assert (Q' : (u - K) * (u - K) <= q * q) by nra. split; nra. }
    set (p := (K + q - u) / (2 * q)). assert (Hp : 0 <= p <= 1).
    { unfold p. split; [apply Rmult_le_pos; [lra|apply Rlt_le, Rinv_0_lt_compat; lra]|]. apply Rmult_le_reg_r with (2 * q); [lra|]. unfold Rdiv. rewrite Rmult_assoc, Rinv_l by lra. lra. }
    assert (Eu : p * / E + (1 - p) * E = u) by (rewrite Ei; unfold p, E; field; lra). pose proof (ln_concave (/ E) E p ltac:(apply Rinv_0_lt_compat; lra) ltac:(lra) Hp) as L. rewrite Eu in L. rewrite ln_Rinv in L by lra. eapply Rle_trans; [|exact L]. right. unfold p. field. lra.
Qed.
Lemma wc_gap s mu rho m r : (forall d, In d s -> 0 <= snd d) -> 0 <= rho < 1 -> 0 <= r < 1 -> wc_S s mu rho = 0 -> rho * wc_P s mu rho - wc_Q s mu rho = - (Rsum (map snd s) * rho / (1 - rho ^ 2)) ->
  loglik (wc_pdf m r) s <= loglik (wc_pdf mu rho) s.
Proof.
  intros Hw Hr Hr' HS HQ. pose proof PI_RGT_0 as PI0. set (W := Rsum (map snd s)) in *. pose proof (wc_PQ s mu rho Hr) as PQ. fold W in PQ. set (P := wc_P s mu rho) in *. set (Q := wc_Q s mu rho) in *. assert (a0 : 0 < 1 - rho ^ 2) by nra. assert (b0 : 0 < 1 - r ^ 2) by nra.
  assert (EQ : Q = rho * P + W * rho / (1 - rho ^ 2)) by lra. assert (EP : P = W * (1 + rho ^ 2) / (1 - rho ^ 2) ^ 2).
  { assert (PQ2 : (1 - rho ^ 2) * P = W + 2 * rho * (W * rho / (1 - rho ^ 2))) by (rewrite EQ in PQ; lra). apply Rmult_eq_reg_l with (1 - rho ^ 2); [|lra]. rewrite PQ2. field. lra. }
  assert (EQ2 : Q = W * (2 * rho) / (1 - rho ^ 2) ^ 2) by (rewrite EQ, EP; field; lra). set (cd := cos (m - mu)). set (sd := sin (m - mu)).
  set (K := ((1 + r ^ 2) * (1 + rho ^ 2) - 4 * r * rho * cd) / ((1 - r ^ 2) * (1 - rho ^ 2))).
  assert (Cd : -1 <= cd <= 1) by apply COS_bound. assert (T : sd ^ 2 + cd ^ 2 = 1) by (pose proof (sin2_cos2 (m - mu)) as T; unfold Rsqr in T; fold cd sd in T; nra).
  assert (K1 : 1 <= K).
  { unfold K. apply Rmult_le_reg_r with ((1 - r ^ 2) * (1 - rho ^ 2)); [apply Rmult_lt_0_compat; assumption|]. unfold Rdiv. rewrite Rmult_assoc, Rinv_l by (apply Rmult_integral_contrapositive_currified; lra). assert (rr : 0 <= r * rho) by (apply Rmult_le_pos; lra). assert (r * rho * cd <= r * rho * 1) by (apply Rmult_le_compat_l; lra). pose proof (pow2_ge_0 (r - rho)). rewrite Rmult_1_r. apply Rle_trans with ((1 - r ^ 2) * (1 - rho ^ 2) + 2 * (r - rho) ^ 2); [lra|]. replace ((1 - r ^ 2) * (1 - rho ^ 2) + 2 * (r - rho) ^ 2) with ((1 + r ^ 2) * (1 + rho ^ 2) - 4 * (r * rho * 1)) by ring. lra. }
  set (t := fun x => wc_D m r x / (1 - r ^ 2) / (wc_D mu rho x / (1 - rho ^ 2))).
  assert (T0 : forall x, 0 < t x) by (intros x; unfold t; repeat apply Rdiv_lt_0_compat; try assumption; apply wc_D_pos; assumption).
  assert (Dm : forall x, wc_D m r x = 1 + r ^ 2 - 2 * r * (cos (x - mu) * cd + sin (x - mu) * sd)).
  { intros x. unfold wc_D, cd, sd. replace (x - m) with ((x - mu) - (m - mu)) by ring. rewrite cos_minus. reflexivity. }
  assert (TQ : forall x, t x ^ 2 - 2 * K * t x + 1 <= 0).
  { intros x. pose proof (wc_D_pos mu rho x Hr) as D. pose proof (Dm x) as E. assert (TC : sin (x - mu) ^ 2 + cos (x - mu) ^ 2 = 1) by (pose proof (sin2_cos2 (x - mu)) as U; unfold Rsqr in U; nra).
    set (a := wc_D mu rho x / (1 - rho ^ 2)). set (b := wc_D m r x / (1 - r ^ 2)). assert (A : 0 < a) by (apply Rdiv_lt_0_compat; assumption). change (t x) with (b / a).
    set (c := cos (x - mu)) in *. set (si := sin (x - mu)) in *.
    set (V := (2 * a * r * cd / (1 - r ^ 2) - 2 * b * rho / (1 - rho ^ 2)) * si - 2 * a * r * sd / (1 - r ^ 2) * c).
    assert (I : 2 * K * a * b - a ^ 2 - b ^ 2 = V ^ 2).
    { set (V0 := b * (1 + rho ^ 2) / (1 - rho ^ 2) - a * (1 + r ^ 2) / (1 - r ^ 2)). set (V1 := 2 * a * r * cd / (1 - r ^ 2) - 2 * b * rho / (1 - rho ^ 2)). set (V2 := 2 * a * r * sd / (1 - r ^ 2)).
      assert (Z : V0 = - (V1 * c + V2 * si)).
      { unfold V0, V1, V2. assert (Ea : a * (1 - rho ^ 2) = 1 + rho ^ 2 - 2 * rho * c) by (unfold a; replace (wc_D mu rho x / (1 - rho ^ 2) * (1 - rho ^ 2)) with (wc_D mu rho x) by (field; lra); reflexivity). assert (Eb : b * (1 - r ^ 2) = 1 + r ^ 2 - 2 * r * (c * cd + si * sd)) by (unfold b; rewrite E; field; lra).
        apply Rmult_eq_reg_r with ((1 - rho ^ 2) * (1 - r ^ 2)); [|apply Rmult_integral_contrapositive_currified; lra].
        replace ((b * (1 + rho ^ 2) / (1 - rho ^ 2) - a * (1 + r ^ 2) / (1 - r ^ 2)) * ((1 - rho ^ 2) * (1 - r ^ 2))) with ((b * (1 - r ^ 2)) * (1 + rho ^ 2) - (a * (1 - rho ^ 2)) * (1 + r ^ 2)) by (field; lra).
        replace (- ((2 * a * r * cd / (1 - r ^ 2) - 2 * b * rho / (1 - rho ^ 2)) * c + 2 * a * r * sd / (1 - r ^ 2) * si) * ((1 - rho ^ 2) * (1 - r ^ 2))) with (- ((2 * (a * (1 - rho ^ 2)) * r * cd - 2 * (b * (1 - r ^ 2)) * rho) * c + 2 * (a * (1 - rho ^ 2)) * r * sd * si)) by (field; lra).
        rewrite Ea, Eb. ring. }
      assert (Id : V ^ 2 = V1 ^ 2 + V2 ^ 2 - V0 ^ 2).
      { change V with (V1 * si - V2 * c). rewrite Z. transitivity ((V1 ^ 2 + V2 ^ 2) * (si ^ 2 + c ^ 2) - (- (V1 * c + V2 * si)) ^ 2); [ring|rewrite TC; ring]. }
      rewrite Id. replace (V1 ^ 2) with ((2 * a * r / (1 - r ^ 2)) ^ 2 * cd ^ 2 - 8 * a * b * r * rho * cd / ((1 - r ^ 2) * (1 - rho ^ 2)) + (2 * b * rho / (1 - rho ^ 2)) ^ 2) by (unfold V1; field; lra). replace (V2 ^ 2) with ((2 * a * r / (1 - r ^ 2)) ^ 2 * sd ^ 2) by (unfold V2; field; lra).
      replace (sd ^ 2) with (1 - cd ^ 2) by lra. unfold V0, K. field. split; lra. }
    pose proof (pow2_ge_0 V) as V2p. rewrite <- I in V2p. replace ((b / a) ^ 2 - 2 * K * (b / a) + 1) with (- ((2 * K * a * b - a ^ 2 - b ^ 2) / a ^ 2)) by (field; lra). assert (0 <= (2 * K * a * b - a ^ 2 - b ^ 2) / a ^ 2) by (apply Rmult_le_pos; [exact V2p|apply Rlt_le, Rinv_0_lt_compat, pow_lt, A]). lra. }
  destruct (chord_ln K (t 0) K1 (T0 0) (TQ 0)) as [lam L].
  assert (ES : Rsum (map (fun p => snd p * t (fst p)) s) = W * K).
  { transitivity ((1 - rho ^ 2) / (1 - r ^ 2) * ((1 + r ^ 2) * P - 2 * r * cd * Q - 2 * r * sd * wc_S s mu rho)).
    - unfold P, Q, wc_P, wc_Q, wc_S. rewrite <- !Rsum_scal_map, <- !Rsum_map_minus. rewrite <- Rsum_scal_map. apply Rsum_ext_map. intros d _. unfold t. rewrite Dm. pose proof (wc_D_pos mu rho (fst d) Hr). field. repeat split; lra.
    - rewrite HS, EQ2, EP. unfold K. field. split; lra. }
  assert (LL : 0 <= Rsum (map (fun p => snd p * ln (t (fst p))) s)).
  { apply Rle_trans with (Rsum (map (fun p => lam * (snd p * t (fst p)) + (- lam * K) * snd p) s)).
    - rewrite (Rsum_plus_map (fun p => lam * (snd p * t (fst p)))), !Rsum_scal_map, ES. fold W. right. unfold W. ring.
    - apply Rsum_le_map. intros d Hd. pose proof (L (t (fst d)) (T0 _) (TQ _)) as B. apply (Rmult_le_compat_l (snd d)) in B; [|apply Hw, Hd]. lra. }
  unfold loglik. assert (F : Rsum (map (fun p => snd p * ln (wc_pdf mu rho (fst p))) s) = Rsum (map (fun p => snd p * ln (wc_pdf m r (fst p)) + snd p * ln (t (fst p))) s)).
  { apply Rsum_ext_map. intros d _. rewrite <- Rmult_plus_distr_l. f_equal. assert (X : 0 < wc_pdf m r (fst d)) by (unfold wc_pdf; fold (wc_D m r (fst d)); apply Rdiv_lt_0_compat; [lra|]; apply Rmult_lt_0_compat; [lra|apply wc_D_pos; lra]). rewrite <- ln_mult by (try exact X; apply T0). f_equal. unfold wc_pdf, t. fold (wc_D m r (fst d)) (wc_D mu rho (fst d)). pose proof (wc_D_pos m r (fst d) Hr'). pose proof (wc_D_pos mu rho (fst d) Hr). field. repeat split; lra. }
  rewrite F, Rsum_plus_map. lra.
Qed.
