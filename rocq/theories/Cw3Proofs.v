(** cartwright: the log-likelihood, its gradient and the fits. *)
From Verif Require Import Prelude NpModel NpProofs CircleSpec IntSpec IntProofs DescModel DescProofs DistModel DistSpec DistProofs Dist2Proofs Dist4Proofs Dist6Proofs Dist7Proofs KjProofs Kj2Proofs JpProofs Jp8Proofs Desc6Proofs Von3Proofs GaussProofs CwModel CwSpec GamProofs Gam2Proofs CwProofs Cw2Proofs.

Lemma cw_C_pos g zeta : is_gamma g -> 0 < zeta -> 0 < cw_C g (1 / zeta).
Proof. intros H Hz. destruct (cw_pdf_kernel g 0 zeta H Hz) as (v & v0 & _ & -> & _). apply inv_pos, v0. Qed.
Lemma cw_log_c_ln l g zeta : is_gamma g -> is_gammaln l g -> 0 < zeta -> cw_log_c l zeta = ln (cw_C g (1 / zeta)).
Proof.
  intros H Hl Hz. pose proof (inv_pos zeta Hz) as Hs. destruct H as (_ & Hr & _). destruct (Hr (1 + 1 / zeta) ltac:(lra)) as [P1 _]. destruct (Hr (1 + 2 * (1 / zeta)) ltac:(lra)) as [P2 _]. pose proof PI_RGT_0 as P.
  unfold cw_log_c, cw_C. rewrite !Hl by lra. set (s := 1 / zeta) in *. set (A := g (1 + s)) in *. set (B := g (1 + 2 * s)) in *. assert (PB : 0 < PI * B) by nra. assert (A2 : 0 < A ^ 2) by nra. unfold Rdiv.
  rewrite (ln_mult (Rpower 2 (-1 + s) * A ^ 2) (/ (PI * B))); [|apply Rmult_lt_0_compat; [apply exp_pos|exact A2]|apply Rinv_0_lt_compat, PB]. rewrite (ln_mult (Rpower 2 (-1 + s)) (A ^ 2)); [|apply exp_pos|exact A2]. rewrite ln_Rinv by exact PB. rewrite (ln_mult PI B) by assumption.
  unfold Rpower. rewrite ln_exp. replace (A ^ 2) with (A * A) by ring. rewrite (ln_mult A A) by assumption. ring.
Qed.
Lemma cw_ln_pdf g mu zeta x : is_gamma g -> 0 < zeta -> 0 < 1 + cos (x - mu) -> ln (cw_pdf g mu zeta x) = ln (cw_C g (1 / zeta)) + 1 / zeta * ln (1 + cos (x - mu)).
Proof.
  intros H Hz Hc. pose proof (cw_C_pos g zeta H Hz) as P. rewrite cw_pdf_C. unfold kc. rewrite npow_pos by exact Hc. rewrite (ln_mult (cw_C g (1 / zeta))); [|exact P|apply exp_pos]. unfold Rpower. rewrite ln_exp. reflexivity.
Qed.
Definition cw_far (s : list (R * R)) (mu : R) : Prop := forall p, In p s -> / 10 ^ 15 <= 1 + cos (fst p - mu).
Lemma eps15 : 0 < / 10 ^ 15.
Proof. apply Rinv_0_lt_compat, pow_lt; lra. Qed.
Lemma cw_nll_lik l g s mu zeta : is_gamma g -> is_gammaln l g -> 0 < zeta -> cw_far s mu -> cw_nll l s mu zeta = Fin (- loglik (cw_pdf g mu zeta) s).
Proof.
  intros H Hl Hz Hf. unfold cw_nll. rewrite (proj2 (Rleb_false zeta 0) Hz). f_equal. f_equal. rewrite (cw_log_c_ln l g zeta H Hl Hz). unfold loglik, cw_sum_log. pose proof eps15 as E. induction s as [|p s IH]; [simpl; ring|].
  assert (Hp : / 10 ^ 15 <= 1 + cos (fst p - mu)) by (apply Hf; left; reflexivity). specialize (IH (fun q Hq => Hf q (or_intror Hq))). cbn [map]. rewrite !Rsum_cons. rewrite <- IH. rewrite (cw_ln_pdf g mu zeta (fst p) H Hz) by lra. rewrite (Rmax_left _ (/ 10 ^ 15)) by exact Hp. ring.
Qed.
Lemma cw_nll_fin l s mu zeta : 0 < zeta -> exists v, cw_nll l s mu zeta = Fin v.
Proof. intros Hz. unfold cw_nll. rewrite (proj2 (Rleb_false zeta 0) Hz). eexists. reflexivity. Qed.
Lemma cw_opposite g mu zeta : 0 < zeta -> cw_pdf g mu zeta (mu + PI) = 0.
Proof. intros Hz. rewrite cw_pdf_C. unfold kc. replace (mu + PI - mu) with PI by ring. rewrite cos_PI. replace (1 + - 1) with 0 by ring. rewrite npow_0 by lra. ring. Qed.
(** ** The gradient *)
Lemma dlim_max h x l e : derivable_pt_lim h x l -> e < h x -> derivable_pt_lim (fun t => Rmax (h t) e) x l.
Proof.
  intros D He. assert (C : continuity_pt h x) by (apply derivable_continuous_pt; exists l; exact D). destruct (C (h x - e) ltac:(lra)) as (d & Hd & Hh).
  apply (dlim_ext_loc h _ x l (x - d) (x + d)); [lra| |exact D]. intros y Hy. symmetry. apply Rmax_left. destruct (Req_dec y x) as [->|N]; [lra|].
  assert (K : Rabs (h y - h x) < h x - e) by (apply (Hh y); split; [split; [exact I|intros E; apply N; symmetry; exact E]|unfold Rfunctions.R_dist; simpl; unfold R_dist; apply Rabs_def1; lra]). apply Rabs_def2 in K. lra.
Qed.
Lemma cw_gradient l d g s mu zeta : is_gamma g -> is_gammaln l g -> is_digamma d g -> 0 < zeta -> (forall p, In p s -> / 10 ^ 15 < 1 + cos (fst p - mu)) -> is_gradient (cw_nll l s) mu zeta (cw_grad d s mu zeta).
Proof.
  intros H Hl Hd Hz Hf. pose proof (inv_pos zeta Hz) as Hs. pose proof eps15 as E15. exists (fun x y => - (Rsum (map snd s) * cw_log_c l y + 1 / y * cw_sum_log s x)). split; [|split].
  - exists zeta. split; [exact Hz|]. intros x y _ Hy. apply Rabs_def2 in Hy. unfold cw_nll. rewrite (proj2 (Rleb_false y 0)) by lra. reflexivity.
  - unfold cw_grad. cbn [fst]. eapply dlim_eq; [|apply (dlim_opp (fun x => Rsum (map snd s) * cw_log_c l zeta + 1 / zeta * cw_sum_log s x)); apply (dlim_plus (fun _ => Rsum (map snd s) * cw_log_c l zeta) (fun x => 1 / zeta * cw_sum_log s x)); [apply dlim_const|apply (dlim_scal (1 / zeta) (cw_sum_log s)); unfold cw_sum_log;
      apply (dlim_Rsum (fun p x => snd p * ln (Rmax (1 + cos (fst p - x)) (/ 10 ^ 15))) (fun p => snd p * sin (fst p - mu) / Rmax (1 + cos (fst p - mu)) (/ 10 ^ 15)))]]; [cbv beta; ring|].
    intros p Hp. pose proof (Hf p Hp) as F. eapply dlim_eq; [|apply (dlim_scal (snd p) (fun x => ln (Rmax (1 + cos (fst p - x)) (/ 10 ^ 15)))); apply dlim_ln; [rewrite Rmax_left by lra; lra|apply (dlim_max (fun x => 1 + cos (fst p - x))); [apply (dlim_plus (fun _ => 1) (fun x => cos (fst p - x))); [apply dlim_const|apply dlim_cos_mu]|exact F]]].
    cbv beta. rewrite Rmax_left by lra. unfold Rdiv. ring.
  - unfold cw_grad. cbn [snd].
    assert (Di : derivable_pt_lim (fun y => 1 / y) zeta (- / zeta ^ 2)).
    { eapply dlim_eq; [|apply (dlim_div (fun _ => 1) (fun y => y)); [lra|apply dlim_const|apply dlim_id]]. field. lra. }
    assert (Dl : forall c, 0 <= c -> derivable_pt_lim (fun y => l (1 + c * (1 / y))) zeta (d (1 + c * (1 / zeta)) * (c * - / zeta ^ 2))).
    { intros c Hc. assert (0 <= c * (1 / zeta)) by (apply Rmult_le_pos; lra). apply (dlim_comp l (fun y => 1 + c * (1 / y))).
      - eapply dlim_eq; [|apply (dlim_plus (fun _ => 1) (fun y => c * (1 / y))); [apply dlim_const|apply dlim_scal; exact Di]]. ring.
      - apply (dlim_ext_loc (fun y => ln (g y)) l _ _ 0 (1 + c * (1 / zeta) + 1)); [lra|intros y Hy; symmetry; apply Hl; lra|apply Hd; lra]. }
    assert (Dc : derivable_pt_lim (cw_log_c l) zeta ((2 * d (1 + 2 * (1 / zeta)) - (ln 2 + 2 * d (1 + 1 / zeta))) / zeta ^ 2)).
    { apply (dlim_ext (fun y => (- 1 + 1 / y) * ln 2 + (2 * l (1 + 1 * (1 / y)) + (- ln PI + - (1) * l (1 + 2 * (1 / y)))))); [intros y; unfold cw_log_c; rewrite Rmult_1_l; ring|].
      eapply dlim_eq; [|apply (dlim_plus (fun y => (- 1 + 1 / y) * ln 2)); [apply (dlim_mult (fun y => - 1 + 1 / y) (fun _ => ln 2)); [apply (dlim_plus (fun _ => - 1)); [apply dlim_const|exact Di]|apply dlim_const]|apply (dlim_plus (fun y => 2 * l (1 + 1 * (1 / y)))); [apply dlim_scal; apply (Dl 1); lra|apply (dlim_plus (fun _ => - ln PI)); [apply dlim_const|apply dlim_scal; apply (Dl 2); lra]]]].
      cbv beta. rewrite Rmult_1_l. field. lra. }
    eapply dlim_eq; [|apply (dlim_opp (fun y => Rsum (map snd s) * cw_log_c l y + 1 / y * cw_sum_log s mu)); apply (dlim_plus (fun y => Rsum (map snd s) * cw_log_c l y) (fun y => 1 / y * cw_sum_log s mu)); [apply dlim_scal; exact Dc|apply (dlim_mult (fun y => 1 / y) (fun _ => cw_sum_log s mu)); [exact Di|apply dlim_const]]].
    cbv beta. field. lra.
Qed.
(** ** The fits *)
Definition cw_wrapped (s : wsample) : wsample := map (fun p => (wrap_angles (fst p), snd p)) s.
Lemma cw_data_ok s t : cw_data s = Ok t -> s <> [] /\ (forall p, In p s -> 0 <= snd p) /\ 0 < wtotal s /\ t = cw_wrapped s.
Proof.
  unfold cw_data. destruct s as [|d s0]; [discriminate|]. set (s := d :: s0). destruct (existsb (fun p => Rltb (snd p) 0) s) eqn:Ew; [discriminate|]. destruct (Rleb_spec (wtotal s) 0) as [W|W]; [discriminate|]. intros E. injection E as <-. split; [discriminate|]. split; [|split; [lra|reflexivity]].
  intros p Hp. destruct (Rle_dec 0 (snd p)) as [L|L]; [exact L|]. exfalso. assert (B : existsb (fun p => Rltb (snd p) 0) s = true) by (apply existsb_exists; exists p; split; [exact Hp|apply Rltb_true; lra]). congruence.
Qed.
Lemma cw_data_total s : s <> [] -> (forall p, In p s -> 0 <= snd p) -> 0 < wtotal s -> cw_data s = Ok (cw_wrapped s).
Proof.
  intros H1 H2 H3. unfold cw_data. destruct s as [|d s0]; [congruence|]. set (s := d :: s0) in *. destruct (existsb (fun p => Rltb (snd p) 0) s) eqn:Ew.
  - apply existsb_exists in Ew. destruct Ew as (p & Hp & L). apply Rltb_true in L. pose proof (H2 p Hp). lra.
  - rewrite (proj2 (Rleb_false (wtotal s) 0) H3). reflexivity.
Qed.
Lemma cw_data_rejects s : s = [] \/ (exists d, In d s /\ snd d < 0) \/ wtotal s <= 0 -> cw_data s = Err ValueError.
Proof.
  intros H. unfold cw_data. destruct s as [|d s0]; [reflexivity|]. set (s := d :: s0) in *. destruct (existsb (fun p => Rltb (snd p) 0) s) eqn:Ew; [reflexivity|]. destruct (Rleb_spec (wtotal s) 0) as [W|W]; [reflexivity|]. destruct H as [H|[(p & Hp & L)|H]]; [discriminate| |lra].
  exfalso. assert (B : existsb (fun p => Rltb (snd p) 0) s = true) by (apply existsb_exists; exists p; split; [exact Hp|apply Rltb_true; exact L]). congruence.
Qed.
Lemma cw_half_delta x mu : sin (1 / 2 * (pymod (x - mu + PI) (2 * PI) - PI)) ^ 2 = (1 - cos (x - mu)) / 2.
Proof.
  rewrite half_sq. destruct (pymod_cong (x - mu + PI) (2 * PI)) as [k E]. replace (pymod (x - mu + PI) (2 * PI) - PI) with (x - mu + 2 * PI * IZR (- k)) by (rewrite opp_IZR; lra). rewrite NpProofs.cos_turns. reflexivity.
Qed.
Lemma cw_mt s mu : 0 < wtotal s -> Rsum (map (fun p => snd p * sin (1 / 2 * (pymod (fst p - mu + PI) (2 * PI) - PI)) ^ 2) s) / wtotal s = (1 - (Csum s * cos mu + Ssum s * sin mu) / wtotal s) / 2.
Proof.
  intros W. rewrite proj_eq. assert (E : Rsum (map (fun p => snd p * sin (1 / 2 * (pymod (fst p - mu + PI) (2 * PI) - PI)) ^ 2) s) = (wtotal s - Rsum (map (fun x => snd x * cos (fst x - mu)) s)) / 2).
  { unfold wtotal. clear W. induction s as [|p s IH]; [simpl; field|]. cbn [map]. rewrite !Rsum_cons. rewrite IH, cw_half_delta. field. }
  rewrite E. field. lra.
Qed.
Lemma cw_zeta_cases r : 0 <= r <= 1 ->
  let m := clip ((1 - r) / 2) 0 (1 / 2 - / 10 ^ 12) in
  let z := if Rleb m (/ 10 ^ 12) then / 10 ^ 6 else clip (m / Rmax (/ 10 ^ 12) (1 / 2 - m)) (/ 10 ^ 6) (10 ^ 6) in
  (1 / (1 + 10 ^ 6) <= r <= 1 / (1 + / 10 ^ 6) -> z = (1 - r) / r) /\ (r < 1 / (1 + 10 ^ 6) -> z = 10 ^ 6) /\ (1 / (1 + / 10 ^ 6) < r -> z = / 10 ^ 6).
Proof.
  intros Hr m z. destruct (Rlt_dec ((1 - r) / 2) (1 / 2 - / 10 ^ 12)) as [L|L].
  - assert (Em : m = (1 - r) / 2) by (unfold m; apply clip_in; lra). subst z. rewrite Em. rewrite Rmax_right by lra. replace (1 / 2 - (1 - r) / 2) with (r / 2) by field. assert (r0 : 0 < r) by lra. replace ((1 - r) / 2 / (r / 2)) with ((1 - r) / r) by (field; lra).
    assert (Q : forall c, 0 < c -> ((1 - r) / r <= c <-> 1 / (1 + c) <= r)).
    { intros c Hc. split; intros K.
      - apply Rmult_le_reg_r with (1 + c); [lra|]. replace (1 / (1 + c) * (1 + c)) with 1 by (field; lra). assert ((1 - r) / r * r <= c * r) by (apply Rmult_le_compat_r; lra). replace ((1 - r) / r * r) with (1 - r) in * by (field; lra). lra.
      - apply Rmult_le_reg_r with r; [lra|]. replace ((1 - r) / r * r) with (1 - r) by (field; lra). assert (1 / (1 + c) * (1 + c) <= r * (1 + c)) by (apply Rmult_le_compat_r; lra). replace (1 / (1 + c) * (1 + c)) with 1 in * by (field; lra). lra. }
    assert (Q2 : forall c, 0 < c -> (c <= (1 - r) / r <-> r <= 1 / (1 + c))).
    { intros c Hc. split; intros K.
      - apply Rmult_le_reg_r with (1 + c); [lra|]. replace (1 / (1 + c) * (1 + c)) with 1 by (field; lra). assert (c * r <= (1 - r) / r * r) by (apply Rmult_le_compat_r; lra). replace ((1 - r) / r * r) with (1 - r) in * by (field; lra). lra.
      - apply Rmult_le_reg_r with r; [lra|]. replace ((1 - r) / r * r) with (1 - r) by (field; lra). assert (r * (1 + c) <= 1 / (1 + c) * (1 + c)) by (apply Rmult_le_compat_r; lra). replace (1 / (1 + c) * (1 + c)) with 1 in * by (field; lra). lra. }
    split; [|split].
    + intros [K1 K2]. pose proof (proj2 (Q (10 ^ 6) ltac:(lra)) K1) as A. pose proof (proj2 (Q2 (/ 10 ^ 6) ltac:(lra)) K2) as B. destruct (Rleb_spec ((1 - r) / 2) (/ 10 ^ 12)) as [M|M]; [|apply clip_in; lra]. exfalso. lra.
    + intros K. destruct (Rleb_spec ((1 - r) / 2) (/ 10 ^ 12)) as [M|M]; [lra|]. assert (10 ^ 6 < (1 - r) / r) by (destruct (Rle_dec ((1 - r) / r) (10 ^ 6)) as [A|A]; [apply (Q (10 ^ 6) ltac:(lra)) in A; lra|lra]). unfold clip. rewrite Rmax_left by lra. apply Rmin_right. lra.
    + intros K. destruct (Rleb_spec ((1 - r) / 2) (/ 10 ^ 12)) as [M|M]; [reflexivity|]. assert ((1 - r) / r < / 10 ^ 6) by (destruct (Rle_dec (/ 10 ^ 6) ((1 - r) / r)) as [A|A]; [apply (Q2 (/ 10 ^ 6) ltac:(lra)) in A; lra|lra]). unfold clip. rewrite Rmax_right by lra. apply Rmin_left. lra.
  - assert (Em : m = 1 / 2 - / 10 ^ 12) by (unfold m, clip; rewrite Rmax_left by lra; apply Rmin_right; lra). assert (r <= 2 * / 10 ^ 12) by lra. split; [lra|]. split; [intros _|lra]. subst z. rewrite Em. rewrite (proj2 (Rleb_false (1 / 2 - / 10 ^ 12) (/ 10 ^ 12))) by lra. replace (1 / 2 - (1 / 2 - / 10 ^ 12)) with (/ 10 ^ 12) by ring. rewrite Rmax_left by lra. unfold clip. rewrite Rmax_left by lra. apply Rmin_right. lra.
Qed.
Lemma cw_start_spec s : posw s -> 0 < wtotal s -> forall mu zeta, cw_start s = (mu, zeta) ->
  0 <= mu < 2 * PI /\ / 10 ^ 6 <= zeta <= 10 ^ 6 /\
  (/ 10 ^ 12 * wtotal s < Rlen s -> Csum s = Rlen s * cos mu /\ Ssum s = Rlen s * sin mu) /\
  (1 / (1 + 10 ^ 6) <= Rlen s / wtotal s <= 1 / (1 + / 10 ^ 6) -> 1 / (1 + zeta) = Rlen s / wtotal s) /\
  (Rlen s / wtotal s < 1 / (1 + 10 ^ 6) -> zeta = 10 ^ 6) /\ (1 / (1 + / 10 ^ 6) < Rlen s / wtotal s -> zeta = / 10 ^ 6).
Proof.
  intros Hp W mu zeta. unfold cw_start. destruct (circ_mean_and_r_s s) as [m r] eqn:Em. set (m0 := pymod (match m with Fin v => v | _ => 0 end) (2 * PI)). rewrite cw_mt by exact W. intros E. assert (Emu := f_equal fst E). assert (Ez := f_equal snd E). cbn [fst snd] in Emu, Ez. pose proof PI_RGT_0 as P.
  assert (M0 : 0 <= m0 < 2 * PI) by (apply pymod_range; lra). pose proof (circ_r_s_range s Hp W) as Rr. rewrite circ_r_s_eq in Rr by exact W. split; [lra|]. split.
  { rewrite <- Ez. destruct (Rleb _ _); [lra|apply clip_range; lra]. }
  assert (R0 : forall c, c * wtotal s < Rlen s <-> c < Rlen s / wtotal s).
  { intros c. split; intros K; [apply Rmult_lt_reg_r with (wtotal s)|apply (Rmult_lt_compat_r (wtotal s)) in K]; try exact W; unfold Rdiv in *; rewrite ?Rmult_assoc, ?Rinv_l in * by lra; lra. }
  destruct (circ_mean_and_r_s_cases s) as [[B1 B2]|[B1 B2]]; rewrite Em in B2; injection B2 as E1 E2; rewrite circ_r_s_eq in B1 by exact W.
  - assert (Z : m0 = 0) by (unfold m0; rewrite E1; apply pymod_small; lra). rewrite Z in *. rewrite cos_0, sin_0 in Ez.
    assert (Cb : Rabs (Csum s) <= Rlen s) by (unfold Rlen; rewrite <- sqrt_Rsqr_abs; apply sqrt_le_1_alt; unfold Rsqr; nra). pose proof (Rle_abs (Csum s)) as Cb1. pose proof (Rle_abs (- Csum s)) as Cb3. rewrite Rabs_Ropp in Cb3.
    assert (Cb2 : - (Rlen s / wtotal s) <= Csum s / wtotal s <= Rlen s / wtotal s).
    { pose proof (Rinv_0_lt_compat _ W). unfold Rdiv. split; [rewrite <- Ropp_mult_distr_l_reverse|]; apply Rmult_le_compat_r; lra. }
    split; [rewrite R0; lra|]. split; [lra|]. split; [intros _|lra]. replace ((Csum s * 1 + Ssum s * 0) / wtotal s) with (Csum s / wtotal s) in Ez by (field; lra). set (c := Csum s / wtotal s) in *.
    destruct (Rle_dec 0 c) as [L|L].
    + pose proof (cw_zeta_cases c ltac:(lra)) as Q. cbv zeta in Q. destruct Q as (_ & Q & _). rewrite <- Ez. apply Q. lra.
    + rewrite <- Ez. replace (clip ((1 - c) / 2) 0 (1 / 2 - / 10 ^ 12)) with (1 / 2 - / 10 ^ 12) by (unfold clip; rewrite Rmax_left by lra; symmetry; apply Rmin_right; lra). rewrite (proj2 (Rleb_false (1 / 2 - / 10 ^ 12) (/ 10 ^ 12))) by lra. replace (1 / 2 - (1 / 2 - / 10 ^ 12)) with (/ 10 ^ 12) by ring. rewrite Rmax_left by lra. unfold clip. rewrite Rmax_left by lra. apply Rmin_right. lra.
  - assert (Z : m0 = mean_dir s) by (unfold m0; rewrite E1; apply pymod_small, mean_dir_range). destruct (mean_dir_polar s W) as (A1 & A2 & A3); [rewrite circ_r_s_eq by exact W; lra|].
    rewrite <- Emu, Z. split; [intros _; split; assumption|]. assert (Er : (Csum s * cos m0 + Ssum s * sin m0) / wtotal s = Rlen s / wtotal s).
    { rewrite Z, A1, A2. pose proof (sin2_cos2 (mean_dir s)) as T. unfold Rsqr in T. f_equal. replace (Rlen s * cos (mean_dir s) * cos (mean_dir s) + Rlen s * sin (mean_dir s) * sin (mean_dir s)) with (Rlen s * (sin (mean_dir s) * sin (mean_dir s) + cos (mean_dir s) * cos (mean_dir s))) by ring. rewrite T. ring. }
    rewrite Er in Ez. pose proof (cw_zeta_cases (Rlen s / wtotal s) Rr) as (Q1 & Q2 & Q3). rewrite Ez in Q1, Q2, Q3. split; [|split; assumption]. intros K. rewrite (Q1 K). field. split; lra.
Qed.
