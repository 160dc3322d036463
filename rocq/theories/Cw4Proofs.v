(** cartwright: what the fits return. *)
From Verif Require Import Prelude NpModel NpProofs CircleSpec IntSpec IntProofs DescModel DescProofs DistModel DistSpec DistProofs Dist2Proofs Dist4Proofs Dist6Proofs Dist7Proofs JpProofs Jp8Proofs CwModel CwSpec GamProofs Gam2Proofs CwProofs Cw2Proofs Cw3Proofs.

Lemma wrapped_loglik g mu zeta s : loglik (cw_pdf g mu zeta) (cw_wrapped s) = loglik (cw_pdf g mu zeta) s.
Proof. unfold loglik, cw_wrapped. rewrite map_map. apply Rsum_ext_map. intros d _. cbn [fst snd]. rewrite cw_pdf_wrap. reflexivity. Qed.
Lemma wrapped_far s mu : (forall p, In p s -> / 10 ^ 15 <= 1 + cos (fst p - mu)) -> cw_far (cw_wrapped s) mu.
Proof.
  intros H p Hp. unfold cw_wrapped in Hp. apply in_map_iff in Hp. destruct Hp as (q & <- & Hq). cbn [fst]. destruct (wrap_same (fst q)) as [k ->]. replace (fst q + 2 * PI * IZR k - mu) with (fst q - mu + 2 * PI * IZR k) by ring. rewrite NpProofs.cos_turns. apply H, Hq.
Qed.
Lemma wrapped_posw s : (forall p, In p s -> 0 <= snd p) -> posw (cw_wrapped s).
Proof. intros H. unfold cw_wrapped, posw. intros p Hp. apply in_map_iff in Hp. destruct Hp as (q & <- & Hq). exact (H q Hq). Qed.
Lemma wrapped_neff s : cw_neff (cw_wrapped s) = Rsum (map snd s) ^ 2 / Rsum (map (fun p => snd p ^ 2) s).
Proof. unfold cw_neff, wtotal, cw_wrapped. rewrite !map_map. reflexivity. Qed.
Lemma cw_fit_moments_spec l g s mu zeta ll n : is_gamma g -> is_gammaln l g -> cw_fit_moments l s = Ok (mu, zeta, ll, n) ->
  let W := Rsum (map snd s) in let C := Rsum (map (fun d => snd d * cos (fst d)) s) / W in let S := Rsum (map (fun d => snd d * sin (fst d)) s) / W in
  let r := sqrt (C * C + S * S) in
  0 <= mu < 2 * PI /\ / 10 ^ 6 <= zeta <= 10 ^ 6 /\
  (/ 10 ^ 12 < r -> C = r * cos mu /\ S = r * sin mu) /\
  (1 / (1 + 10 ^ 6) <= r <= 1 / (1 + / 10 ^ 6) -> trig_moment_of (cw_pdf g mu zeta) 1 C S) /\
  (r < 1 / (1 + 10 ^ 6) -> zeta = 10 ^ 6) /\ (1 / (1 + / 10 ^ 6) < r -> zeta = / 10 ^ 6) /\
  n = W ^ 2 / Rsum (map (fun d => snd d ^ 2) s) /\
  ((forall d, In d s -> / 10 ^ 15 <= 1 + cos (fst d - mu)) -> ll = Fin (loglik (cw_pdf g mu zeta) s)).
Proof.
  intros Hg Hl E W C S r. revert E. unfold cw_fit_moments. destruct (cw_data s) as [t|] eqn:Ed; [|discriminate]. destruct (cw_data_ok s t Ed) as (_ & Hw & W0 & ->). clear Ed. cbv beta iota delta [bind]. destruct (cw_start (cw_wrapped s)) as [m z] eqn:Es.
  destruct (wrapped_sample s) as [SD WT]. fold (cw_wrapped s) in SD, WT. destruct (compute_dirs (cw_wrapped s) s SD) as (EC & ES & _). pose proof (cw_start_spec (cw_wrapped s) (wrapped_posw s Hw) ltac:(lra) m z Es) as (M & Z & D & Q1 & Q2 & Q3).
  assert (EL : Rlen (cw_wrapped s) = Rlen s) by (unfold Rlen; rewrite EC, ES; reflexivity). rewrite EC, ES, EL, WT in *. unfold wrap_direction. rewrite wrap_in by lra. intros E. injection E as <- <- <- <-.
  assert (iW : 0 < / wtotal s) by (apply Rinv_0_lt_compat, W0). assert (Er : r = Rlen s / wtotal s).
  { unfold r, Rlen, Rdiv. rewrite <- (sqrt_Rsqr (/ wtotal s)) by lra. rewrite <- sqrt_mult_alt by nra. f_equal. unfold C, S, Csum, Ssum, W, wtotal, Rsqr, Rdiv. ring. }
  assert (E12 : 0 < / 10 ^ 12) by (apply Rinv_0_lt_compat, pow_lt; lra). assert (Q0 : / 10 ^ 12 < r -> C = r * cos m /\ S = r * sin m).
  { intros K. rewrite Er in K. destruct D as [D1 D2].
    - apply (Rmult_lt_compat_r (wtotal s)) in K; [|exact W0]. unfold Rdiv in K. rewrite (Rmult_assoc (Rlen s)), Rinv_l in K by lra. lra.
    - unfold C, S, W. fold (Csum s) (Ssum s) (wtotal s). rewrite D1, D2, Er. unfold Rdiv. split; ring. }
  split; [exact M|]. split; [exact Z|]. split; [exact Q0|]. rewrite <- Er in Q1, Q2, Q3. split; [|split; [exact Q2|split; [exact Q3|split; [apply wrapped_neff|]]]].
  - intros K. assert (K2 : / 10 ^ 12 < r) by lra. destruct (Q0 K2) as [A1 A2]. rewrite A1, A2. rewrite <- (Q1 K). apply cw_moment; [exact Hg|]. apply cw_ok_spec. lra.
  - intros F. rewrite (cw_nll_lik l g (cw_wrapped s) m z Hg Hl ltac:(lra) (wrapped_far s m F)). cbn [fopp]. f_equal. rewrite wrapped_loglik. ring.
Qed.
Lemma cw_fit_total l s : s <> [] -> (forall p, In p s -> 0 <= snd p) -> 0 < Rsum (map snd s) -> exists r, cw_fit_moments l s = Ok r.
Proof. intros H1 H2 H3. unfold cw_fit_moments. rewrite (cw_data_total s H1 H2 H3). cbv beta iota delta [bind]. destruct (cw_start _). eexists. reflexivity. Qed.
Lemma cw_fit_rejects l minimize s : s = [] \/ (exists d, In d s /\ snd d < 0) \/ Rsum (map snd s) <= 0 -> cw_fit_moments l s = Err ValueError /\ cw_fit_mle l minimize s = Err ValueError.
Proof. intros H. unfold cw_fit_moments, cw_fit_mle. rewrite (cw_data_rejects s H). split; reflexivity. Qed.
Lemma cw_fit_mle_spec l g minimize s mu zeta ll n : is_gamma g -> is_gammaln l g -> bounded_min minimize -> cw_fit_mle l minimize s = Ok (mu, zeta, ll, n) ->
  0 <= mu <= 2 * PI /\ / 10 ^ 6 <= zeta <= 10 ^ 6 /\ n = Rsum (map snd s) ^ 2 / Rsum (map (fun d => snd d ^ 2) s) /\
  ((forall d, In d s -> / 10 ^ 15 <= 1 + cos (fst d - mu)) -> ll = Fin (loglik (cw_pdf g mu zeta) s)) /\
  exists mu0 zeta0 ll0 n0, cw_fit_moments l s = Ok (mu0, zeta0, ll0, n0) /\
    (/ 10 ^ 3 <= zeta0 <= 10 ^ 4 -> exists a b, ll = Fin a /\ ll0 = Fin b /\ b <= a).
Proof.
  intros Hg Hl Hm. unfold cw_fit_mle, cw_fit_moments. destruct (cw_data s) as [t|] eqn:Ed; [|discriminate]. destruct (cw_data_ok s t Ed) as (_ & Hw & W0 & ->). clear Ed. cbv beta iota delta [bind]. destruct (cw_start (cw_wrapped s)) as [m0 z0] eqn:Es.
  destruct (wrapped_sample s) as [_ WT]. fold (cw_wrapped s) in WT. pose proof (cw_start_spec (cw_wrapped s) (wrapped_posw s Hw) ltac:(lra) m0 z0 Es) as (M & Z & _). assert (E6 : 0 < / 10 ^ 6) by (apply Rinv_0_lt_compat, pow_lt; lra).
  destruct (minimize _ _ _) as [[[m z] v]|] eqn:Em; [|discriminate]. destruct (Hm _ _ _ _ _ _ Em) as (B1 & B2 & B3 & B4). intros E. injection E as <- <- <- <-. rewrite clip_in by exact B2. unfold wrap_direction. rewrite !wrap_in by lra.
  split; [exact B1|]. split; [exact B2|]. split; [apply wrapped_neff|]. split.
  - intros F. rewrite B3, (cw_nll_lik l g (cw_wrapped s) m z Hg Hl ltac:(lra) (wrapped_far s m F)). cbn [fopp]. f_equal. rewrite wrapped_loglik. ring.
  - exists m0, z0, (fopp (cw_nll l (cw_wrapped s) m0 z0)), (cw_neff (cw_wrapped s)). split; [reflexivity|]. intros K. destruct (cw_nll_fin l (cw_wrapped s) m z ltac:(lra)) as [x Ex]. destruct (cw_nll_fin l (cw_wrapped s) m0 z0 ltac:(lra)) as [y Ey].
    exists (- x), (- y). rewrite B3, Ex, Ey. split; [reflexivity|]. split; [reflexivity|]. rewrite clip_in in B4 by exact K. pose proof (B4 x y ltac:(rewrite B3; exact Ex) Ey). lra.
Qed.
Lemma cw_fit_mle_fails l minimize s : (forall obj a b, minimize obj a b = None) -> s <> [] -> (forall p, In p s -> 0 <= snd p) -> 0 < Rsum (map snd s) -> cw_fit_mle l minimize s = Err RuntimeError.
Proof. intros Hm H1 H2 H3. unfold cw_fit_mle. rewrite (cw_data_total s H1 H2 H3). cbv beta iota delta [bind]. destruct (cw_start _). rewrite Hm. reflexivity. Qed.
Lemma cw_rvs_rejects mu zeta t u : zeta <= 0 -> cw_rvs mu zeta t u = Err ValueError.
Proof. intros H. unfold cw_rvs. rewrite (proj2 (Rleb_true zeta 0) H). reflexivity. Qed.
Lemma cw_nll_refuted : exists x mu zeta, 0 < zeta /\ forall l g, cw_pdf g mu zeta x = 0 /\ exists v, cw_nll l [(x, 1)] mu zeta = Fin v.
Proof. exists (1 + PI), 1, 1. split; [lra|]. intros l g. split; [apply cw_opposite; lra|apply cw_nll_fin; lra]. Qed.
