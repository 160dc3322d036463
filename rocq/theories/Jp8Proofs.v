(** Jones-Pewsey family: quantiles of the asymmetric member, sampling of the sine-skewed one, the moment fit. *)
From Verif Require Import Prelude NpModel NpProofs UtilsModel DescModel DescProofs Desc2Model Desc2Proofs CircleSpec IntSpec IntProofs Desc6Proofs DistModel DistSpec DistProofs Dist2Proofs Dist4Proofs Dist5Proofs
  Dist6Proofs Dist7Proofs Dist8Proofs KjProofs Kj2Proofs Kj3Proofs VonModel VonSpec VonProofs Von2Proofs Von3Proofs Von4Proofs Von5Proofs Von6Proofs GaussProofs Ws2Proofs Ws3Proofs WnProofs Wn3Proofs Wn6Proofs
  JpModel JpSpec JpProofs Jp2Proofs Jp3Proofs Jp4Proofs Jp5Proofs Jp6Proofs Jp7Proofs.

Lemma as_inverts iv num lpmv quad xi kappa psi nu q : as_ok xi kappa psi nu = true -> 0 < q < 1 -> xi < 2 * PI ->
  exists th, public_ppf (as_ok xi kappa psi nu) (as_ppf iv num lpmv quad xi kappa psi nu) q = Fin th /\
    inverts (public_cdf (as_ok xi kappa psi nu) (as_cdf iv num lpmv quad xi kappa psi nu)) q th (2 / 10 ^ 12) (8 / 10 ^ 9).
Proof.
  intros Hok Hq Hx. eexists. split; [apply ppf_public; assumption|]. pose proof (proj1 (as_ok_spec _ _ _ _) Hok) as (Hxi & Hk & Hn). rewrite Hok.
  unfold as_ppf. cbv zeta. rewrite (pymod_small xi) by lra.
  destruct (Rltb_spec kappa jp_ktol) as [K|K]; [|apply solve_inverts; exact Hq].
  destruct (Rltb_spec nu (/ 10 ^ 12)) as [N|N]; [|apply solve_inverts; exact Hq]. simpl andb. cbv iota.
  apply flat_inverts; [|exact Hq]. intros x Hx'. apply as_cdf_flat; lra.
Qed.

(** ** Sampling *)
Lemma ss_draw_spec xi lam : forall base p, ss_draw xi lam base = Some p ->
  exists pre u post, base = pre ++ (p, u) :: post /\ u * (1 + Rabs lam) <= 1 + lam * sin (p - xi) /\
    forall p' u', In (p', u') pre -> 1 + lam * sin (p' - xi) < u' * (1 + Rabs lam).
Proof.
  pose proof (Rabs_pos lam) as A.
  assert (K : forall p u, u <= (1 + lam * sin (p - xi)) / (1 + Rabs lam) <-> u * (1 + Rabs lam) <= 1 + lam * sin (p - xi)).
  { intros p u. split; intros H.
    - apply (Rmult_le_compat_r (1 + Rabs lam)) in H; [|lra]. unfold Rdiv in H. rewrite Rmult_assoc, Rinv_l in H by lra. lra.
    - apply Rmult_le_reg_r with (1 + Rabs lam); [lra|]. unfold Rdiv. rewrite Rmult_assoc, Rinv_l by lra. lra. }
  induction base as [|[p0 u0] rest IH]; intros p; simpl; [discriminate|]. destruct (Rleb_spec u0 ((1 + lam * sin (p0 - xi)) / (1 + Rabs lam))) as [D|D].
  - intros E. injection E as <-. exists [], u0, rest. split; [reflexivity|]. split; [apply K; exact D|intros ? ? []].
  - intros E. destruct (IH p E) as (pre & u & post & E1 & E2 & E3). exists ((p0, u0) :: pre), u, post. split; [rewrite E1; reflexivity|]. split; [exact E2|].
    intros p' u' [I|I]; [injection I as <- <-|apply E3; exact I]. apply Rnot_le_lt. intros C. apply D. apply K. exact C.
Qed.
Lemma ss_draw_none xi lam : forall base, ss_draw xi lam base = None -> forall p u, In (p, u) base -> 1 + lam * sin (p - xi) < u * (1 + Rabs lam).
Proof.
  pose proof (Rabs_pos lam) as A. induction base as [|[p0 u0] rest IH]; simpl; [intros _ ? ? []|].
  destruct (Rleb_spec u0 ((1 + lam * sin (p0 - xi)) / (1 + Rabs lam))) as [D|D]; [discriminate|]. intros E p u [I|I]; [injection I as <- <-|apply IH; assumption].
  apply Rnot_le_lt. intros C. apply D. apply Rmult_le_reg_r with (1 + Rabs lam); [lra|]. unfold Rdiv. rewrite Rmult_assoc, Rinv_l by lra. lra.
Qed.
Lemma sin_xi xi p : 0 <= xi <= 2 * PI -> sin (p - pymod xi (2 * PI)) = sin (p - xi).
Proof.
  intros H. destruct (pymod_xi xi H) as [->|[-> ->]]; [reflexivity|]. replace (p - 2 * PI) with (p - 0 + 2 * PI * IZR (-1)) by (simpl; ring).
  symmetry. apply NpProofs.sin_turns.
Qed.
Lemma ss_vs_jp iv lpmv quad xi kappa psi lam x : 0 <= kappa ->
  ss_pdf iv lpmv quad xi kappa psi lam x = jp_pdf iv lpmv quad xi kappa psi x * (1 + lam * sin (x - xi)).
Proof.
  intros H. unfold ss_pdf, jp_pdf. destruct (Rltb_spec (Rabs kappa) jp_ktol); [reflexivity|]. cbv zeta. destruct (Rltb_spec (Rabs psi) jp_ptol) as [P|P]; [|ring].
  unfold jp_kernel. rewrite (proj2 (Rltb_true _ _)) by exact P. ring.
Qed.
(** Rejection from the symmetric density with envelope 1 + |lam|. *)
Lemma ss_sampler iv lpmv quad xi kappa psi lam base : is_iv iv -> is_lpmv lpmv -> ss_ok xi kappa psi lam = true -> Rabs (kappa * psi) <= 500 ->
  quad_exact quad (fun x => jp_kernel kappa psi (x - xi)) (- PI) PI -> Rabs lam < 1 ->
  let f := ss_pdf iv lpmv quad xi kappa psi lam in let g := jp_pdf iv lpmv quad xi kappa psi in
  (forall x, 0 < f x <= (1 + Rabs lam) * g x) /\
  exists r, ss_rvs xi lam base = Ok r /\
    match r with
    | Some p => exists pre u post, base = pre ++ (p, u) :: post /\ u * ((1 + Rabs lam) * g p) <= f p /\ forall p' u', In (p', u') pre -> f p' < u' * ((1 + Rabs lam) * g p')
    | None => forall p u, In (p, u) base -> f p < u * ((1 + Rabs lam) * g p)
    end.
Proof.
  intros Hi Hl Hok Hkp HQ Hlam f g. pose proof (proj1 (ss_ok_spec _ _ _ _) Hok) as (Hx & Hk & _). pose proof PI_gt3 as P3.
  assert (G : forall x, 0 < g x).
  { intros x. unfold g. destruct (Rle_lt_dec jp_ktol kappa) as [K|K].
    - rewrite jp_pdf_kernel by exact K. destruct (jp_c_mass iv lpmv quad xi kappa psi Hi Hl Hx K Hkp HQ) as (M & M0 & _ & ->).
      apply Rmult_lt_0_compat; [apply Rdiv_lt_0_compat; lra|apply jp_kernel_pos].
    - rewrite jp_pdf_flat by lra. apply Rdiv_lt_0_compat; lra. }
  assert (FG : forall x, f x = g x * (1 + lam * sin (x - xi))) by (intros x; apply ss_vs_jp; exact Hk).
  assert (B : forall x, 0 < 1 + lam * sin (x - xi) <= 1 + Rabs lam).
  { intros x. pose proof (SIN_bound (x - xi)) as S. assert (T : Rabs (lam * sin (x - xi)) <= Rabs lam).
    { rewrite Rabs_mult. rewrite <- (Rmult_1_r (Rabs lam)) at 2. apply Rmult_le_compat_l; [apply Rabs_pos|]. apply Rabs_le. lra. }
    apply abs_le_inv in T. lra. }
  split.
  - intros x. rewrite FG. pose proof (G x) as Gx. pose proof (B x) as Bx. split; [apply Rmult_lt_0_compat; lra|]. nra.
  - unfold ss_rvs. rewrite (proj2 (Rleb_false _ _)) by lra. eexists. split; [reflexivity|].
    destruct (ss_draw (pymod xi (2 * PI)) lam base) as [p|] eqn:E.
    + destruct (ss_draw_spec _ _ _ _ E) as (pre & u & post & E1 & E2 & E3). exists pre, u, post. split; [exact E1|]. rewrite sin_xi in E2 by exact Hx. split.
      * rewrite FG. pose proof (G p). nra.
      * intros p' u' I. pose proof (E3 p' u' I) as K. rewrite sin_xi in K by exact Hx. rewrite FG. pose proof (G p'). nra.
    + intros p u I. pose proof (ss_draw_none _ _ _ E p u I) as K. rewrite sin_xi in K by exact Hx. rewrite FG. pose proof (G p). nra.
Qed.

(** ** The moment fit *)
Lemma fl_best_le (nll : R -> fl) : forall l b0 psi v, (psi = 0 /\ b0 = nll 0) \/ In psi l -> nll psi = Fin v ->
  (forall x, nll x <> NaN /\ nll x <> NInf) -> b0 <> NaN -> b0 <> NInf ->
  exists w, fold_left (fun best psi => if fl_lt (nll psi) best then nll psi else best) l b0 = Fin w /\ w <= v.
Proof.
  assert (Keep : forall l b0 w, (forall x, nll x <> NaN /\ nll x <> NInf) -> b0 = Fin w ->
    exists w', fold_left (fun best psi => if fl_lt (nll psi) best then nll psi else best) l b0 = Fin w' /\ w' <= w).
  { induction l as [|a l IH]; intros b0 w HN E; simpl; [exists w; split; [exact E|lra]|]. rewrite E. destruct (HN a) as [N1 N2]. destruct (nll a) as [x| | |] eqn:A; try contradiction; simpl.
    - destruct (Rltb_spec x w).
      + destruct (IH (Fin x) x HN eq_refl) as (w' & E' & L'). exists w'. split; [exact E'|lra].
      + apply IH; [exact HN|reflexivity].
    - apply IH; [exact HN|reflexivity]. }
  induction l as [|a l IH]; intros b0 psi v [(E1 & E2)|I] Hv HN B1 B2; try contradiction.
  - simpl. exists v. subst psi. split; [congruence|lra].
  - apply Keep; [exact HN|]. congruence.
  - simpl. destruct I as [<-|I].
    + rewrite Hv. destruct b0 as [b| | |]; try contradiction; simpl.
      * destruct (Rltb_spec v b); [apply Keep; [exact HN|reflexivity]|]. destruct (Keep l (Fin b) b HN eq_refl) as (w & E & L). exists w. split; [exact E|lra].
      * apply Keep; [exact HN|reflexivity].
    + apply (IH _ psi v); [right; exact I|exact Hv|exact HN| |]; destruct (fl_lt (nll a) b0); try apply HN; assumption.
Qed.
Lemma jp_nll_val pdf s mu kappa psi : jp_nll pdf s mu kappa psi <> NaN /\ jp_nll pdf s mu kappa psi <> NInf.
Proof. unfold jp_nll. destruct (negb _); [split; discriminate|]. destruct (negb _); [split; discriminate|]. cbv zeta. destruct (existsb _ _); split; discriminate. Qed.
Lemma jp_best_le pdf s mu kappa psi v : In psi [-4; -3; -2; -1; 0; 1; 2; 3; 4] -> jp_nll pdf s mu kappa psi = Fin v ->
  exists w, jp_best (jp_nll pdf s mu kappa) = Fin w /\ w <= v.
Proof. intros I E. apply (fl_best_le _ _ _ psi); [right; exact I|exact E|intros x; apply jp_nll_val|apply jp_nll_val|apply jp_nll_val]. Qed.
Lemma jp_nll_fin pdf (s : list (R * R)) mu kappa psi : / 10 ^ 6 <= kappa <= 10 ^ 3 -> -4 <= psi <= 4 -> 0 <= mu < 2 * PI -> (forall d, In d s -> 0 < pdf mu kappa psi (fst d)) ->
  jp_nll pdf s mu kappa psi = Fin (- Rsum (map (fun d => snd d * ln (pdf mu kappa psi (fst d))) s)).
Proof.
  intros Hk Hp Hm Hd. pose proof PI_gt3. unfold jp_nll. rewrite !(proj2 (Rleb_true _ _)) by lra. simpl negb. cbv iota zeta. rewrite pymod_small by lra.
  replace (existsb _ s) with false; [reflexivity|]. symmetry. rewrite <- Bool.not_true_iff_false, existsb_exists. intros (d & I & E). apply Rleb_true in E. pose proof (Hd d I). lra.
Qed.
Lemma jp_pdf_dir iv lpmv quad mu kappa psi x y : same_dir x y -> jp_pdf iv lpmv quad mu kappa psi x = jp_pdf iv lpmv quad mu kappa psi y.
Proof. intros [z ->]. apply jp_pdf_turns. Qed.
Lemma von_member_pos iv lpmv quad mu kappa x : is_iv iv -> 0 < kappa -> 0 < jp_pdf iv lpmv quad mu kappa 0 x.
Proof.
  intros Hi Hk. pose proof PI_gt3. destruct (Rle_lt_dec jp_ktol kappa) as [K|K]; [|rewrite jp_pdf_flat by lra; apply Rdiv_lt_0_compat; lra].
  rewrite jp_pdf_kernel by exact K. apply Rmult_lt_0_compat; [|apply jp_kernel_pos]. unfold jp_c. rewrite (proj2 (Rltb_false _ _)) by lra.
  rewrite Rabs_R0, (proj2 (Rltb_true _ _)) by (unfold jp_ptol; lra). apply Rdiv_lt_0_compat; [lra|]. pose proof (i0_ge1 iv kappa Hi). nra.
Qed.
Lemma wrapped_sample s : let s' := map (fun p : R * R => (wrap_angles (fst p), snd p)) s in same_dirs s' s /\ wtotal s' = wtotal s.
Proof.
  cbv zeta. split.
  - induction s as [|p s IH]; [constructor|]. simpl. constructor; [split; [apply wrap_same|reflexivity]|exact IH].
  - unfold wtotal. rewrite map_map. reflexivity.
Qed.
Lemma jp_fit_spec iv lpmv quad s mu kappa psi ll : is_iv iv -> jp_fit_moments (jp_pdf iv lpmv quad) s = Ok (mu, kappa, psi, ll) ->
  let C := Rsum (map (fun d => snd d * cos (fst d)) s) in let S := Rsum (map (fun d => snd d * sin (fst d)) s) in
  psi = 0 /\ 0 <= mu < 2 * PI /\ / 10 ^ 6 <= kappa <= 10 ^ 3 /\
  (/ 10 ^ 12 * Rsum (map snd s) < sqrt (C * C + S * S) -> C = sqrt (C * C + S * S) * cos mu /\ S = sqrt (C * C + S * S) * sin mu) /\
  exists w, ll = Fin w /\ Rsum (map (fun d => snd d * ln (jp_pdf iv lpmv quad mu kappa 0 (fst d))) s) <= w.
Proof.
  intros Hi. pose proof PI_gt3 as P3. unfold jp_fit_moments. destruct s as [|d0 s0]; [discriminate|]. set (s := d0 :: s0).
  destruct (existsb (fun p => Rltb (snd p) 0) s) eqn:Ew; [discriminate|]. destruct (Rleb_spec (wtotal s) 0) as [W|W]; [discriminate|].
  destruct (wrapped_sample s) as [SD WT]. set (s' := map (fun p => (wrap_angles (fst p), snd p)) s) in *.
  destruct (circ_mean_and_r_s s') as [m r] eqn:Em. destruct (circ_kappa _ _) as [k|] eqn:Ek; [|discriminate]. cbv beta iota delta [bind]. intros E. injection E as E1 E2 E3 E4.
  set (m0 := pymod (match m with Fin v => v | _ => 0 end) (2 * PI)) in *.
  assert (M0 : 0 <= m0 < 2 * PI) by (apply pymod_range; lra).
  assert (Emu : mu = m0) by (rewrite <- E1; unfold wrap_direction; apply wrap_in; lra). rewrite E2 in *.
  assert (Hk : / 10 ^ 6 <= kappa <= 10 ^ 3) by (rewrite <- E2; apply clip_range; lra).
  cbv zeta. split; [symmetry; exact E3|]. split; [rewrite Emu; exact M0|]. split; [exact Hk|]. split.
  - change (Rsum (map (fun d => snd d * cos (fst d)) s)) with (Csum s). change (Rsum (map (fun d => snd d * sin (fst d)) s)) with (Ssum s).
    change (Rsum (map snd s)) with (wtotal s). change (sqrt (Csum s * Csum s + Ssum s * Ssum s)) with (Rlen s). intros Hr.
    assert (W0 : 0 < wtotal s) by lra. assert (W0' : 0 < wtotal s') by lra.
    destruct (compute_dirs s' s SD) as (EC' & ES' & _).
    assert (EL : Rlen s' = Rlen s) by (unfold Rlen; rewrite EC', ES'; reflexivity).
    assert (R1 : / 1000000000000 < circ_r_s s').
    { rewrite circ_r_s_eq, EL, WT by exact W0'. apply Rmult_lt_reg_r with (wtotal s); [exact W0|]. unfold Rdiv. rewrite Rmult_assoc, Rinv_l by lra. lra. }
    destruct (circ_mean_and_r_s_cases s') as [[B _]|[_ B]]; [lra|]. rewrite Em in B. injection B as -> ->.
    destruct (mean_dir_polar s' W0' ltac:(lra)) as (A1 & A2 & _). rewrite EC', EL in A1. rewrite ES', EL in A2.
    assert (Em0 : m0 = mean_dir s') by (apply pymod_small; apply mean_dir_range). rewrite Emu, Em0. split; assumption.
  - assert (K0 : 0 < kappa) by (pose proof (Rinv_0_lt_compat (10 ^ 6) ltac:(lra)); lra).
    pose proof (jp_nll_fin (jp_pdf iv lpmv quad) s' m0 kappa 0 Hk ltac:(lra) M0 (fun d _ => von_member_pos iv lpmv quad m0 kappa (fst d) Hi K0)) as N.
    destruct (jp_best_le _ _ _ _ 0 _ ltac:(simpl; tauto) N) as (w & Ew' & Lw). rewrite Ew' in E4. exists (- w). split; [symmetry; exact E4|].
    rewrite Emu. assert (ES : Rsum (map (fun d => snd d * ln (jp_pdf iv lpmv quad m0 kappa 0 (fst d))) s') = Rsum (map (fun d => snd d * ln (jp_pdf iv lpmv quad m0 kappa 0 (fst d))) s)).
    { unfold s'. rewrite map_map. apply Rsum_ext_map. intros d _. cbn [fst snd]. rewrite (jp_pdf_dir _ _ _ _ _ _ _ (fst d) (wrap_same (fst d))). reflexivity. }
    lra.
Qed.
Lemma i0_gt1 iv k : is_iv iv -> 0 < k -> 1 < iv 0%nat k.
Proof.
  intros H Hk. pose proof PI_gt3 as P. destruct (Rle_lt_or_eq_dec 1 (iv 0%nat k) (i0_ge1 iv k H)) as [L|E]; [exact L|exfalso].
  pose proof (i0_int iv k H) as I. rewrite <- E in I.
  assert (J : integral (fun t => 1 + k * cos t) 0 (2 * PI) (2 * PI)).
  { apply (integral_val _ _ _ ((2 * PI + k * sin (2 * PI)) - (0 + k * sin 0))); [rewrite sin_2PI, sin_0; ring|].
    apply (ftc _ (fun t => t + k * sin t)); [lra| |].
    - intros t _. apply cont_plus; [apply cont_const|]. apply cont_mult; [apply cont_const|apply cos_cont].
    - intros t _. apply derivable_pt_lim_plus; [apply derivable_pt_lim_id|]. apply derivable_pt_lim_scal. apply derivable_pt_lim_sin. }
  assert (D : integral (fun t => vE k t - (1 + k * cos t)) 0 (2 * PI) 0).
  { pose proof (integral_lin (vE k) (fun t => 1 + k * cos t) 0 (2 * PI) (- (1)) _ _ I J) as K.
    apply (integral_val _ _ _ (2 * PI * 1 + - (1) * (2 * PI))); [ring|]. refine (integral_ext _ _ _ _ _ _ _ K); [lra|]. intros t _. ring. }
  assert (Z : vE k 1 - (1 + k * cos 1) = 0).
  { apply (zero_integral (fun t => vE k t - (1 + k * cos t)) 0 (2 * PI)); [lra| | |exact D|lra].
    - intros t _. apply continuity_pt_minus.
      + unfold vE. apply (cont_comp exp (fun t => k * cos t)); [|apply exp_cont]. apply cont_mult; [apply cont_const|apply cos_cont].
      + apply cont_plus; [apply cont_const|]. apply cont_mult; [apply cont_const|apply cos_cont].
    - intros t _. unfold vE. pose proof (exp_ge1 (k * cos t)). lra. }
  unfold vE in Z. assert (C1 : 0 < cos 1) by (apply cos_gt_0; lra). pose proof (exp_ineq1 (k * cos 1) ltac:(nra)). lra.
Qed.
Definition jp_two : wsample := [(0, 15); (PI, 5)].
Lemma rint_20 : rint 20 = 20%Z.
Proof.
  pose proof (rint_near 20) as N. assert (A : (rint 20 < 21)%Z) by (apply lt_IZR; lra). assert (B : (19 < rint 20)%Z) by (apply lt_IZR; lra). lia.
Qed.
Lemma jp_two_fit pdf : exists ll, jp_fit_moments pdf jp_two = Ok (0, 221 / 192, 0, ll) /\
  ll = match jp_best (jp_nll pdf jp_two 0 (221 / 192)) with Fin v => Fin (- v) | _ => NInf end.
Proof.
  pose proof PI_gt3 as P3. eexists. split; [|reflexivity]. unfold jp_fit_moments, jp_two.
  replace (existsb _ _) with false by (simpl; rewrite !(proj2 (Rltb_false _ _)) by lra; reflexivity).
  replace (wtotal [(0, 15); (PI, 5)]) with 20 by (unfold wtotal; simpl; ring). rewrite (proj2 (Rleb_false 20 0)) by lra.
  replace (map (fun p => (wrap_angles (fst p), snd p)) [(0, 15); (PI, 5)]) with [(0, 15); (PI, 5)] by (simpl; rewrite !wrap_in by lra; reflexivity).
  set (s := [(0, 15); (PI, 5)]) in *.
  assert (EW : wtotal s = 20) by (unfold s, wtotal; simpl; ring).
  assert (EC : Csum s = 10) by (unfold s, Csum; simpl; rewrite cos_0, cos_PI; ring). assert (ES : Ssum s = 0) by (unfold s, Ssum; simpl; rewrite sin_0, sin_PI; ring).
  assert (EL : Rlen s = 10) by (unfold Rlen; rewrite EC, ES; replace (10 * 10 + 0 * 0) with (10 * 10) by ring; apply sqrt_square; lra).
  assert (ER : circ_r_s s = 1 / 2) by (rewrite circ_r_s_eq, EL, EW by lra; field).
  destruct (circ_mean_and_r_s_cases s) as [[B _]|[_ ->]]; [lra|]. rewrite ER.
  assert (EM : mean_dir s = 0).
  { pose proof (mean_dir_unique s 0 ltac:(lra) ltac:(lra)) as U. rewrite EC, ES, EL, cos_0, sin_0 in U. destruct (U ltac:(ring) ltac:(ring)) as [z Hz].
    pose proof (mean_dir_range s) as Rg. assert (z = 0%Z).
    { assert ((z < 1)%Z) by (apply lt_IZR; apply Rmult_lt_reg_l with (2 * PI); lra). assert ((-1 < z)%Z) by (apply lt_IZR; apply Rmult_lt_reg_l with (2 * PI); lra). lia. }
    subst z. rewrite Hz. simpl. ring. }
  rewrite EM. rewrite (pymod_small 0) by lra. rewrite (clip_in (1 / 2)) by lra. rewrite EW, rint_20. change (Z.max 1 20) with 20%Z.
  unfold circ_kappa. cbv zeta. rewrite (proj2 (Rleb_false 20 15)) by lra. simpl andb. cbv iota. unfold kappa0. rewrite (proj2 (Rltb_true (1 / 2) _)) by lra. cbv beta iota delta [bind].
  replace (2 * (1 / 2) + (1 / 2) ^ 3 + 5 * (1 / 2) ^ 5 / 6) with (221 / 192) by field. rewrite (clip_in (221 / 192)) by lra.
  unfold wrap_direction. rewrite wrap_in by lra. reflexivity.
Qed.
Lemma jp_two_better iv lpmv quad : is_iv iv -> is_lpmv lpmv -> quad_exact quad (fun x => jp_kernel (221 / 192) (- 1) (x - 0)) (- PI) PI ->
  exists w, jp_fit_moments (jp_pdf iv lpmv quad) jp_two = Ok (0, 221 / 192, 0, Fin w) /\
    Rsum (map (fun d => snd d * ln (jp_pdf iv lpmv quad 0 (221 / 192) 0 (fst d))) jp_two) < w.
Proof.
  intros Hi Hl HQ. pose proof PI_gt3 as P3. set (k := 221 / 192) in *. assert (K : 1 < k < 2) by (unfold k; lra).
  destruct (jp_two_fit (jp_pdf iv lpmv quad)) as (ll & E & L). fold k in E, L.
  assert (Hok : jp_ok 0 k (- 1) = true) by (apply jp_ok_spec; lra).
  destruct (jp_c_mass iv lpmv quad 0 k (- 1) Hi Hl ltac:(lra) ltac:(unfold jp_ktol; lra)) as (M & M0 & MI & Ec); [rewrite Rabs_left by lra; lra|exact HQ|].
  rewrite (integral_unique _ _ _ _ _ MI (mass_mone k ltac:(lra))) in Ec.
  assert (P0 : jp_pdf iv lpmv quad 0 k (- 1) 0 = 1 / (2 * PI) * exp k /\ jp_pdf iv lpmv quad 0 k (- 1) PI = 1 / (2 * PI) * exp (- k)).
  { rewrite !jp_pdf_kernel by (unfold jp_ktol; lra). rewrite Ec. rewrite !Rminus_0_r. destruct (jp_kernel_mone k 0 ltac:(lra)) as [E0 _]. destruct (jp_kernel_mone k PI ltac:(lra)) as [E1 _].
    rewrite E0, E1, cos_0, cos_PI. replace (cosh k - sinh k * 1) with (exp (- k)) by (rewrite <- cosh_sinh_m; ring).
    replace (cosh k - sinh k * -1) with (exp k) by (rewrite <- cosh_sinh_p; ring). rewrite !exp_Ropp, Rinv_inv. split; reflexivity. }
  destruct P0 as [Pa Pb]. assert (PP : 0 < 1 / (2 * PI)) by (apply Rdiv_lt_0_compat; lra).
  assert (N : jp_nll (jp_pdf iv lpmv quad) jp_two 0 k (- 1) = Fin (- (10 * k + 20 * ln (1 / (2 * PI))))).
  { rewrite jp_nll_fin; [| |lra|lra|].
    - f_equal. f_equal. unfold jp_two. simpl. rewrite Pa, Pb. rewrite !ln_mult, !ln_exp by (try exact PP; apply exp_pos). ring.
    - pose proof (Rinv_lt_contravar 1 (10 ^ 6)). split; [|lra]. apply Rle_trans with (/ 1); [apply Rinv_le_contravar; lra|lra].
    - intros d [<-|[<-|[]]]; cbn [fst]; [rewrite Pa|rewrite Pb]; apply Rmult_lt_0_compat; try exact PP; apply exp_pos. }
  destruct (jp_best_le _ _ _ _ (- 1) _ ltac:(simpl; tauto) N) as (w & Ew & Lw). rewrite Ew in L. exists (- w). rewrite E, L. split; [reflexivity|].
  assert (C0 : forall x, jp_pdf iv lpmv quad 0 k 0 x = 1 / (2 * PI) * / iv 0%nat k * exp (k * cos x)).
  { intros x. rewrite jp_pdf_kernel by (unfold jp_ktol; lra). unfold jp_c, jp_kernel. rewrite (proj2 (Rltb_false k _)) by (unfold jp_ktol; lra).
    rewrite !Rabs_R0, !(proj2 (Rltb_true 0 _)) by (unfold jp_ptol; lra). rewrite Rminus_0_r. pose proof (i0_ge1 iv k Hi). field. lra. }
  pose proof (i0_gt1 iv k Hi ltac:(lra)) as G. assert (GI : 0 < / iv 0%nat k) by (apply Rinv_0_lt_compat; lra).
  unfold jp_two. simpl. rewrite !C0, cos_0, cos_PI. rewrite !ln_mult, !ln_exp by (try apply exp_pos; try (apply Rmult_lt_0_compat; assumption); assumption).
  rewrite ln_Rinv by lra. assert (LG : 0 < ln (iv 0%nat k)) by (rewrite <- ln_1; apply ln_increasing; lra). lra.
Qed.
