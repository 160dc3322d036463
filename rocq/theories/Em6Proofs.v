From Verif Require Import Prelude NpModel NpProofs CircleSpec UtilsModel UtilsProofs DescModel Desc2Model DescProofs
  DescSpec DescApi DescApi2 HypProofs HypMultiModel HypMulti2Model HypMultiSpec HypMultiProofs HypMulti7Proofs
  CorrSpec CorrProofs Corr2Proofs Corr4Proofs Corr6Proofs ClusModel ClusSpec ClusProofs Clus2Proofs Clus3Proofs Clus4Proofs EmModel EmSpec EmProofs Em2Proofs Em3Proofs Em4Proofs Em5Proofs.

(** * The Kato-Jones density on its parameter space *)
Lemma cs_dot a b c d : (a * c + b * d) ^ 2 <= (a ^ 2 + b ^ 2) * (c ^ 2 + d ^ 2).
Proof. pose proof (pow2_ge_0 (a * d - b * c)). nra. Qed.
Lemma denom_low rho t : 0 <= rho -> (1 - rho) ^ 2 <= 1 + rho ^ 2 - 2 * rho * cos t.
Proof. intros H. pose proof (COS_bound t). nra. Qed.
Lemma kj_density_nonneg mu gamma rho lam x : kj_space mu gamma rho lam -> 0 <= kj_density (mu, gamma, rho, lam) x.
Proof.
  intros (_ & G & Rh & _ & C). unfold kj_density. pose proof PI_RGT_0. set (d := x - mu).
  pose proof (denom_low rho (d - lam) ltac:(lra)) as DL. assert (0 < (1 - rho) ^ 2) by (apply pow_lt; lra).
  set (D := 1 + rho ^ 2 - 2 * rho * cos (d - lam)) in *. apply Rmult_le_pos; [|apply Rlt_le, Rinv_0_lt_compat; lra].
  replace (1 + 2 * gamma * (cos d - rho * cos lam) / D) with ((D + 2 * gamma * (cos d - rho * cos lam)) / D) by (field; lra).
  apply Rmult_le_pos; [|apply Rlt_le, Rinv_0_lt_compat; lra]. unfold D. rewrite cos_minus.
  set (u := rho * cos lam - gamma) in *. set (v := rho * sin lam) in *.
  pose proof (cs_dot (cos d) (sin d) u v) as CS. pose proof (sin2_cos2 d) as S1. unfold Rsqr in S1. pose proof (sin2_cos2 lam) as S2. unfold Rsqr in S2.
  replace (cos d ^ 2 + sin d ^ 2) with 1 in CS by nra. rewrite Rmult_1_l in CS.
  assert (B : cos d * u + sin d * v <= sqrt (u ^ 2 + v ^ 2)).
  { apply Rle_trans with (Rabs (cos d * u + sin d * v)); [apply Rle_abs|]. rewrite <- sqrt_Rsqr_abs. apply sqrt_le_1_alt. unfold Rsqr. nra. }
  set (m := sqrt (u ^ 2 + v ^ 2)) in *. assert (M2 : m ^ 2 = u ^ 2 + v ^ 2) by (unfold m; apply pow2_sqrt; nra).
  assert (M0 : 0 <= m) by apply sqrt_pos. assert (M1 : m <= 1 - gamma) by nra.
  assert (E : 1 + rho ^ 2 - 2 * rho * (cos d * cos lam + sin d * sin lam) + 2 * gamma * (cos d - rho * cos lam) =
              1 - 2 * (cos d * u + sin d * v) + (u ^ 2 + v ^ 2) - gamma ^ 2 + rho ^ 2 * (1 - (sin lam * sin lam + cos lam * cos lam))).
  { unfold u, v. ring. }
  rewrite E, S2. assert (gamma <= 1 - m) by lra. nra.
Qed.
Definition quad_of (c : kj) : quad := (kj_mu c, kj_gamma c, kj_rho c, kj_lam c).
Definition fine (c : kj) : Prop := in_space (quad_of c) /\ kj_rho c <= 1 - rho_margin.
Lemma kj_pdf_density c x : fine c -> kj_pdf c x = kj_density (quad_of c) x.
Proof.
  intros [Sp Hr]. pose proof Sp as (_ & _ & Rh & _). unfold kj_pdf. pose proof (denom_low (kj_rho c) (x - kj_mu c - kj_lam c) ltac:(lra)) as DL.
  assert (D2 : / 10 ^ 15 <= (1 - kj_rho c) ^ 2). { unfold rho_margin in Hr. assert (5 / 10 ^ 4 <= 1 - kj_rho c) by lra. apply Rle_trans with ((5 / 10 ^ 4) ^ 2); [lra|]. apply pow_incr. lra. }
  rewrite (Rmax_left (1 + _ - _)) by lra. rewrite Rmax_left; [reflexivity|]. apply (kj_density_nonneg _ _ _ _ x Sp).
Qed.
Lemma fine_log tiny c : 0 < tiny -> fine c -> log_of (kj_ld tiny) (fun c => kj_dens tiny (quad_of c)) c.
Proof.
  intros Ht F x. unfold kj_ld, kj_dens. rewrite (space_argcheck c (proj1 F)), (kj_pdf_density c x F). split; [|reflexivity].
  pose proof (Rmax_r (kj_density (quad_of c) x) tiny). lra.
Qed.
Lemma regularise_fine q : fine (regularise q).
Proof. destruct (regularise_space q) as (A & _ & C). split; auto. Qed.

(** * MoKJ *)
Lemma kj_update_spec moments mle min_w alpha c w new : kj_update moments mle min_w alpha c (map Fin w) = Ok new ->
  kj_refit regularise degenerate moments mle min_w alpha w c new /\ fine new.
Proof.
  unfold kj_update. destruct (moments alpha (map Fin w)) as [m0|] eqn:Em; [|discriminate]. cbn [bind]. rewrite fsum_fin.
  destruct (Rleb_spec (Rsum w) (min_w * INR (length alpha))) as [Z|Z].
  - intros H. injection H as <-. split; [|apply regularise_fine]. exists m0. split; [exact Em|]. left. split; [exact Z|reflexivity].
  - intros H. injection H as <-. apply Rnot_le_lt in Z.
    destruct (mle alpha (map Fin w) (regularise c)) as [e1|x1] eqn:E1; [destruct (degenerate (regularise e1)) eqn:D1|].
    2:{ split; [|apply regularise_fine]. exists m0. split; [exact Em|]. right. split; [exact Z|]. left. exists e1. auto. }
    all: destruct (mle alpha (map Fin w) (regularise m0)) as [e2|x2] eqn:E2; [destruct (degenerate (regularise e2)) eqn:D2|];
      (split; [|apply regularise_fine]); exists m0; (split; [exact Em|]); right; (split; [exact Z|]); right;
      (split; [intros e He; congruence|]).
    all: first [right; split; [intros e He; congruence|reflexivity]|left; exists e2; auto].
Qed.
Definition inv_kj (K : nat) (s : list fl * list kj) : Prop :=
  length (fst s) = K /\ length (snd s) = K /\ shares (fst s) /\ Forall fine (snd s).
Lemma terms_quad tiny ws cs x : terms (fun c => kj_dens tiny (quad_of c)) ws cs x = terms (kj_dens tiny) ws (map quad_of cs) x.
Proof. unfold terms. revert ws. induction cs as [|c cs IH]; intros [|w ws]; cbn [combine map]; auto. now rewrite IH. Qed.
Lemma posterior_quad tiny ws cs alpha G : posterior (fun c => kj_dens tiny (quad_of c)) ws cs alpha G <-> posterior (kj_dens tiny) ws (map quad_of cs) alpha G.
Proof.
  unfold posterior. split; intros H; induction H as [|x g alpha G E H IH]; constructor; auto; [rewrite <- terms_quad|rewrite terms_quad]; exact E.
Qed.
Lemma loglik_quad tiny ws cs alpha : neg_loglik (fun c => kj_dens tiny (quad_of c)) ws cs alpha = neg_loglik (kj_dens tiny) ws (map quad_of cs) alpha.
Proof. unfold neg_loglik. f_equal. apply Rsum_map_ext. intros x _. now rewrite terms_quad. Qed.
Lemma wt300_pos q : 0 < wt300 q.
Proof. unfold wt300. pose proof (Rmax_r q (/ 10 ^ 300)). assert (0 < / 10 ^ 300) by (apply Rinv_0_lt_compat, pow_lt; lra). lra. Qed.
Lemma floored_ok G K min_w : 0 < min_w -> (1 <= K)%nat -> Forall (fun g => length g = K) G ->
  exists qs, normalised (map (flmap (fun x => Rmax x min_w)) (row_sums K (map (map Fin) G))) = map Fin qs /\ length qs = K /\
    floored_weights min_w G K qs /\ Forall (fun q => 0 < q) qs /\ Rsum qs = 1.
Proof.
  intros Hm HK F. rewrite row_sums_fin by auto. rewrite !map_map. cbn [flmap].
  set (T := map (fun c => Rmax (Rsum (of_comp G c)) min_w) (seq 0 K)).
  replace (map (fun x => Fin (Rmax (Rsum (of_comp G x)) min_w)) (seq 0 K)) with (map Fin T) by (unfold T; now rewrite map_map).
  assert (TP : Forall (fun t => 0 < t) T).
  { apply Forall_forall. intros t Ht. apply in_map_iff in Ht. destruct Ht as (c & <- & _). pose proof (Rmax_r (Rsum (of_comp G c)) min_w). lra. }
  assert (TN : T <> []) by (unfold T; intros Z; apply map_eq_nil in Z; destruct K; [lia|discriminate]).
  pose proof (pos_sum T TN TP) as TS. exists (map (fun t => t / Rsum T) T). split; [|split; [|split; [|split]]].
  - unfold normalised. rewrite fsum_fin, !map_map. apply map_ext. intros t. cbn [fdiv]. unfold np_div. destruct (Reqb_spec (Rsum T) 0); [lra|reflexivity].
  - rewrite map_length. unfold T. now rewrite map_length, seq_length.
  - unfold floored_weights. fold T. revert TS. generalize (Rsum T). intros s Hs. clear -Hs. induction T as [|t T IH]; cbn [map]; constructor; auto. field. lra.
  - apply Forall_forall. intros q Hq. apply in_map_iff in Hq. destruct Hq as (t & <- & Ht). apply Rdiv_lt_0_compat; auto. rewrite Forall_forall in TP. auto.
  - rewrite (Rsum_scale_inv (fun t => t)), map_id. field. lra.
Qed.
Lemma mokj_step_spec moments mle tiny min_w K alpha s s' v : 0 < tiny -> 0 < min_w -> alpha <> [] -> (1 <= K)%nat -> inv_kj K s ->
  mokj_step moments mle tiny min_w K alpha s = Ok (s', v) ->
  kj_pass quad_of regularise degenerate moments mle tiny min_w alpha s s' v /\ inv_kj K s'.
Proof.
  intros Ht Hm Na HK (L1 & L2 & Sp & F) E. destruct s as [p cs]. cbn [fst snd] in *. unfold mokj_step in E.
  destruct (rmap _ _) as [cs'|] eqn:ER in E; [|discriminate]. cbn [bind] in E. injection E as <- <-.
  assert (Nc : cs <> []) by (intros ->; cbn in L2; lia).
  destruct Sp as (ps & -> & Pp & _). rewrite map_length in L1.
  assert (LG : Forall (log_of (kj_ld tiny) (fun c => kj_dens tiny (quad_of c))) cs) by (eapply Forall_impl; [|exact F]; intros; now apply fine_log).
  destruct (gammas_bayes wt300 (kj_ld tiny) (fun c => kj_dens tiny (quad_of c)) ps cs alpha Nc ltac:(congruence) (fun q _ => wt300_pos q) LG) as (EG & PG & FG).
  rewrite EG in *. set (G := bayes_cols _ (map wt300 ps) cs alpha) in *. rewrite L2 in FG.
  assert (FGL : Forall (fun g => length g = K) G) by (eapply Forall_impl; [|exact FG]; cbn; tauto).
  assert (GLn : length G = length alpha) by (unfold G, bayes_cols; apply map_length).
  destruct (floored_ok G K min_w Hm HK FGL) as (qs & EW & Lq & FW & PW & SW). rewrite EW.
  pose proof (rmap_F2 _ _ _ ER) as RF. assert (Lc : length cs' = K). { pose proof (Corr2Proofs.F2_length _ _ _ RF) as Z. rewrite combine_length, seq_length in Z. lia. }
  assert (UP : forall c old new, nth_error cs c = Some old -> nth_error cs' c = Some new ->
     kj_refit regularise degenerate moments mle min_w alpha (of_comp G c) old new /\ fine new).
  { intros c old new Ho Hn. assert (Hc : (c < K)%nat) by (rewrite <- L2; apply nth_error_Some; congruence).
    assert (GE : forall k (l : list kj) ys, Forall2 (fun (x : nat * kj) y => kj_update moments mle min_w alpha (snd x) (row (map (map Fin) G) (fst x)) = Ok y) (combine (seq k (length l)) l) ys ->
       forall c old new, nth_error l c = Some old -> nth_error ys c = Some new -> kj_update moments mle min_w alpha old (row (map (map Fin) G) (k + c)) = Ok new).
    { clear. intros k l. revert k. induction l as [|x l IH]; intros k ys H c old new Ho Hn; [destruct c; discriminate|]. cbn [length seq combine] in H. inversion H as [|? ? ? ? E R]; subst.
      destruct c as [|c]; cbn in Ho, Hn.
      - injection Ho as ->. injection Hn as ->. rewrite Nat.add_0_r. exact E.
      - rewrite <- plus_n_Sm. apply (IH (S k) _ R c); auto. }
    pose proof (GE 0%nat cs cs' RF c old new Ho Hn) as U. cbn [plus] in U. rewrite (row_fin G K) in U by auto. now apply kj_update_spec. }
  assert (Fc : Forall fine cs').
  { apply Forall_forall. intros new Hn. apply In_nth_error in Hn. destruct Hn as [c Hn]. assert (Hc : (c < K)%nat) by (rewrite <- Lc; apply nth_error_Some; congruence).
    destruct (nth_error cs c) as [old|] eqn:Ho; [|apply nth_error_None in Ho; lia]. now apply (UP c old new). }
  split.
  - exists ps, qs, G. cbn [fst snd]. split; auto. split; auto. split; [apply posterior_quad; exact PG|]. split; [rewrite L2; exact FW|].
    split; auto. split; auto. split; [congruence|]. split; [intros; now apply UP|].
    assert (Nc' : cs' <> []) by (intros ->; cbn in Lc; lia).
    assert (LG' : Forall (log_of (kj_ld tiny) (fun c => kj_dens tiny (quad_of c))) cs') by (eapply Forall_impl; [|exact Fc]; intros; now apply fine_log).
    rewrite (nll_terms wt300 (kj_ld tiny) (fun c => kj_dens tiny (quad_of c)) qs cs' alpha Nc' ltac:(congruence) (fun q _ => wt300_pos q) LG'). now rewrite loglik_quad.
  - split; [|split; [|split]]; cbn [fst snd]; auto; [now rewrite map_length|]. exists qs. auto.
Qed.
(** ** Start and fit *)
Definition kj_begin (moments : list R -> list fl -> res kj) (K : nat) (alpha : list R) (labels : list nat) (s : list fl * list kj) : Prop :=
  (forall c, (c < K)%nat -> In c labels) /\ fst s = repeat (Fin (1 / INR K)) K /\ length (snd s) = K /\
  forall c new, nth_error (snd s) c = Some new -> exists e, moments (labelled alpha labels c) (map (fun _ => Fin 1) (labelled alpha labels c)) = Ok e /\ new = regularise e.
Lemma covers_spec K l : covers K l = true -> forall c, (c < K)%nat -> In c l.
Proof.
  intros B c Hc. unfold covers in B. rewrite forallb_forall in B.
  specialize (B c). rewrite in_seq in B. specialize (B ltac:(lia)). apply existsb_exists in B. destruct B as (x & Hx & E). apply Nat.eqb_eq in E. now subst.
Qed.
Lemma mokj_labels_spec K kseed cands alpha labels : mokj_labels K kseed cands alpha = Ok labels ->
  (forall c, (c < K)%nat -> In c labels) /\
  (In labels cands \/ exists k, km_fit Center true 360 K 100 (/ 1000000) kseed alpha = Ok k /\ labels = km_labels k).
Proof.
  unfold mokj_labels. destruct (km_fit _ _ _ _ _ _ _ _) as [k|] eqn:E; [destruct (covers K (km_labels k)) eqn:C|].
  - intros H. injection H as <-. split; [now apply covers_spec|right; eauto].
  - intros H. destruct (pick_spec _ _ _ H). auto.
  - intros H. destruct (pick_spec _ _ _ H). auto.
Qed.
Lemma seq_rmap {B} (f : nat -> res B) K ys : rmap f (seq 0 K) = Ok ys -> length ys = K /\ forall c y, nth_error ys c = Some y -> f c = Ok y.
Proof.
  intros H. apply rmap_F2 in H. split; [rewrite <- (Corr2Proofs.F2_length _ _ _ H); apply seq_length|].
  assert (G : forall l zs, Forall2 (fun x y => f x = Ok y) l zs -> forall c y, nth_error zs c = Some y -> exists x, nth_error l c = Some x /\ f x = Ok y).
  { induction 1 as [|x z l zs E R IH]; intros c y Hc; [destruct c; discriminate|]. destruct c as [|c]; cbn in *; [injection Hc as <-; eauto|]. eauto. }
  intros c y Hc. destruct (G _ _ H c y Hc) as (x & Hx & E). assert (c < K)%nat by (rewrite <- (seq_length K 0); apply nth_error_Some; congruence).
  apply nth_error_nth with (d := 0%nat) in Hx. rewrite seq_nth in Hx by auto. cbn in Hx. now subst.
Qed.
Lemma mokj_fit_spec moments mle tiny min_w cfg old kseed cands X m : 0 < tiny -> 0 < min_w -> cfg_ok cfg ->
  mokj_fit moments mle tiny min_w cfg old kseed cands X = Ok m ->
  let alpha := in_radians (c_radian cfg) (c_cycle cfg) X in
  exists labels start, 
    (In labels cands \/ exists k, km_fit Center true 360 (c_K cfg) 100 (/ 1000000) kseed alpha = Ok k /\ labels = km_labels k) /\
    kj_begin moments (c_K cfg) alpha labels start /\
    em_run (kj_pass quad_of regularise degenerate moments mle tiny min_w alpha) (c_burnin cfg) (c_threshold cfg) (c_iters cfg)
      start (mx_p m, mx_cs m) (mx_nll m) old (mx_flags m) /\
    length (mx_p m) = c_K cfg /\ length (mx_cs m) = c_K cfg /\ shares (mx_p m) /\ Forall (fun c => in_space (quad_of c)) (mx_cs m) /\
    responsibilities (kj_dens tiny) (fun q => Rmax q (/ 10 ^ 300)) (mx_p m) (map quad_of (mx_cs m)) alpha (mx_gamma m) (mx_labels m) /\
    mx_alpha m = alpha /\ mx_gamma m = gammas wt300 (kj_ld tiny) (mx_p m) (mx_cs m) alpha /\ Forall fine (mx_cs m).
Proof.
  intros Ht Hm (HK & HN & HT) E alpha. unfold mokj_fit in E. destruct X as [|x0 X0]; [discriminate|]. set (X := x0 :: X0) in *.
  rewrite to_rad_in in E. fold alpha in E. cbv zeta in E. destruct (Nat.ltb (length alpha) (c_K cfg)) eqn:EK; [discriminate|].
  destruct (mokj_labels _ _ _ _) as [labels|] eqn:EP; [|discriminate]. cbn [bind] in E.
  destruct (rmap _ _) as [cs0|] eqn:ER; [|discriminate]. cbn [bind] in E.
  destruct (em_loop _ _ _ _ _ _ _) as [[[[p cs] hist] cv]|] eqn:EL; [|discriminate]. cbn [bind] in E. injection E as <-.
  destruct (mokj_labels_spec _ _ _ _ _ EP) as [Pc Pi]. destruct (seq_rmap _ _ _ ER) as [L0 S0].
  assert (S1 : forall c new, nth_error cs0 c = Some new -> exists e, moments (labelled alpha labels c) (map (fun _ => Fin 1) (labelled alpha labels c)) = Ok e /\ new = regularise e).
  { intros c new Hc. apply S0 in Hc. change (subset alpha labels c) with (labelled alpha labels c) in Hc. destruct (moments _ _) as [e|]; [|discriminate].
    cbn [bind] in Hc. injection Hc as <-. eauto. }
  assert (VI : inv_kj (c_K cfg) (even_weights (c_K cfg), cs0)).
  { split; [apply repeat_length|]. split; auto. split; [now apply even_shares|]. apply Forall_forall. intros c Hc. apply In_nth_error in Hc. destruct Hc as [i Hi].
    destruct (S1 i c Hi) as (e & _ & ->). apply regularise_fine. }
  apply em_loop_ok in EL; [|reflexivity|intros j [_ (u & v & H & _)]; destruct (j - 1)%nat; discriminate].
  destruct EL as (more & -> & PS & SR). cbn [app] in *.
  assert (Na : alpha <> []) by (intros Z; pose proof (in_radians_length (c_radian cfg) (c_cycle cfg) X) as Z'; fold alpha in Z'; rewrite Z in Z'; discriminate).
  destruct (passes_map _ (kj_pass quad_of regularise degenerate moments mle tiny min_w alpha) (fun s => s) (inv_kj (c_K cfg)) _ _ _
    (fun s s' v => mokj_step_spec moments mle tiny min_w (c_K cfg) alpha s s' v Ht Hm Na HK) PS VI) as [PS' (I1 & I2 & I3 & I4)].
  exists labels, (even_weights (c_K cfg), cs0). split; auto. split; [split; auto|]. cbn [finish mx_p mx_cs mx_nll mx_flags mx_gamma mx_labels mx_alpha].
  cbn [fst snd] in *. split; [exists more, cv; split; [exact PS'|split; [exact SR|split; [apply drop_nan_spec|reflexivity]]]|].
  split; auto. split; auto. split; auto. split; [eapply Forall_impl; [|exact I4]; intros c [Hc _]; exact Hc|].
  split; [|split; [auto|split; [reflexivity|exact I4]]].
  destruct I3 as (ps & Ep & Pp & _). rewrite Ep. assert (Lp : length ps = length cs) by (rewrite Ep, map_length in I1; congruence).
  assert (Nc : cs <> []) by (intros Z; rewrite Z in I2; cbn in I2; lia).
  assert (LG : Forall (log_of (kj_ld tiny) (fun c => kj_dens tiny (quad_of c))) cs) by (eapply Forall_impl; [|exact I4]; intros; now apply fine_log).
  destruct (resp_ok wt300 (kj_ld tiny) (fun c => kj_dens tiny (quad_of c)) ps cs alpha Nc Lp (fun q _ => wt300_pos q) LG) as (ps' & G & E1 & E2 & PG & FG & LG2).
  exists ps', G. split; auto. split; auto. split; [now apply posterior_quad|]. split; auto. rewrite map_length. exact FG.
Qed.
