From Verif Require Import Prelude NpModel NpProofs CircleSpec UtilsModel UtilsProofs DescModel Desc2Model DescProofs
  DescSpec DescApi DescApi2 HypProofs HypMultiModel HypMulti2Model HypMultiSpec HypMultiProofs HypMulti7Proofs
  CorrSpec CorrProofs Corr2Proofs Corr4Proofs Corr6Proofs ClusModel ClusSpec ClusProofs Clus2Proofs Clus3Proofs Clus4Proofs Clus8Proofs
  EmModel EmSpec EmProofs Em2Proofs Em3Proofs Em4Proofs Em5Proofs Em6Proofs Em7Proofs Em8Proofs Em9Proofs.

(** * BIC *)
Lemma movm_bic_spec I0 cfg old cands X m : (forall x, 0 < I0 x) -> cfg_ok cfg -> Forall (fun l => length l = length X) cands ->
  movm_fit I0 cfg old cands X = Ok m ->
  forall ps cs, mx_p m = map Fin ps -> map pars (mx_cs m) = map (fun c => (Fin (fst c), Fin (snd c))) cs ->
  movm_bic I0 (c_K cfg) (Some m) = Ok (Fin (bic_value (neg_loglik (fun c x => vm_density I0 (fst c) (snd c) x) (map (fun q => q + / 10 ^ 32) ps) cs
    (in_radians (c_radian cfg) (c_cycle cfg) X)) (length X) (2 * c_K cfg + (c_K cfg - 1)))).
Proof.
  intros HI HC CL E ps cs Ep Ec. destruct (movm_fit_eq I0 cfg old cands X m HI HC CL E) as (labels & start & _ & _ & _ & (L1 & L2 & D) & Ea & _).
  cbn [fst snd] in *. assert (Nc : mx_cs m <> []) by (intros Z; rewrite Z in L2; cbn in L2; destruct HC; lia).
  assert (Fs : Forall sound (mx_cs m) /\ Forall (fun q => 0 < q) ps).
  { destruct D as [[(ps' & Ep' & Pp & _) F]|[U F]].
    - split.
      + apply Forall_forall. intros c Hc. rewrite Forall_forall in F. destruct (F c Hc) as [H|H]; auto. exfalso.
        assert (I : In (pars c) (map (fun c : R * R => (Fin (fst c), Fin (snd c))) cs)) by (rewrite <- Ec; now apply in_map).
        apply in_map_iff in I. destruct I as (d & Ed & _). unfold pars in Ed. injection Ed as Ed _. unfold lost in H. congruence.
      + rewrite Ep in Ep'. assert (ps' = ps); [|now subst]. clear -Ep'. revert ps' Ep'. induction ps as [|x ps IH]; intros [|y ps'] E; try discriminate; auto. cbn in E. injection E as -> E. f_equal. auto.
    - exfalso. destruct (mx_p m) as [|q p]; [cbn in L1; destruct HC; lia|]. inversion U; subst. destruct ps; discriminate. }
  destruct Fs as [Fs Pp]. assert (cs = map num (map pars (mx_cs m))).
  { rewrite Ec, map_map. rewrite <- (map_id cs) at 1. apply map_ext. intros [a b]. reflexivity. }
  subst cs. unfold movm_bic. rewrite Ea, Ep.
  rewrite (nll_terms wt32 (vm_ld I0) (dens_of I0) ps (mx_cs m) _ Nc ltac:(rewrite Ep, map_length in L1; congruence) (wt32_pos ps Pp) (sounds_log I0 _ HI Fs)).
  cbn [fmul fadd]. rewrite in_radians_length. f_equal. f_equal. unfold bic_value. rewrite loglik_num. apply (f_equal2 Rplus); [reflexivity|]. apply (f_equal2 Rmult); [reflexivity|].
  rewrite plus_INR, mult_INR, minus_INR by (destruct HC; auto). cbn [INR]. ring.
Qed.
Lemma mokj_bic_spec moments mle tiny min_w cfg old kseed cands X m : 0 < tiny -> 0 < min_w -> cfg_ok cfg ->
  mokj_fit moments mle tiny min_w cfg old kseed cands X = Ok m ->
  exists ps, mx_p m = map Fin ps /\
  let v := neg_loglik (kj_dens tiny) (map (fun q => Rmax q (/ 10 ^ 300)) ps) (map quad_of (mx_cs m)) (in_radians (c_radian cfg) (c_cycle cfg) X) in
  mokj_bic tiny (c_K cfg) (Some m) = Ok (Fin (bic_value v (length X) (4 * c_K cfg + (c_K cfg - 1)))) /\ last (mx_nll m) NaN = Fin v.
Proof.
  intros Ht Hm HC E. destruct (mokj_fit_spec _ _ _ _ _ _ _ _ _ _ Ht Hm HC E) as (labels & start & _ & _ & RN & L1 & L2 & (ps & Ep & Pp & _) & _ & _ & Ea & _ & FF).
  exists ps. split; auto. assert (Nc : mx_cs m <> []) by (intros Z; rewrite Z in L2; cbn in L2; destruct HC; lia).
  assert (LG : Forall (log_of (kj_ld tiny) (fun c => kj_dens tiny (quad_of c))) (mx_cs m)) by (eapply Forall_impl; [|exact FF]; intros; now apply fine_log).
  cbv zeta. split.
  - unfold mokj_bic. rewrite Ea, Ep.
    rewrite (nll_terms wt300 (kj_ld tiny) (fun c => kj_dens tiny (quad_of c)) ps (mx_cs m) _ Nc ltac:(rewrite Ep, map_length in L1; congruence) (fun q _ => wt300_pos q) LG).
    cbn [fmul fadd]. rewrite in_radians_length. f_equal. f_equal. unfold bic_value. rewrite loglik_quad. apply (f_equal2 Rplus); [reflexivity|]. apply (f_equal2 Rmult); [reflexivity|].
    rewrite plus_INR, mult_INR, minus_INR by (destruct HC; auto). cbn [INR]. ring.
  - apply run_full in RN; [|intros s s' v (? & ? & ? & _ & _ & _ & _ & _ & _ & _ & _ & ->); eauto]. destruct RN as (P & _ & Q).
    assert (NH : mx_nll m <> []).
    { destruct HC as (_ & HN & _). destruct Q as [[_ (_ & _ & _ & H1 & _)]|(_ & H1 & _)]; intros Z; rewrite Z in *; cbn in H1; lia. }
    clear Q E. remember (mx_p m, mx_cs m) as fin eqn:Ef.
    assert (PL : forall s hist s', passes (kj_pass quad_of regularise degenerate moments mle tiny min_w (in_radians (c_radian cfg) (c_cycle cfg) X)) s hist s' -> hist <> [] ->
       exists sp, kj_pass quad_of regularise degenerate moments mle tiny min_w (in_radians (c_radian cfg) (c_cycle cfg) X) sp s' (last hist NaN)).
    { clear. intros s hist s' P. induction P as [|s v s1 vs s' E P IH]; intros N; [congruence|]. destruct P as [|s1 v2 s2 vs s' E2 P]; [exists s; exact E|].
      apply IH. discriminate. }
    destruct (PL _ _ _ P NH) as (sp & ps0 & qs & G & _ & Eq & _ & _ & _ & _ & _ & _ & V). rewrite V. subst fin. cbn [fst snd] in *. rewrite Ep in Eq.
    assert (qs = ps); [|now subst]. clear -Eq. revert qs Eq. induction ps as [|x ps IH]; intros [|y qs] E; try discriminate; auto. cbn in E. injection E as -> E. f_equal. auto.
Qed.
Lemma mocd_bic_radian {P} (ld : P -> R -> fl) dens dfit methods cfg old cands X m n_params :
  (forall m a w c, dfit m a w = Ok c -> log_of ld dens c) -> cfg_ok cfg -> c_radian cfg = true ->
  mocd_fit ld dfit methods cfg old cands X = Ok m ->
  exists ps, mx_p m = map Fin ps /\
  mocd_bic ld cfg n_params (Some m) = Ok (Fin (bic_value (neg_loglik dens (map (fun q => q + / 10 ^ 32) ps) (mx_cs m) X) (length X) (n_params * c_K cfg + (c_K cfg - 1)))).
Proof.
  intros HF HC Hr E. destruct (mocd_fit_spec ld dens dfit methods cfg old cands X m HF HC E) as (labels & start & _ & _ & _ & L1 & L2 & (ps & Ep & Pp & _) & _ & Ea & _ & FF).
  exists ps. split; auto. assert (Nc : mx_cs m <> []) by (intros Z; rewrite Z in L2; cbn in L2; destruct HC; lia).
  unfold mocd_bic, mocd_scores. rewrite Ea, Hr. cbn [in_radians to_rad bind].
  pose proof (nll_terms wt32 ld dens ps (mx_cs m) X Nc ltac:(rewrite Ep, map_length in L1; congruence) (wt32_pos ps Pp) FF) as NL. unfold nll in NL. rewrite Ep, NL.
  cbn [fmul fadd]. f_equal. f_equal. unfold bic_value. apply (f_equal2 Rplus); [reflexivity|]. apply (f_equal2 Rmult); [reflexivity|]. f_equal. lia.
Qed.

(** * predict *)
Lemma movm_predict_train I0 cfg old cands X m : movm_fit I0 cfg old cands X = Ok m ->
  movm_proba I0 (c_radian cfg) (c_cycle cfg) (Some m) X = Ok (mx_gamma m) /\ movm_predict I0 (c_radian cfg) (c_cycle cfg) (Some m) X = Ok (mx_labels m).
Proof.
  unfold movm_fit. destruct X as [|x X]; [discriminate|]. destruct (Nat.ltb _ _); [discriminate|]. destruct (pick _ _); [|discriminate]. cbn [bind].
  destruct (em_loop _ _ _ _ _ _ _) as [[[[p cs] hist] cv]|]; [|discriminate]. cbn [bind]. intros E. injection E as <-. split; reflexivity.
Qed.
Lemma mokj_predict_train moments mle tiny min_w cfg old kseed cands X m : mokj_fit moments mle tiny min_w cfg old kseed cands X = Ok m ->
  mokj_proba tiny (c_radian cfg) (c_cycle cfg) (Some m) X = Ok (mx_gamma m) /\ mokj_predict tiny (c_radian cfg) (c_cycle cfg) (Some m) X = Ok (mx_labels m).
Proof.
  unfold mokj_fit. destruct X as [|x X]; [discriminate|]. destruct (Nat.ltb _ _); [discriminate|]. destruct (mokj_labels _ _ _ _); [|discriminate]. cbn [bind].
  destruct (rmap _ _); [|discriminate]. cbn [bind].
  destruct (em_loop _ _ _ _ _ _ _) as [[[[p cs] hist] cv]|]; [|discriminate]. cbn [bind]. intros E. injection E as <-. split; reflexivity.
Qed.
Lemma mocd_predict_train {P} (ld : P -> R -> fl) dfit methods cfg old cands X m : mocd_fit ld dfit methods cfg old cands X = Ok m ->
  mocd_proba ld cfg (Some m) X = Ok (mx_gamma m) /\ mocd_predict ld cfg (Some m) X = Ok (mx_labels m).
Proof.
  unfold mocd_fit. destruct X as [|x X]; [discriminate|]. destruct (Nat.ltb _ _); [discriminate|]. destruct (pick _ _); [|discriminate]. cbn [bind].
  destruct (rmap _ _); [|discriminate]. cbn [bind].
  destruct (em_loop _ _ _ _ _ _ _) as [[[[p cs] hist] cv]|]; [|discriminate]. cbn [bind]. intros E. injection E as <-. split; reflexivity.
Qed.
(** New observations: posterior probabilities under the fitted mixture. *)
Lemma movm_predict_new I0 cfg old cands X m b fc Y : (forall x, 0 < I0 x) -> cfg_ok cfg -> Forall (fun l => length l = length X) cands ->
  movm_fit I0 cfg old cands X = Ok m -> (forall c, In c (mx_cs m) -> vm_mu c <> NaN) ->
  exists cs g l, map pars (mx_cs m) = map (fun c => (Fin (fst c), Fin (snd c))) cs /\
    movm_proba I0 b fc (Some m) Y = Ok g /\ movm_predict I0 b fc (Some m) Y = Ok l /\
    responsibilities (fun c x => vm_density I0 (fst c) (snd c) x) (fun q => q + / 10 ^ 32) (mx_p m) cs (in_radians b fc Y) g l.
Proof.
  intros HI HC CL E NN. destruct (movm_fit_eq I0 cfg old cands X m HI HC CL E) as (labels & start & _ & _ & _ & D & _).
  set (m' := {| mx_p := mx_p m; mx_cs := mx_cs m; mx_gamma := gammas wt32 (vm_ld I0) (mx_p m) (mx_cs m) (in_radians b fc Y);
    mx_labels := argmax_labels (gammas wt32 (vm_ld I0) (mx_p m) (mx_cs m) (in_radians b fc Y)); mx_nll := []; mx_flags := old; mx_alpha := [] |}).
  destruct (movm_resp I0 (c_K cfg) m' (in_radians b fc Y) HI (proj1 HC) D eq_refl eq_refl) as [(_ & cs & A & _ & B)|(_ & (c & Hc & Ec) & _)].
  - exists cs. eexists. eexists. split; [exact A|]. unfold movm_predict, movm_proba. rewrite to_rad_in. split; [reflexivity|]. split; [reflexivity|]. exact B.
  - exfalso. apply in_map_iff in Hc. destruct Hc as (c0 & <- & Hc). apply (NN c0 Hc). exact Ec.
Qed.
Lemma mokj_predict_new moments mle tiny min_w cfg old kseed cands X m b fc Y : 0 < tiny -> 0 < min_w -> cfg_ok cfg ->
  mokj_fit moments mle tiny min_w cfg old kseed cands X = Ok m ->
  exists g l, mokj_proba tiny b fc (Some m) Y = Ok g /\ mokj_predict tiny b fc (Some m) Y = Ok l /\
    responsibilities (kj_dens tiny) (fun q => Rmax q (/ 10 ^ 300)) (mx_p m) (map quad_of (mx_cs m)) (in_radians b fc Y) g l.
Proof.
  intros Ht Hm HC E. destruct (mokj_fit_spec _ _ _ _ _ _ _ _ _ _ Ht Hm HC E) as (labels & start & _ & _ & _ & L1 & L2 & (ps & Ep & Pp & _) & _ & _ & _ & _ & FF).
  eexists. eexists. unfold mokj_predict, mokj_proba. rewrite to_rad_in. split; [reflexivity|]. split; [reflexivity|]. rewrite Ep.
  assert (Lp : length ps = length (mx_cs m)) by (rewrite Ep, map_length in L1; congruence).
  assert (Nc : mx_cs m <> []) by (intros Z; rewrite Z in L2; cbn in L2; destruct HC; lia).
  assert (LG : Forall (log_of (kj_ld tiny) (fun c => kj_dens tiny (quad_of c))) (mx_cs m)) by (eapply Forall_impl; [|exact FF]; intros; now apply fine_log).
  destruct (resp_ok wt300 (kj_ld tiny) (fun c => kj_dens tiny (quad_of c)) ps (mx_cs m) (in_radians b fc Y) Nc Lp (fun q _ => wt300_pos q) LG) as (ps' & G & E1 & E2 & PG & FG & LG2).
  exists ps', G. split; auto. split; auto. split; [now apply posterior_quad|]. split; auto. rewrite map_length. exact FG.
Qed.
Lemma mocd_predict_new {P} (ld : P -> R -> fl) dens dfit methods cfg old cands X m Y :
  (forall m a w c, dfit m a w = Ok c -> log_of ld dens c) -> cfg_ok cfg -> mocd_fit ld dfit methods cfg old cands X = Ok m ->
  exists g l, mocd_proba ld cfg (Some m) Y = Ok g /\ mocd_predict ld cfg (Some m) Y = Ok l /\
    responsibilities dens (fun q => q + / 10 ^ 32) (mx_p m) (mx_cs m) (in_radians (c_radian cfg) (c_cycle cfg) Y) g l.
Proof.
  intros HF HC E. destruct (mocd_fit_spec ld dens dfit methods cfg old cands X m HF HC E) as (labels & start & _ & _ & _ & L1 & L2 & (ps & Ep & Pp & _) & _ & _ & _ & FF).
  eexists. eexists. unfold mocd_predict, mocd_proba. rewrite to_rad_in. split; [reflexivity|]. split; [reflexivity|]. rewrite Ep.
  assert (Lp : length ps = length (mx_cs m)) by (rewrite Ep, map_length in L1; congruence).
  assert (Nc : mx_cs m <> []) by (intros Z; rewrite Z in L2; cbn in L2; destruct HC; lia).
  apply (resp_ok wt32 ld dens ps (mx_cs m) _ Nc Lp (wt32_pos ps Pp) FF).
Qed.

(** * The density grid *)
Lemma grid_nth n b fc k x : nth_error (density_grid n b fc) k = Some x -> (k < n)%nat /\
  x = (if b then 1 else 360 / fc) * (2 * PI * INR k / INR n).
Proof.
  unfold density_grid. rewrite to_rad_in. intros H.
  assert (L : (k < n)%nat).
  { match type of H with nth_error ?l k = _ => assert (Q : (k < length l)%nat) by (apply nth_error_Some; congruence) end.
    rewrite in_radians_length in Q. destruct b; rewrite ?map_length, seq_length in Q; exact Q. }
  split; auto. assert (S0 : nth_error (seq 0 n) k = Some k). { rewrite (nth_error_nth' _ 0%nat) by (now rewrite seq_length). now rewrite seq_nth. }
  pose proof PI_RGT_0. unfold in_radians in H. destruct b.
  - rewrite nth_error_map, S0 in H. cbn in H. injection H as <-. ring.
  - rewrite !nth_error_map, S0 in H. cbn in H. injection H as <-. unfold Rdiv.
    replace (2 * PI * (2 * PI * INR k * / INR n * 180 * / PI) * / fc) with (360 * / fc * (2 * PI * INR k * / INR n) * (PI * / PI)) by ring.
    rewrite Rinv_r by lra. ring.
Qed.
Lemma grid_length n b fc : length (density_grid n b fc) = n.
Proof. unfold density_grid. rewrite to_rad_in, in_radians_length. destruct b; rewrite ?map_length, seq_length; reflexivity. Qed.
Lemma grid_full n b fc : (2 <= n)%nat -> fc <> 0 -> (full_turn n (density_grid n b fc) <-> b = true \/ fc = 360).
Proof.
  intros Hn Hf. assert (P : 0 < INR n) by (apply lt_0_INR; lia). pose proof PI_RGT_0. split.
  - intros [_ H1]. destruct b; [now left|right]. destruct (nth_error (density_grid n false fc) 1) as [x|] eqn:E.
    + pose proof (H1 1%nat x E) as H2. apply grid_nth in E. destruct E as [_ ->]. cbn [INR] in H2.
      assert (Q : 360 / fc = 1).
      { apply Rmult_eq_reg_r with (2 * PI); [|lra]. transitivity (360 / fc * (2 * PI * 1 / INR n) * INR n); [field; lra|]. rewrite H2. ring. }
      apply Rmult_eq_reg_r with (/ fc); [|now apply Rinv_neq_0_compat]. rewrite Rinv_r by auto. unfold Rdiv in Q. lra.
    + apply nth_error_None in E. rewrite grid_length in E. lia.
  - intros H1. split; [apply grid_length|]. intros k x E. apply grid_nth in E. destruct E as [_ ->].
    replace (if b then 1 else 360 / fc) with 1; [field; lra|]. destruct b; auto. destruct H1 as [H1| ->]; [discriminate|]. field.
Qed.
