From Verif Require Import Prelude NpModel NpProofs CircleSpec UtilsModel UtilsProofs DescModel Desc2Model DescProofs
  DescSpec DescApi DescApi2 HypProofs HypMultiModel HypMulti2Model HypMultiSpec HypMultiProofs HypMulti7Proofs
  CorrSpec CorrProofs Corr2Proofs Corr4Proofs Corr6Proofs ClusModel ClusSpec ClusProofs Clus2Proofs Clus3Proofs Clus4Proofs
  EmModel EmSpec EmProofs Em2Proofs Em3Proofs Em4Proofs Em5Proofs Em6Proofs Em7Proofs Em8Proofs.

(** * One component *)
Lemma resp_one l : resp [Fin l] = [Fin 1].
Proof.
  change [Fin l] with (map Fin [l]). rewrite resp_fin by discriminate. cbn [map]. do 2 f_equal. rewrite Rsum_cons, Rsum_nil. pose proof (exp_pos l). field. lra.
Qed.
Lemma one_fixed I0 alpha : (forall x, 0 < I0 x) -> alpha <> [] -> sound (vm_start alpha) ->
  exists a, movm_step I0 1 alpha (even_weights 1, [vm_start alpha]) = Ok ((even_weights 1, [vm_start alpha]), Fin a) /\
    gammas wt32 (vm_ld I0) (even_weights 1) [vm_start alpha] alpha = map (fun _ => [Fin 1]) alpha.
Proof.
  intros HI N Sd. assert (E1 : even_weights 1 = [Fin 1]) by (unfold even_weights; cbn; do 2 f_equal; field).
  assert (LG : log_of (vm_ld I0) (dens_of I0) (vm_start alpha)). { pose proof (sounds_log I0 [vm_start alpha] HI ltac:(constructor; auto)) as F. inversion F; auto. }
  assert (G : gammas wt32 (vm_ld I0) [Fin 1] [vm_start alpha] alpha = map (fun _ => [Fin 1]) alpha).
  { unfold gammas. apply map_ext. intros x. unfold log_col, map2. cbn [combine map fst snd flmap]. destruct (LG x) as [_ ->]. cbn [fadd]. apply resp_one. }
  rewrite E1. assert (NL : exists a, nll wt32 (vm_ld I0) [Fin 1] [vm_start alpha] alpha = Fin a).
  { eexists. apply (nll_terms wt32 (vm_ld I0) (dens_of I0) [1] [vm_start alpha] alpha); [discriminate|reflexivity| |constructor; auto].
    apply wt32_pos. constructor; [lra|constructor]. }
  destruct NL as [a Ea]. exists a. split; [|exact G]. unfold movm_step. rewrite G, Ea.
  assert (RW : row (map (fun _ => [Fin 1]) alpha) 0 = map Fin (ones alpha)).
  { unfold row, ones. rewrite !map_map. reflexivity. }
  assert (Ln : 1 <= INR (length alpha)). { destruct alpha; [congruence|]. cbn [length]. rewrite S_INR. pose proof (pos_INR (length alpha)). lra. }
  assert (S1 : Rsum (ones alpha) = INR (length alpha)) by (unfold ones; rewrite Rsum_map_const; ring).
  f_equal. f_equal. f_equal.
  - unfold row_sums. cbn [seq map]. rewrite RW, fsum_fin, S1. unfold normalised. cbn [map]. rewrite fsum_cons. cbn [fsum fold_right].
    unfold fdiv. cbn. unfold np_div. match goal with |- context [Reqb ?x 0] => destruct (Reqb_spec x 0) as [Z|Z]; [exfalso; lra|] end.
    do 2 f_equal. field. lra.
  - cbn [length seq combine map fst snd]. rewrite RW. f_equal. unfold vm_update. rewrite fsum_fin, S1, fval_fin.
    destruct (isclose (INR (length alpha)) 0) eqn:EI; [apply isclose0_true in EI; lra|]. reflexivity.
Qed.
Lemma repeat_snoc {A} (x : A) n : repeat x n ++ [x] = repeat x (S n).
Proof. symmetry. apply (repeat_cons n x). Qed.
Lemma last_repeat {A} (x d : A) n : (1 <= n)%nat -> last (repeat x n) d = x.
Proof. induction n as [|[|n] IH]; intros H; [lia|reflexivity|]. apply IH. lia. Qed.
Lemma fixed_loop {St} (step : St -> res (St * fl)) burnin thr s a : 0 < thr -> step s = Ok (s, Fin a) ->
  forall left it, (it <= S burnin)%nat ->
  em_loop step burnin thr left it s (repeat (Fin a) it) =
    if Nat.leb (it + left) (S burnin) then Ok (s, repeat (Fin a) (it + left), None) else Ok (s, repeat (Fin a) (burnin + 2), Some (burnin + 2)%nat).
Proof.
  intros Ht E. induction left as [|k IH]; intros it Hi; cbn [em_loop].
  - rewrite Nat.add_0_r. destruct (Nat.leb_spec it (S burnin)); [reflexivity|lia].
  - rewrite E. cbn [bind]. rewrite repeat_snoc. destruct (Nat.ltb_spec burnin it) as [Hb|Hb].
    + assert (it = S burnin) by lia. subst it. rewrite last_repeat by lia.
      assert (C : fllt (flabs (fsub (Fin a) (Fin a))) (Fin thr) = true).
      { apply fllt_close. exists a, a. split; auto. split; auto. unfold Rminus. rewrite Rplus_opp_r, Rabs_R0. exact Ht. }
      rewrite C. cbn [andb]. destruct (Nat.leb_spec (S burnin + S k) (S burnin)); [lia|]. replace (burnin + 2)%nat with (S (S burnin)) by lia. reflexivity.
    + cbn [andb]. rewrite IH by lia. replace (S it + k)%nat with (it + S k)%nat by lia. reflexivity.
Qed.
Lemma subset_all alpha labels : length labels = length alpha -> Forall (fun l => l = 0%nat) labels -> subset alpha labels 0 = alpha.
Proof.
  unfold subset. revert labels. induction alpha as [|x alpha IH]; intros [|l labels] L F; try discriminate; [reflexivity|].
  inversion F; subst. cbn [combine filter snd Nat.eqb map fst]. f_equal. apply IH; auto.
Qed.
Lemma movm_one I0 cfg old labels cands X : (forall x, 0 < I0 x) -> cfg_ok cfg -> c_K cfg = 1%nat ->
  length labels = length X -> Forall (fun l => l = 0%nat) labels -> X <> [] ->
  let alpha := in_radians (c_radian cfg) (c_cycle cfg) X in
  / 10 ^ 12 < circ_r alpha None ->
  exists m a k, movm_fit I0 cfg old (labels :: cands) X = Ok m /\ mx_p m = [Fin 1] /\
    mx_cs m = [{| vm_mu := fst (circ_mean_and_r alpha None); vm_r := Fin (circ_r alpha None); vm_kappa := Fin (Rmax (kappa0 (circ_r alpha None)) (/ 1000)) |}] /\
    mx_gamma m = map (fun _ => [Fin 1]) X /\ mx_labels m = repeat 0%nat (length X) /\ k = Nat.min (c_iters cfg) (c_burnin cfg + 2) /\
    mx_nll m = repeat (Fin a) k /\ mx_flags m = if Nat.leb (c_burnin cfg + 2) (c_iters cfg) then (true, Some (c_burnin cfg + 2)%nat) else old.
Proof.
  intros HI (HK & HN & HT) K1 LL FL N alpha Hr. unfold movm_fit. destruct X as [|x0 X0]; [congruence|]. set (X := x0 :: X0) in *.
  rewrite to_rad_in. fold alpha. cbv zeta. assert (La : length alpha = length X) by apply in_radians_length. rewrite K1.
  destruct (Nat.ltb_spec (length alpha) 1) as [Z|_]; [rewrite La in Z; cbn in Z; lia|].
  assert (CV : covers 1 labels = true).
  { unfold covers. cbn. rewrite andb_true_r. apply existsb_exists. exists 0%nat. split; auto. destruct labels as [|l ls]; [discriminate|]. inversion FL; subst. now left. }
  unfold pick. cbn [find]. rewrite CV. cbn [bind]. cbn [seq map]. rewrite subset_all by (auto; congruence).
  assert (Na : alpha <> []) by (intros Z; rewrite Z in La; discriminate).
  assert (MR : circ_mean_and_r alpha None = (Fin (mean_dir (smp alpha None)), circ_r alpha None)).
  { unfold circ_mean_and_r. destruct (circ_mean_and_r_s_cases (combine alpha (weights alpha None))) as [[Z _]|[_ ->]]; [exfalso|reflexivity].
    change (circ_r_s (combine alpha (weights alpha None))) with (circ_r alpha None) in Z. lra. }
  assert (Sd : sound (vm_start alpha)).
  { unfold vm_start. rewrite MR. eexists. eexists. split; [reflexivity|]. split; [apply mean_dir_range|apply kappa_floor]. }
  destruct (one_fixed I0 alpha HI Na Sd) as (a & Es & Eg).
  pose proof (fixed_loop (movm_step I0 1 alpha) (c_burnin cfg) (c_threshold cfg) _ a HT Es (c_iters cfg) 0 ltac:(lia)) as FX. cbn [repeat plus] in FX.
  rewrite FX. assert (DN : forall n, drop_nan (repeat (Fin a) n) = repeat (Fin a) n).
  { intros n. rewrite drop_nan_spec. apply all_fin_drop. apply Forall_forall. intros v Hv. apply repeat_spec in Hv. now subst. }
  assert (GX : map (fun _ => [Fin 1]) alpha = map (fun _ => [Fin 1]) X).
  { assert (Q : forall (u v : list R), length u = length v -> map (fun _ => [Fin 1]) u = map (fun _ => [Fin 1]) v); [|now apply Q]. clear. induction u as [|y u IH]; intros [|z v] L; try discriminate; auto. cbn. f_equal. apply IH. auto. }
  assert (LX : argmax_labels (map (fun _ => [Fin 1]) X) = repeat 0%nat (length X)).
  { clear. generalize X. clear. intros X. induction X as [|y X IH]; [reflexivity|]. cbn [map length repeat]. unfold argmax_labels in *. cbn [map]. rewrite IH. reflexivity. }
  assert (E1 : even_weights 1 = [Fin 1]) by (unfold even_weights; cbn; do 2 f_equal; field).
  destruct (Nat.leb_spec (c_iters cfg) (S (c_burnin cfg))) as [B|B]; cbn [bind]; eexists; exists a; eexists; (split; [reflexivity|]);
    cbn [finish mx_p mx_cs mx_gamma mx_labels mx_nll mx_flags]; rewrite Eg, GX, LX, DN; (split; [exact E1|]); (split; [unfold vm_start; rewrite MR; reflexivity|]);
    (split; [reflexivity|]); (split; [reflexivity|]); (split; [reflexivity|]); (split; [f_equal; lia|]);
    destruct (Nat.leb_spec (c_burnin cfg + 2) (c_iters cfg)); try lia; reflexivity.
Qed.

(** * A stale flag *)
Definition cfg1 : em_cfg := {| c_burnin := 30; c_K := 1; c_iters := 100; c_threshold := / 10 ^ 16; c_radian := true; c_cycle := 360 |}.
Lemma cfg1_ok : cfg_ok cfg1.
Proof. split; [cbn; lia|split; [cbn; lia|]]. cbn [cfg1 c_threshold]. lra. Qed.
Lemma r_ones : circ_r [1; 1] None = 1.
Proof. assert (N : [1; 1] <> []) by discriminate. pose proof (circ_r_resultant [1; 1] N) as E.
  assert (Q : resultant [1; 1] = 2).
  { unfold resultant. pose proof (sin2_cos2 1) as SC. unfold Rsqr in SC. cbn.
    match goal with |- sqrt ?x = _ => replace x with (2 * 2 * (sin 1 * sin 1 + cos 1 * cos 1)) by ring end. rewrite SC, Rmult_1_r. apply sqrt_square. lra. }
  rewrite Q in E. cbn in E. lra. Qed.
Lemma stale_movm I0 : (forall x, 0 < I0 x) -> exists m1 m2 m3,
  movm_fit I0 cfg1 (false, None) [[0; 0]%nat] [1; 1] = Ok m1 /\ fst (mx_flags m1) = true /\
  movm_fit I0 cfg1 (mx_flags m1) [[0; 0]%nat] [0; PI] = Ok m2 /\ fst (mx_flags m2) = true /\
  movm_fit I0 cfg1 (false, None) [[0; 0]%nat] [0; PI] = Ok m3 /\ fst (mx_flags m3) = false.
Proof.
  intros HI.
  destruct (movm_one I0 cfg1 (false, None) [0; 0]%nat [] [1; 1] HI cfg1_ok eq_refl eq_refl ltac:(repeat constructor) ltac:(discriminate)) as (m1 & a & k & E1 & _ & _ & _ & _ & _ & _ & F1).
  { cbn [cfg1 c_radian c_cycle in_radians]. rewrite r_ones. lra. }
  cbn in F1.
  destruct (movm_fit_total I0 cfg1 (mx_flags m1) [[0; 0]%nat] [0; PI]) as [m2 E2]; [cbn; lia|discriminate|exists [0; 0]%nat; split; [now left|reflexivity]|].
  destruct (movm_fit_total I0 cfg1 (false, None) [[0; 0]%nat] [0; PI]) as [m3 E3]; [cbn; lia|discriminate|exists [0; 0]%nat; split; [now left|reflexivity]|].
  assert (B : forall old m, movm_fit I0 cfg1 old [[0; 0]%nat] [0; PI] = Ok m -> mx_flags m = old).
  { intros old m E. apply (movm_balanced I0 cfg1 old [[0; 0]%nat] [0; PI] m [0; 0]%nat 0 HI cfg1_ok eq_refl eq_refl ltac:(cbn; lia)); auto;
      cbn; rewrite ?cos_0, ?sin_0, ?cos_PI, ?sin_PI; ring. }
  exists m1, m2, m3. split; auto. rewrite F1. split; auto. rewrite F1 in E2. split; [exact E2|]. rewrite (B _ _ E2), (B _ _ E3). auto.
Qed.
