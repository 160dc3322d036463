From Verif Require Import Prelude NpModel NpProofs CircleSpec UtilsModel UtilsProofs DescModel Desc2Model DescProofs
  DescSpec DescApi DescApi2 HypProofs HypMultiModel HypMulti2Model HypMultiSpec HypMultiProofs HypMulti7Proofs
  CorrSpec CorrProofs Corr2Proofs Corr4Proofs Corr6Proofs ClusModel ClusSpec ClusProofs Clus2Proofs Clus3Proofs Clus4Proofs Clus8Proofs
  EmModel EmSpec EmProofs Em2Proofs Em3Proofs Em4Proofs Em5Proofs Em6Proofs Em7Proofs Em8Proofs Em9Proofs Em10Proofs.

(** * BIC of MoCD for one observation of 180 degrees *)
Definition cfg_cd (b : bool) : em_cfg := {| c_burnin := 0; c_K := 1; c_iters := 1; c_threshold := / 10 ^ 16; c_radian := b; c_cycle := 360 |}.
Lemma cfg_cd_ok b : cfg_ok (cfg_cd b).
Proof. split; [cbn; lia|split; [cbn; lia|]]. cbn [cfg_cd c_threshold]. lra. Qed.
(** von Mises components fitted by mean direction and concentration. *)
Definition vm_dfit (m : option string) (a : list R) (w : list fl) : res vm :=
  match w with
  | [] => Err ValueError
  | _ => Ok {| vm_mu := Fin (match fst (circ_mean_and_r a (Some (map fval w))) with Fin x => x | _ => 0 end); vm_r := Fin 0;
               vm_kappa := Fin (Rmax (kappa0 (snd (circ_mean_and_r a (Some (map fval w))))) (/ 1000)) |}
  end.
Lemma vm_dfit_log I0 : (forall x, 0 < I0 x) -> forall m a w c, vm_dfit m a w = Ok c -> log_of (vm_ld I0) (dens_of I0) c.
Proof.
  intros HI m a w c H. unfold vm_dfit in H. destruct w as [|w0 w]; [discriminate|]. injection H as <-.
  assert (Sd : sound {| vm_mu := Fin (match fst (circ_mean_and_r a (Some (map fval (w0 :: w)))) with Fin x => x | _ => 0 end); vm_r := Fin 0;
               vm_kappa := Fin (Rmax (kappa0 (snd (circ_mean_and_r a (Some (map fval (w0 :: w)))))) (/ 1000)) |}).
  { eexists. eexists. split; [reflexivity|]. split; [|apply kappa_floor]. pose proof PI_RGT_0. unfold circ_mean_and_r.
    destruct (circ_mean_and_r_s_cases (combine a (weights a (Some (map fval (w0 :: w)))))) as [[_ ->]|[_ ->]]; cbn [fst]; [lra|apply mean_dir_range]. }
  pose proof (sounds_log I0 _ HI (Forall_cons _ Sd (Forall_nil _))) as F. inversion F; auto.
Qed.
Definition c_pi : vm := {| vm_mu := Fin PI; vm_r := Fin 0; vm_kappa := Fin (/ 1000) |}.
Lemma kappa0_1 : Rmax (kappa0 1) (/ 1000) = / 1000.
Proof.
  unfold kappa0. destruct (Rltb_spec 1 (53/100)); [lra|]. destruct (Rltb_spec 1 (85/100)); [lra|].
  destruct (Reqb_spec (1 ^ 3 - 4 * 1 ^ 2 + 3 * 1) 0) as [_|Z]; [|exfalso; apply Z; ring]. apply Rmax_right. lra.
Qed.
Lemma dfit_pi m : vm_dfit m [PI] [Fin 1] = Ok c_pi.
Proof.
  unfold vm_dfit. cbn [map fval]. replace (circ_mean_and_r [PI] (Some [1])) with (circ_mean_and_r [PI] None) by reflexivity.
  pose proof PI_RGT_0. rewrite mr_single by lra. cbn [fst snd]. rewrite kappa0_1. reflexivity.
Qed.
Lemma c_pi_log I0 : (forall x, 0 < I0 x) -> log_of (vm_ld I0) (dens_of I0) c_pi.
Proof. intros HI. eapply (vm_dfit_log I0 HI None), dfit_pi. Qed.
Lemma mocd_pi I0 b X : (forall x, 0 < I0 x) -> in_radians b 360 X = [PI] ->
  exists m, mocd_fit (vm_ld I0) vm_dfit [None] (cfg_cd b) (false, None) [[0]%nat] X = Ok m /\ mx_p m = [Fin 1] /\ mx_cs m = [c_pi] /\ mx_alpha m = [PI].
Proof.
  intros HI E. unfold mocd_fit. destruct X as [|x X]; [destruct b; discriminate|]. cbn [cfg_cd c_radian c_cycle c_K c_burnin c_threshold c_iters]. rewrite to_rad_in, E.
  cbn [length Nat.ltb Nat.leb pick find covers seq forallb existsb Nat.eqb andb orb bind]. cbn [rmap]. unfold subset at 1. cbn [combine filter snd Nat.eqb map fst].
  unfold fit_component at 1. unfold subset. cbn [combine filter snd Nat.eqb map fst length]. change (repeat (Fin 1) 1) with [Fin 1]. change (fsum [Fin 1]) with (Fin (1 + 0)). cbv iota beta.
  replace (Rleb (1 + 0) (/ 10 ^ 12)) with false by (symmetry; destruct (Rleb_spec (1 + 0) (/ 10 ^ 12)) as [Z|_]; [exfalso; lra|reflexivity]).
  cbn [first_fit]. rewrite dfit_pi. cbn [bind].
  assert (E1 : even_weights 1 = [Fin 1]) by (unfold even_weights; cbn; do 2 f_equal; field). rewrite E1.
  assert (G : gammas wt32 (vm_ld I0) [Fin 1] [c_pi] [PI] = [[Fin 1]]).
  { unfold gammas. cbn [map]. unfold log_col, map2. cbn [combine map fst snd flmap]. destruct (c_pi_log I0 HI PI) as [_ ->]. cbn [fadd]. now rewrite resp_one. }
  assert (St : exists v, mocd_step (vm_ld I0) vm_dfit [None] 1 [PI] ([Fin 1], [c_pi]) = Ok (([Fin 1], [c_pi]), v)).
  { eexists. unfold mocd_step. rewrite G. cbn [length seq combine rmap fst snd row map nth]. change (fsum [Fin 1]) with (Fin (1 + 0)).
    cbv iota beta. replace (isclose (1 + 0) 0) with false by (symmetry; destruct (isclose (1 + 0) 0) eqn:EI; [apply isclose0_true in EI; lra|reflexivity]).
    unfold fit_component. change (fsum [Fin 1]) with (Fin (1 + 0)).
    cbv iota beta. replace (Rleb (1 + 0) (/ 10 ^ 12)) with false by (symmetry; destruct (Rleb_spec (1 + 0) (/ 10 ^ 12)) as [Z|_]; [exfalso; lra|reflexivity]).
    cbn [first_fit]. rewrite dfit_pi. cbn [bind].  f_equal. apply f_equal2; [|reflexivity]. apply f_equal2; [|reflexivity].
    unfold row_sums, normalised. cbn [seq map row nth]. change (fsum [Fin 1]) with (Fin (1 + 0)). rewrite fsum_cons. change (fsum []) with (Fin 0). cbn [fdiv].
    unfold np_div. destruct (Reqb_spec (1 + 0 + 0) 0) as [Z|_]; [exfalso; lra|]. do 2 f_equal. field. }
  destruct St as [v Sv]. cbn [em_loop].  rewrite Sv. cbn [bind Nat.ltb Nat.leb andb]. eexists. split; [reflexivity|]. auto.
Qed.
Lemma bic_of_pi I0 m : (forall x, 0 < I0 x) -> mx_p m = [Fin 1] -> mx_cs m = [c_pi] -> mx_alpha m = [PI] ->
  exists k, forall b, mocd_bic (vm_ld I0) (cfg_cd b) 2 (Some m) = Ok (Fin (k - 2 * (/ 1000 * cos ((if b then PI else PI * PI / 180) - PI)))).
Proof.
  intros HI Ep Ec Ea. exists (- 2 * (ln (wt32 1) - ln (2 * PI * I0 (/ 1000))) + ln (INR 1) * INR 2). intros b0. unfold mocd_bic, mocd_scores. rewrite Ep, Ec, Ea, to_rad_in.
  set (y := if b0 then PI else PI * PI / 180). assert (Ey : in_radians (c_radian (cfg_cd b0)) (c_cycle (cfg_cd b0)) [PI] = [y]).
  { unfold y, cfg_cd, in_radians. cbn [c_radian c_cycle]. destruct b0; [reflexivity|]. cbn [map]. f_equal. field. }
  rewrite Ey. cbn [map bind]. unfold log_col, map2. cbn [combine map fst snd flmap].
  assert (Ld : vm_ld I0 c_pi y = Fin (/ 1000 * cos (y - PI) - ln (2 * PI * I0 (/ 1000)))).
  { unfold vm_ld, c_pi. cbn [vm_mu vm_kappa]. pose proof PI_RGT_0. destruct (Rleb_spec 0 PI); [|lra]. destruct (Rleb_spec PI (2 * PI)); [|lra].
    destruct (Rltb_spec 0 (/ 1000)); [|lra]. reflexivity. }
  rewrite Ld. cbn [fadd]. match goal with |- context [lse [Fin ?v]] => replace (lse [Fin v]) with (Fin v); [|change [Fin v] with (map Fin [v]); rewrite lse_fin; cbn [map]; rewrite Rsum_cons, Rsum_nil, Rplus_0_r, ln_exp; reflexivity] end.
  rewrite fsum_cons. change (fsum []) with (Fin 0). cbn [fneg fmul fadd length]. f_equal. f_equal. cbn [cfg_cd c_K]. change (1 * 2 + (1 - 1))%nat with 2%nat. ring.
Qed.
Lemma bic_differs I0 : (forall x, 0 < I0 x) -> exists m1 m2 b1 b2,
  mocd_fit (vm_ld I0) vm_dfit [None] (cfg_cd false) (false, None) [[0]%nat] [180] = Ok m1 /\
  mocd_fit (vm_ld I0) vm_dfit [None] (cfg_cd true) (false, None) [[0]%nat] [PI] = Ok m2 /\
  mocd_bic (vm_ld I0) (cfg_cd false) 2 (Some m1) = Ok (Fin b1) /\ mocd_bic (vm_ld I0) (cfg_cd true) 2 (Some m2) = Ok (Fin b2) /\ b1 <> b2.
Proof.
  intros HI. destruct (mocd_pi I0 false [180] HI) as (m1 & E1 & P1 & C1 & A1); [unfold in_radians; cbn [map]; f_equal; field|].
  destruct (mocd_pi I0 true [PI] HI eq_refl) as (m2 & E2 & P2 & C2 & A2).
  destruct (bic_of_pi I0 m1 HI P1 C1 A1) as [k Hk].
  assert (Em : mocd_bic (vm_ld I0) (cfg_cd true) 2 (Some m2) = mocd_bic (vm_ld I0) (cfg_cd true) 2 (Some m1)).
  { unfold mocd_bic, mocd_scores. now rewrite P1, C1, A1, P2, C2, A2. }
  exists m1, m2. eexists. eexists. split; auto. split; auto. split; [apply (Hk false)|]. split; [rewrite Em; apply (Hk true)|].
  replace (PI - PI) with 0 by ring. rewrite cos_0. intros Z.
  assert (C : cos (PI * PI / 180 - PI) = 1) by lra. rewrite cos_minus, cos_PI, sin_PI in C.
  assert (0 < cos (PI * PI / 180)); [|lra]. pose proof PI_RGT_0. pose proof PI_4. apply cos_gt_0; nra.
Qed.
