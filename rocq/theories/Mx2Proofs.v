(** MoCD with the wrapped normal; the constructors. *)
From Verif Require Import Prelude NpModel NpProofs CircleSpec UtilsModel UtilsProofs DescModel Desc2Model DescProofs DescSpec DescApi HypProofs HypMultiModel HypMulti2Model
  HypMultiSpec HypMultiProofs HypMulti7Proofs CorrModel CorrSpec CorrProofs Corr2Proofs Corr4Proofs Corr6Proofs ClusModel ClusSpec ClusProofs Clus2Proofs Clus3Proofs Clus4Proofs Clus8Proofs IntSpec IntProofs DistModel DistSpec DistProofs
  Dist6Proofs Dist7Proofs WnModel WnSpec WnProofs
  EmModel EmSpec EmProofs Em2Proofs Em3Proofs Em4Proofs Em5Proofs Em6Proofs Em7Proofs Em8Proofs Em9Proofs Em10Proofs Em11Proofs MxModel MxSpec MxProofs.
From Coq Require Import String.
Import ListNotations.
Open Scope R_scope.
Open Scope list_scope.

(** ** One observation *)
Lemma wn_fit_one mle m : m = Some "moments"%string -> exists mu, wn_dfit mle m [0] [Fin 1] = Ok (mu, 1 - / 10 ^ 9) /\ 0 <= mu <= 2 * PI /\ cos mu = 1 /\ sin mu = 0.
Proof.
  intros ->. unfold wn_dfit. cbn [map fval combine]. change (String.eqb "moments" "moments") with true. cbv iota. pose proof PI_RGT_0 as HP.
  unfold wn_fit_moments. cbn [existsb fst snd]. rewrite !(proj2 (Rltb_false _ _)) by lra. cbn [orb].
  assert (W : wtotal [(0, 1)] = 1) by (unfold wtotal; cbn; ring). rewrite W. rewrite (proj2 (Rleb_false 1 0)) by lra. cbn [map fst snd].
  rewrite wrap_in by lra. set (s := [(0, 1)]) in *.
  assert (C1 : Csum s = 1) by (unfold Csum, s; cbn; rewrite cos_0; ring).
  assert (S1 : Ssum s = 0) by (unfold Ssum, s; cbn; rewrite sin_0; ring).
  assert (Rs : circ_r_s s = 1).
  { unfold circ_r_s. rewrite compute_C_eq, compute_S_eq, C1, S1, W. replace ((1 / 1) ^ 2 + (0 / 1) ^ 2) with 1 by field. apply sqrt_1. }
  destruct (circ_mean_and_r_s_cases s) as [[H _]|[H ->]]; [lra|]. rewrite Rs.
  destruct (mean_dir_polar s ltac:(lra) ltac:(lra)) as (P1 & P2 & P3). rewrite C1 in P1. rewrite S1 in P2.
  assert (RL : Rlen s = 1). { rewrite circ_r_s_eq, W in Rs by lra. lra. }
  assert (CL : NpModel.clip 1 (/ 10 ^ 9) (1 - / 10 ^ 9) = 1 - / 10 ^ 9) by (unfold NpModel.clip; rewrite Rmax_left, Rmin_right by lra; reflexivity).
  rewrite CL. eexists. split; [reflexivity|].
  set (mm := wrap_direction _).
  assert (D : same_dir mm (mean_dir s)).
  { unfold mm, wrap_direction. eapply same_dir_trans; [apply wrap_same|]. apply pymod_same_dir. }
  split; [unfold mm, wrap_direction; apply wrap_range|]. rewrite (same_dir_cos _ _ D), (same_dir_sin _ _ D). rewrite RL in *. lra.
Qed.
Lemma cos_mult_dir n mu : cos mu = 1 -> sin mu = 0 -> cos (INR n * mu) = 1 /\ sin (INR n * mu) = 0.
Proof.
  intros Hc Hs. induction n as [|n [IH1 IH2]]; [cbn [INR]; rewrite Rmult_0_l, cos_0, sin_0; auto|].
  rewrite S_INR. replace ((INR n + 1) * mu) with (INR n * mu + mu) by ring. rewrite cos_plus, sin_plus, IH1, IH2, Hc, Hs. split; ring.
Qed.
Lemma wn_peak mu rho : 0 < rho -> cos mu = 1 -> sin mu = 0 -> 0 < wn_pdf mu rho 0.
Proof.
  intros Hr Hc Hs. unfold wn_pdf. pose proof PI_RGT_0. apply Rdiv_lt_0_compat; [|lra].
  rewrite (Rsum_ext_map _ (fun p => rho ^ (p ^ 2))).
  - assert (0 <= Rsum (map (fun p => rho ^ (p ^ 2)) (seq 1 29))); [|lra].
    assert (A : forall l : list nat, 0 <= Rsum (map (fun p => rho ^ (p ^ 2)) l)); [|apply A].
    induction l as [|a l IH]; [cbn; lra|]. cbn [map]. rewrite Rsum_cons. pose proof (pow_lt rho (a ^ 2) Hr). lra.
  - intros p _. replace (INR p * (0 - mu)) with (- (INR p * mu)) by ring. rewrite cos_neg, (proj1 (cos_mult_dir p mu Hc Hs)). ring.
Qed.
Lemma mocd_wn_one mle : exists m mu, mocd_fit wn_comp_ld (wn_dfit mle) [Some "moments"; Some "mle"]%string (cfg_cd true) (false, None) [[0]%nat] [0] = Ok m /\
  mx_p m = [Fin 1] /\ mx_cs m = [(mu, 1 - / 10 ^ 9)] /\ 0 <= mu <= 2 * PI /\ cos mu = 1 /\ sin mu = 0.
Proof.
  destruct (wn_fit_one mle _ eq_refl) as (mu & Ed & Hm & Hc & Hs). set (c := (mu, 1 - / 10 ^ 9)) in *.
  unfold mocd_fit. cbn [cfg_cd c_radian c_cycle c_K c_burnin c_threshold c_iters]. rewrite to_rad_in. cbn [in_radians].
  cbn [List.length Nat.ltb Nat.leb pick find covers seq forallb existsb Nat.eqb andb orb bind]. cbn [rmap]. unfold subset at 1. cbn [combine filter snd Nat.eqb map fst].
  unfold fit_component at 1. unfold subset. cbn [combine filter snd Nat.eqb map fst List.length]. change (fsum [Fin 1]) with (Fin (1 + 0)). cbv iota beta.
  replace (Rleb (1 + 0) (/ 10 ^ 12)) with false by (symmetry; destruct (Rleb_spec (1 + 0) (/ 10 ^ 12)) as [Z|_]; [exfalso; lra|reflexivity]).
  cbn [first_fit]. rewrite Ed. cbn [bind].
  assert (E1 : even_weights 1 = [Fin 1]) by (unfold even_weights; cbn; do 2 f_equal; field). rewrite E1.
  assert (LD : exists v, wn_comp_ld c 0 = Fin v).
  { unfold wn_comp_ld, wn_comp_pdf, c. cbn [fst snd]. assert (O : wn_ok mu (1 - / 10 ^ 9) = true) by (apply wn_ok_intro; lra). rewrite O, public_pdf_fin.
    pose proof PI_RGT_0. rewrite wrap_in by lra. rewrite (proj2 (Rltb_true _ _)); [eauto|]. apply wn_peak; auto. lra. }
  destruct LD as [ld0 LD].
  assert (G : gammas wt32 wn_comp_ld [Fin 1] [c] [0] = [[Fin 1]]).
  { unfold gammas. cbn [map]. unfold log_col, map2. cbn [combine map fst snd flmap]. rewrite LD. cbn [fadd]. now rewrite resp_one. }
  assert (St : exists v, mocd_step wn_comp_ld (wn_dfit mle) [Some "moments"; Some "mle"]%string 1 [0] ([Fin 1], [c]) = Ok (([Fin 1], [c]), v)).
  { eexists. unfold mocd_step. rewrite G. cbn [List.length seq combine rmap fst snd row map nth]. change (fsum [Fin 1]) with (Fin (1 + 0)).
    cbv iota beta. replace (isclose (1 + 0) 0) with false by (symmetry; destruct (isclose (1 + 0) 0) eqn:EI; [apply isclose0_true in EI; lra|reflexivity]).
    unfold fit_component. change (fsum [Fin 1]) with (Fin (1 + 0)).
    cbv iota beta. replace (Rleb (1 + 0) (/ 10 ^ 12)) with false by (symmetry; destruct (Rleb_spec (1 + 0) (/ 10 ^ 12)) as [Z|_]; [exfalso; lra|reflexivity]).
    cbn [first_fit]. rewrite Ed. cbn [bind].  f_equal. apply f_equal2; [|reflexivity]. apply f_equal2; [|reflexivity].
    unfold row_sums, normalised. cbn [seq map row nth]. change (fsum [Fin 1]) with (Fin (1 + 0)). rewrite fsum_cons. change (fsum []) with (Fin 0). cbn [fdiv].
    unfold np_div. destruct (Reqb_spec (1 + 0 + 0) 0) as [Z|_]; [exfalso; lra|]. do 2 f_equal. field. }
  destruct St as [v Sv]. cbn [em_loop].  rewrite Sv. cbn [bind Nat.ltb Nat.leb andb]. eexists. exists mu. split; [reflexivity|]. auto.
Qed.
Lemma mocd_wn_negative mle : exists m v, mocd_fit wn_comp_ld (wn_dfit mle) [Some "moments"; Some "mle"]%string (cfg_cd true) (false, None) [[0]%nat] [0] = Ok m /\
  mocd_predict_density wn_comp_pdf true (2 * PI) (Some m) (Some [PI]) = Ok [Fin v] /\ v < 0.
Proof.
  destruct (mocd_wn_one mle) as (m & mu & E & Ep & Ec & Hm & Hc & Hs). pose proof PI_RGT_0.
  exists m. eexists. split; [exact E|]. unfold mocd_predict_density, predict_density. rewrite to_rad_in. cbn [in_radians map]. unfold EmModel.density. rewrite Ep, Ec.
  unfold map2. cbn [combine map fst snd]. unfold wn_comp_pdf. cbn [fst snd].
  assert (O : wn_ok mu (1 - / 10 ^ 9) = true) by (apply wn_ok_intro; lra). rewrite O, public_pdf_fin, wrap_in by lra. rewrite fsum_cons. change (fsum []) with (Fin 0). cbn [fmul fadd].
  split; [reflexivity|].
  assert (A : wn_pdf mu (1 - / 10 ^ 9) (mu + PI) < 0).
  { apply wn_antipode; [lra|]. pose proof (bern_lower (/ 10 ^ 9) 841 ltac:(lra)) as B. replace (INR 841) with 841 in B by (rewrite INR_IZR_INZ; reflexivity). revert B. generalize ((1 - / 10 ^ 9) ^ 841). intros b B. lra. }
  assert (E2 : wn_pdf mu (1 - / 10 ^ 9) PI = wn_pdf mu (1 - / 10 ^ 9) (mu + PI)); [|lra].
  unfold wn_pdf. do 3 f_equal. apply Rsum_ext_map. intros p _. f_equal. replace (INR p * (mu + PI - mu)) with (INR p * PI) by ring.
  replace (INR p * (PI - mu)) with (INR p * PI - INR p * mu) by ring. destruct (cos_mult_dir p mu Hc Hs) as [A1 A2]. rewrite cos_minus, A1, A2. ring.
Qed.

(** ** Constructors *)
Lemma sensible_spec a : sensible (a_burnin a) (a_K a) (a_iters a) (a_threshold a) (a_unit a) <->
  Z.ltb (a_burnin a) 0 = false /\ Z.leb (a_K a) 0 = false /\ Z.leb (a_iters a) 0 = false /\ Rleb (a_threshold a) 0 = false /\
  (String.eqb (a_unit a) "degree" || String.eqb (a_unit a) "radian") = true.
Proof.
  unfold sensible. rewrite Z.ltb_ge, !Z.leb_gt, Rleb_false, orb_true_iff, !String.eqb_eq. tauto.
Qed.
Definition cfg_of (a : em_args) : em_cfg := {| c_burnin := Z.to_nat (a_burnin a); c_K := Z.to_nat (a_K a); c_iters := Z.to_nat (a_iters a);
  c_threshold := a_threshold a; c_radian := String.eqb (a_unit a) "radian"; c_cycle := a_cycle a |}.
Lemma em_init_spec a : (sensible (a_burnin a) (a_K a) (a_iters a) (a_threshold a) (a_unit a) /\ em_init a = Ok (cfg_of a)) \/
  (~ sensible (a_burnin a) (a_K a) (a_iters a) (a_threshold a) (a_unit a) /\ em_init a = Err ValueError).
Proof.
  rewrite sensible_spec. unfold em_init, cfg_of.
  destruct (Z.ltb (a_burnin a) 0); [right; split; [intros (? & _); discriminate|reflexivity]|].
  destruct (Z.leb (a_K a) 0); [right; split; [intros (_ & ? & _); discriminate|reflexivity]|].
  destruct (Z.leb (a_iters a) 0); [right; split; [intros (_ & _ & ? & _); discriminate|reflexivity]|].
  destruct (Rleb (a_threshold a) 0); [right; split; [intros (_ & _ & _ & ? & _); discriminate|reflexivity]|].
  destruct (_ || _); [left; repeat split|right; split; [intros (_ & _ & _ & _ & ?); discriminate|reflexivity]].
Qed.
Lemma cfg_of_ok a : sensible (a_burnin a) (a_K a) (a_iters a) (a_threshold a) (a_unit a) -> cfg_ok (cfg_of a).
Proof. intros (A & B & C & D & _). unfold cfg_ok, cfg_of. cbn. repeat split; try lia; lra. Qed.
Lemma existsb_In l s : existsb (String.eqb s) l = true <-> In s l.
Proof.
  rewrite existsb_exists. split; [intros (x & H & E); apply String.eqb_eq in E; now subst|intros H; exists s; split; [exact H|apply String.eqb_refl]].
Qed.
Definition names_of (d : dist_arg) (param_names : option (list string)) : list string :=
  match param_names with Some l => l | None => d_shapes d end.
Lemma flat_refused d : existsb (String.eqb (lower (d_name d))) allowed_mocd = true ->
  (String.eqb (lower (d_name d)) "vonmises_flattopped" || String.eqb (lower (d_name d)) "inverse_batschelet") = false.
Proof.
  rewrite existsb_In. generalize (lower (d_name d)). intros s H. repeat (destruct H as [<-|H]; [reflexivity|]). destruct H.
Qed.
Lemma mocd_init_spec d pn fm kw a :
  (d_circular d = false /\ mocd_init d pn fm kw a = Err TypeError) \/
  (d_circular d = true /\ sensible (a_burnin a) (a_K a) (a_iters a) (a_threshold a) (a_unit a) /\ In (lower (d_name d)) allowed_mocd /\
   d_weights d = true /\ names_of d pn <> [] /\
   mocd_init d pn fm kw a = Ok {| o_cfg := cfg_of a; o_names := names_of d pn;
     o_methods := match kw with Some m => [Some (lower m)] | None => normalise_fit_method fm end |}) \/
  (d_circular d = true /\ ~ (sensible (a_burnin a) (a_K a) (a_iters a) (a_threshold a) (a_unit a) /\ In (lower (d_name d)) allowed_mocd /\
   d_weights d = true /\ names_of d pn <> []) /\ mocd_init d pn fm kw a = Err ValueError).
Proof.
  rewrite sensible_spec, <- existsb_In. unfold mocd_init.
  destruct (d_circular d); cbn [negb]; [right|left; auto].
  destruct (Z.leb (a_K a) 0); [right; split; [reflexivity|]; split; [intros ((_ & ? & _) & _); discriminate|reflexivity]|].
  destruct (Z.leb (a_iters a) 0); [right; split; [reflexivity|]; split; [intros ((_ & _ & ? & _) & _); discriminate|reflexivity]|].
  destruct (Z.ltb (a_burnin a) 0); [right; split; [reflexivity|]; split; [intros ((? & _) & _); discriminate|reflexivity]|].
  destruct (Rleb (a_threshold a) 0); [right; split; [reflexivity|]; split; [intros ((_ & _ & _ & ? & _) & _); discriminate|reflexivity]|].
  destruct (String.eqb (a_unit a) "degree" || String.eqb (a_unit a) "radian"); cbn [negb]; [|right; split; [reflexivity|]; split; [intros ((_ & _ & _ & _ & ?) & _); discriminate|reflexivity]].
  destruct (existsb _ _) eqn:EN; cbn [negb]; [|right; split; [reflexivity|]; split; [intros (_ & ? & _); discriminate|reflexivity]].
  destruct (d_weights d); cbn [negb]; [|right; split; [reflexivity|]; split; [intros (_ & _ & ? & _); discriminate|reflexivity]].
  cbv zeta. fold (names_of d pn). rewrite (flat_refused d EN), andb_false_r.
  destruct (names_of d pn) as [|n0 ns]; [right; split; [reflexivity|]; split; [intros (_ & _ & _ & H); congruence|reflexivity]|].
  left. split; [reflexivity|]. split; [repeat split|]. split; [reflexivity|]. split; [reflexivity|]. split; [discriminate|]. reflexivity.
Qed.

(** ** Parameter names *)
Lemma lookup_combine names : forall l, NoDup names -> List.length l = List.length names ->
  rmap (fun n => lookup n (combine names l)) names = Ok l.
Proof.
  assert (A : forall names l pre, NoDup names -> List.length l = List.length names -> (forall n, In n names -> ~ In n (map fst pre)) ->
    rmap (fun n => lookup n (pre ++ combine names l)) names = Ok l).
  { clear. induction names as [|n names IH]; intros [|x l] pre ND L HP; try discriminate L; [reflexivity|]. inversion ND as [|? ? N1 N2]; subst.
    cbn [rmap combine].
    assert (E : forall pre, ~ In n (map fst pre) -> lookup n (pre ++ (n, x) :: combine names l) = Ok x).
    { clear. induction pre as [|[k v] pre IH]; intros H; cbn [app lookup]; [now rewrite String.eqb_refl|]. cbn [map fst] in H.
      destruct (String.eqb_spec n k) as [->|N]; [exfalso; apply H; now left|]. apply IH. intros Hi. apply H. now right. }
    rewrite (E pre (HP n ltac:(now left))). cbn [bind].
    specialize (IH l (pre ++ [(n, x)]) N2 ltac:(cbn in L; lia)). rewrite <- app_assoc in IH. cbn [app] in IH. rewrite IH; [reflexivity|].
    intros k Hk Hi. rewrite map_app, in_app_iff in Hi. destruct Hi as [Hi|[Hi|[]]]; [exact (HP k ltac:(now right) Hi)|]. cbn [fst] in Hi. subst. contradiction. }
  intros l ND L. exact (A names l [] ND L ltac:(intros n _ [])).
Qed.
