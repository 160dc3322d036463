From Verif Require Import Prelude NpModel NpProofs CircleSpec UtilsModel UtilsProofs DescModel DescProofs
  DescSpec DescApi DescApi2 Desc2Model Desc5Proofs ArcProofs HypProofs Hyp2Proofs HypGofSpec HypGofProofs
  HypMultiModel HypMultiSpec HypMultiProofs.

(** * circ_anova: invariance and the likelihood ratio statistic *)
Definition same_anova (x y : res anova_result) : Prop :=
  match x, y with
  | Ok a, Ok b => an_stat b = an_stat a /\ an_pval b = an_pval a /\ an_df b = an_df a /\ an_SS b = an_SS a /\
      an_MS b = an_MS a /\ an_kappa b = an_kappa a /\ an_R_all b = an_R_all a /\ Permutation (an_R a) (an_R b)
  | Err e, Err f => e = f
  | _, _ => False
  end.
Lemma turned_groups_R t a b : turned_groups t a b -> Permutation (map resultant a) (map resultant b).
Proof.
  intros (l & P & F). rewrite (Forall2_map_eq resultant (turned_obs t) l b); auto.
  - apply Permutation_map, P.
  - intros. eapply turned_obs_resultant; eauto.
Qed.
Lemma anova_F_invariant fcdf ccdf a b t kappa f_mod : Forall (fun g => g <> []) a -> turned_groups t a b ->
  same_anova (circ_anova fcdf ccdf a "F-test" kappa f_mod) (circ_anova fcdf ccdf b "F-test" kappa f_mod).
Proof.
  intros NE G. pose proof (turned_groups_nonempty _ _ _ G NE) as NE'.
  pose proof (turned_groups_length _ _ _ G) as L.
  pose proof (turned_groups_concat _ _ _ G) as C. pose proof (turned_obs_length _ _ _ C) as LC.
  unfold circ_anova. rewrite L. destruct (Nat.ltb_spec (length a) 2); [reflexivity|].
  rewrite !anova_R by auto.
  rewrite !circ_r_resultant by (apply concat_nonempty; auto; lia).
  rewrite (turned_obs_resultant _ _ _ C), <- LC.
  rewrite (turned_groups_sum resultant t a b) by (auto; intros; eapply turned_obs_resultant; eauto).
  destruct (match kappa with Some x => Ok x | None => circ_kappa (resultant (concat a) / INR (length (concat a))) None end)
    as [kap|e]; [|reflexivity].
  cbn [bind]. cbn [String.eqb Ascii.eqb Bool.eqb].
  match goal with |- same_anova (bind ?X _) _ => destruct X; [|reflexivity] end.
  cbn. repeat split. apply turned_groups_R with t, G.
Qed.

Lemma mean_polar g m : g <> [] -> circ_mean g None = Fin m ->
  Rsum (map cos g) = resultant g * cos m /\ Rsum (map sin g) = resultant g * sin m.
Proof.
  intros N E. destruct (circ_mean_defined _ _ _ E) as [Hr ->].
  assert (P : 0 < wtotal (smp g None)) by (apply smp_pos, valid_none, N).
  assert (Q : 0 < circ_r_s (smp g None)) by (unfold circ_r in Hr; fold (smp g None) in Hr; lra).
  rewrite resultant_Rlen.
  pose proof (mean_dir_polar _ P Q) as (M1 & M2 & _). rewrite Csum_none in M1. rewrite Ssum_none in M2.
  split; assumption.
Qed.
Lemma mean_none_iff g : circ_mean g None = NaN \/ exists m, circ_mean g None = Fin m.
Proof. destruct (circ_mean_cases g None) as [[_ H]|[_ H]]; eauto. Qed.
Lemma mean_fin_iff g : (exists m, circ_mean g None = Fin m) <-> / 100000000 < circ_r g None.
Proof.
  destruct (circ_mean_cases g None) as [[H1 H2]|[H1 H2]].
  - split; [intros (m & E); rewrite E in H2; discriminate|intros; lra].
  - split; eauto.
Qed.
Lemma lrt_sum groups M : Forall (fun g => g <> []) groups ->
  Forall (fun g => / 100000000 < circ_r g None) groups ->
  fsum (map2 (fun r m => fmul (Fin r) (one_minus (cos_diff m (Fin M)))) (map resultant groups)
             (map (fun g => circ_mean g None) groups))
  = Fin (Rsum (map resultant groups) - (Rsum (map cos (concat groups)) * cos M + Rsum (map sin (concat groups)) * sin M)).
Proof.
  intros NE RR. rewrite pooled_proj. induction groups as [|g l IH]; [cbn; f_equal; lra|].
  inversion NE; inversion RR; subst.
  destruct (proj2 (mean_fin_iff g) H5) as (m & Em). destruct (mean_polar g m H1 Em) as [Ec Es].
  unfold map2 in *. cbn [map combine fst snd fsum fold_right]. unfold fsum in IH.
  rewrite IH by auto. rewrite Em. cbn [cos_diff one_minus fmul]. f_equal.
  rewrite !Rsum_cons, Ec, Es, cos_minus. ring.
Qed.
Lemma lrt_sum_nan groups M : ~ Forall (fun g => / 100000000 < circ_r g None) groups \/ M = NaN -> groups <> [] ->
  M = NaN \/ (exists x, M = Fin x) ->
  fsum (map2 (fun r m => fmul (Fin r) (one_minus (cos_diff m M))) (map resultant groups)
             (map (fun g => circ_mean g None) groups)) = NaN.
Proof.
  intros H NE HM. assert (K : exists g, In g groups /\ (cos_diff (circ_mean g None) M = NaN)).
  { destruct HM as [->|[x ->]].
    - destruct groups as [|g l]; [congruence|]. exists g. split; [now left|]. destruct (circ_mean g None); reflexivity.
    - destruct H as [H|H]; [|discriminate].
      assert (X : Exists (fun g => ~ / 100000000 < circ_r g None) groups).
      { apply neg_Forall_Exists_neg; auto. intros y. destruct (Rlt_dec (/ 100000000) (circ_r y None)); auto. }
      apply Exists_exists in X. destruct X as (g & Hg & X). exists g. split; auto.
      destruct (circ_mean_cases g None) as [[_ E]|[E _]]; [rewrite E; reflexivity|contradiction]. }
  destruct K as (g & Hg & K). clear H NE. unfold map2, fsum.
  induction groups as [|h l IH]; [easy|]. cbn [map combine fst snd fold_right].
  destruct Hg as [->|Hg]; [rewrite K; reflexivity|]. rewrite IH by auto.
  destruct (fmul _ _); reflexivity.
Qed.
Lemma anova_LRT_spec fcdf ccdf groups kappa f_mod : Forall (fun g => g <> []) groups -> (2 <= length groups)%nat ->
  match kappa with Some x => x <> 0 | None => 0 < resultant (concat groups) end ->
  exists t kap, circ_anova fcdf ccdf groups "LRT" kappa f_mod = Ok t /\
    match kappa with Some x => kap = x
    | None => circ_kappa (resultant (concat groups) / INR (length (concat groups))) None = Ok kap end /\
    an_df t = DfLRT (Z.of_nat (length groups) - 1) /\
    an_pval t = one_minus (ccdf (an_stat t) (Z.of_nat (length groups) - 1)%Z) /\
    (Forall (fun g => / 100000000 < circ_r g None) (concat groups :: groups) -> an_stat t = Fin (lrt_value kap groups)) /\
    (~ Forall (fun g => / 100000000 < circ_r g None) (concat groups :: groups) -> an_stat t = NaN).
Proof.
  intros NE L2 KU. pose proof (concat_nonempty groups ltac:(lia) NE) as NC.
  unfold circ_anova. destruct (Nat.ltb_spec (length groups) 2); [lia|].
  rewrite anova_R by auto. rewrite circ_r_resultant by auto.
  set (RR := resultant (concat groups)) in *. set (N := INR (length (concat groups))) in *.
  assert (HN0 : 0 < N) by (apply lt_0_INR; destruct (concat groups); [congruence|simpl; lia]).
  assert (HRN : RR <= N) by apply resultant_le.
  assert (KK : exists kap, match kappa with Some x => Ok x | None => circ_kappa (RR / N) None end = Ok kap /\ kap <> 0 /\
             match kappa with Some x => kap = x | None => circ_kappa (RR / N) None = Ok kap end).
  { destruct kappa as [x|]; [exists x; auto|].
    exists (kappa0 (RR / N)). rewrite circ_kappa_none. split; auto. split; auto.
    apply Rgt_not_eq, kappa0_pos. split; [apply Rdiv_lt_0_compat; auto|].
    apply Rmult_le_reg_r with N; [lra|]. unfold Rdiv. rewrite Rmult_assoc, Rinv_l by lra. lra. }
  destruct KK as (kap & E1 & Hk & E2). rewrite E1. cbn [bind]. cbn [String.eqb Ascii.eqb Bool.eqb].
  destruct (Reqb_spec kap 0); [contradiction|].
  eexists. exists kap. split; [reflexivity|]. cbn [an_df an_pval an_stat]. split; [exact E2|].
  split; [reflexivity|]. split; [reflexivity|]. split.
  - intros F. inversion F as [|? ? F1 F2]; subst. destruct (proj2 (mean_fin_iff _) F1) as (M & EM). rewrite EM.
    rewrite lrt_sum by auto. destruct (mean_polar _ _ NC EM) as [Ec Es]. fold RR in Ec, Es. rewrite Ec, Es.
    cbn. f_equal. unfold lrt_value. fold RR N. rewrite map_map. f_equal. f_equal. f_equal.
    pose proof (sin2_cos2 M) as P. unfold Rsqr in P. nra.
  - intros F. rewrite lrt_sum_nan; auto.
    + destruct (Forall_dec _ (fun g => Rlt_dec (/ 100000000) (circ_r g None)) groups) as [G|G]; auto.
      destruct (circ_mean_cases (concat groups) None) as [[_ E]|[E _]]; auto.
    + intros ->. simpl in L2. lia.
    + apply mean_none_iff.
Qed.
Lemma anova_LRT_zero fcdf ccdf groups f_mod : Forall (fun g => g <> []) groups -> (2 <= length groups)%nat ->
  resultant (concat groups) = 0 -> circ_anova fcdf ccdf groups "LRT" None f_mod = Err ZeroDivisionError.
Proof.
  intros NE L2 Z. unfold circ_anova. destruct (Nat.ltb_spec (length groups) 2); [lia|].
  rewrite circ_r_resultant by (apply concat_nonempty; auto; lia). rewrite Z, circ_kappa_none. cbn [bind].
  cbn [String.eqb Ascii.eqb Bool.eqb].
  replace (kappa0 (0 / INR (length (concat groups)))) with 0.
  - destruct (Reqb_spec 0 0); [reflexivity|lra].
  - unfold Rdiv. rewrite Rmult_0_l. unfold kappa0. destruct (Rltb_spec 0 (53/100)); lra.
Qed.
Lemma anova_errors fcdf ccdf groups method kappa f_mod :
  ((length groups < 2)%nat -> circ_anova fcdf ccdf groups method kappa f_mod = Err ValueError) /\
  ((2 <= length groups)%nat -> method <> "F-test"%string -> method <> "LRT"%string ->
     circ_anova fcdf ccdf groups method kappa f_mod = Err ValueError).
Proof.
  unfold circ_anova. split; intros H.
  - destruct (Nat.ltb_spec (length groups) 2); [reflexivity|lia].
  - intros A B. destruct (Nat.ltb_spec (length groups) 2); [lia|].
    apply String.eqb_neq in A, B. rewrite A, B. destruct kappa; [reflexivity|]. rewrite circ_kappa_none. reflexivity.
Qed.
(** Two single observations almost opposite to each other. *)
Lemma lrt_refuted fcdf ccdf : exists a b s t, circ_anova fcdf ccdf [[a]; [b]] "LRT" None true = Ok t /\
  an_stat t = Fin s /\ s < 0.
Proof.
  set (th := 2 * acos (1/10)).
  assert (Hc : cos th = - (98/100)).
  { unfold th. rewrite cos_2a_cos, cos_acos by lra. lra. }
  assert (Hs : sin th ^ 2 = 1 - (98/100) ^ 2).
  { pose proof (sin2_cos2 th) as P. unfold Rsqr in P. rewrite Hc in P. nra. }
  assert (R1 : forall x, resultant [x] = 1).
  { intros x. unfold resultant. simpl. pose proof (sin2_cos2 x) as P. unfold Rsqr in P.
    match goal with |- sqrt ?X = 1 => replace X with 1 by nra end. apply sqrt_1. }
  assert (R2 : resultant (concat [[0]; [th]]) = 2/10).
  { unfold resultant. simpl. rewrite cos_0, sin_0, Hc.
    match goal with |- sqrt ?X = _ => replace X with ((2/10) ^ 2) by nra end. apply sqrt_pow2. lra. }
  assert (NE : Forall (fun g => g <> []) [[0]; [th]]) by (repeat constructor; discriminate).
  destruct (anova_LRT_spec fcdf ccdf [[0]; [th]] None true NE ltac:(simpl; lia) ltac:(rewrite R2; lra))
    as (t & kap & E & Ek & _ & _ & Hv & _).
  exists 0, th. eexists. exists t. split; [exact E|]. split.
  - apply Hv. apply Forall_forall. intros g Hg.
    assert (C : circ_r g None * INR (length g) = resultant g).
    { apply circ_r_resultant. simpl in Hg. destruct Hg as [<-|[<-|[<-|[]]]]; discriminate. }
    simpl in Hg. destruct Hg as [<-|[<-|[<-|[]]]].
    + change [0; th] with (concat [[0]; [th]]) in C at 3. rewrite R2 in C. simpl in C. lra.
    + rewrite R1 in C. simpl in C. lra.
    + rewrite R1 in C. simpl in C. lra.
  - unfold lrt_value. rewrite R2. rewrite R2 in Ek. cbn [map]. rewrite !R1, !Rsum_cons, Rsum_nil.
    rewrite circ_kappa_none in Ek. injection Ek as Ek. simpl length in *. simpl INR in *.
    replace (1 + 1) with 2 in * by ring.
    assert (K : kap = 1/10 * 2 + (1/10) ^ 3 + 5 * (1/10) ^ 5 / 6).
    { rewrite <- Ek. replace (2/10/2) with (1/10) by field. unfold kappa0.
      destruct (Rltb_spec (1/10) (53/100)); [field|lra]. }
    assert (B : 20/100 < kap < 21/100) by (rewrite K; lra).
    assert (1 - 1 / (4 * kap) * (1 / 1 + (1 / 1 + 0) - 1 / 2) < 0).
    { assert (1 < 1 / (4 * kap)).
      { apply Rmult_lt_reg_r with (4 * kap); [lra|]. unfold Rdiv. rewrite Rmult_assoc, Rinv_l by lra. lra. }
      lra. }
    nra.
Qed.

(** * concentration_test *)
Lemma disp_pos g : (2 <= length g)%nat -> ~ one_direction g -> 0 < disp g.
Proof.
  intros L N. apply Rdiv_lt_0_compat; [|apply lt_0_INR; lia].
  pose proof (resultant_le g). assert (resultant g <> INR (length g)); [|lra].
  intros E. apply N, resultant_full; auto. destruct g; [simpl in L; lia|discriminate].
Qed.
Definition conc_p (fsf : R -> nat -> nat -> R) (f : R) (d1 d2 : nat) : R :=
  Rmin (if Rle_dec 1 f then 2 * fsf f d1 d2 else 2 * fsf (/ f) d2 d1) 1.
Lemma conc_run fsf a b : (2 <= length a)%nat -> (2 <= length b)%nat -> ~ one_direction a -> ~ one_direction b ->
  concentration_test fsf a b = Ok {| co_f := disp a / disp b;
    co_pval := conc_p fsf (disp a / disp b) (length a - 1) (length b - 1);
    co_df1 := (length a - 1)%nat; co_df2 := (length b - 1)%nat |}.
Proof.
  intros La Lb Na Nb. pose proof (disp_pos a La Na) as Da. pose proof (disp_pos b Lb Nb) as Db.
  assert (NEa : a <> []) by (destruct a; [simpl in La; lia|discriminate]).
  assert (NEb : b <> []) by (destruct b; [simpl in Lb; lia|discriminate]).
  assert (Pa : 0 < INR (length a - 1)) by (apply lt_0_INR; lia).
  assert (Pb : 0 < INR (length b - 1)) by (apply lt_0_INR; lia).
  assert (Ea : INR (length a) * circ_r a None = resultant a) by (rewrite Rmult_comm; apply circ_r_resultant; auto).
  assert (Eb : INR (length b) * circ_r b None = resultant b) by (rewrite Rmult_comm; apply circ_r_resultant; auto).
  unfold concentration_test. destruct (Nat.ltb_spec (Nat.min (length a) (length b)) 2); [lia|].
  rewrite Ea, Eb. unfold disp in Da, Db.
  assert (Xa : 0 < INR (length a) - resultant a).
  { apply Rmult_lt_compat_r with (r := INR (length a - 1)) in Da; auto.
    unfold Rdiv in Da. rewrite Rmult_0_l, Rmult_assoc, Rinv_l in Da by lra. lra. }
  assert (Xb : 0 < INR (length b) - resultant b).
  { apply Rmult_lt_compat_r with (r := INR (length b - 1)) in Db; auto.
    unfold Rdiv in Db. rewrite Rmult_0_l, Rmult_assoc, Rinv_l in Db by lra. lra. }
  assert (Q1 : 0 < INR (length b - 1) * (INR (length a) - resultant a)) by (apply Rmult_lt_0_compat; auto).
  assert (Q2 : 0 < INR (length a - 1) * (INR (length b) - resultant b)) by (apply Rmult_lt_0_compat; auto).
  destruct (Rleb_spec (INR (length a - 1) * (INR (length b) - resultant b)) 0); [lra|].
  destruct (Rleb_spec (INR (length b - 1) * (INR (length a) - resultant a)) 0); [lra|]. cbn [orb].
  assert (E : INR (length b - 1) * (INR (length a) - resultant a) / (INR (length a - 1) * (INR (length b) - resultant b))
              = disp a / disp b) by (unfold disp; field; repeat split; lra).
  rewrite E. f_equal. f_equal. unfold conc_p, Rleb. destruct (Rle_dec 1 (disp a / disp b)); auto.
  f_equal. f_equal. f_equal. unfold Rdiv. rewrite Rmult_1_l. reflexivity.
Qed.
Lemma conc_errors fsf a b : (length a < 2)%nat \/ (length b < 2)%nat \/ one_direction a \/ one_direction b ->
  concentration_test fsf a b = Err ValueError.
Proof.
  intros H. unfold concentration_test. destruct (Nat.ltb_spec (Nat.min (length a) (length b)) 2); auto.
  assert (NEa : a <> []) by (destruct a; [simpl in *; lia|discriminate]).
  assert (NEb : b <> []) by (destruct b; [simpl in *; lia|discriminate]).
  assert (Ea : INR (length a) * circ_r a None = resultant a) by (rewrite Rmult_comm; apply circ_r_resultant; auto).
  assert (Eb : INR (length b) * circ_r b None = resultant b) by (rewrite Rmult_comm; apply circ_r_resultant; auto).
  rewrite Ea, Eb. destruct H as [H|[H|[H|H]]]; [lia|lia| |].
  - apply resultant_full in H; auto. rewrite H. replace (INR (length a) - INR (length a)) with 0 by ring.
    rewrite Rmult_0_r. destruct (Rleb_spec 0 0); [|lra]. now rewrite orb_true_r.
  - apply resultant_full in H; auto. rewrite H. replace (INR (length b) - INR (length b)) with 0 by ring.
    rewrite Rmult_0_r. destruct (Rleb_spec 0 0); [|lra]. reflexivity.
Qed.
Lemma conc_swap fsf a b t : concentration_test fsf a b = Ok t -> co_f t <> 1 \/ length a = length b ->
  exists t', concentration_test fsf b a = Ok t' /\ co_f t' = / co_f t /\ co_pval t' = co_pval t /\
    co_df1 t' = co_df2 t /\ co_df2 t' = co_df1 t.
Proof.
  intros E H.
  assert (D : (2 <= length a)%nat /\ (2 <= length b)%nat /\ ~ one_direction a /\ ~ one_direction b).
  { assert (X : forall P : Prop, (P -> concentration_test fsf a b = Err ValueError) -> ~ P)
      by (intros P K p; rewrite (K p) in E; discriminate).
    repeat split; try (apply X; intros; apply conc_errors; auto).
    - destruct (le_lt_dec 2 (length a)); auto. exfalso. revert l. apply X. intros. apply conc_errors; auto.
    - destruct (le_lt_dec 2 (length b)); auto. exfalso. revert l. apply X. intros. apply conc_errors; auto. }
  destruct D as (La & Lb & Na & Nb). pose proof (disp_pos a La Na) as Da. pose proof (disp_pos b Lb Nb) as Db.
  rewrite (conc_run fsf a b) in E by auto. injection E as <-. cbn in *.
  rewrite (conc_run fsf b a) by auto. eexists. split; [reflexivity|]. cbn.
  assert (F : disp b / disp a = / (disp a / disp b)) by (field; lra). rewrite F.
  split; [reflexivity|]. split; [|auto].
  assert (P : 0 < disp a / disp b) by (apply Rdiv_lt_0_compat; auto).
  unfold conc_p. rewrite Rinv_inv.
  destruct (Rle_dec 1 (/ (disp a / disp b))) as [A|A]; destruct (Rle_dec 1 (disp a / disp b)) as [B|B]; auto.
  - assert (disp a / disp b = 1).
    { apply Rle_antisym; auto. apply Rmult_le_compat_r with (r := disp a / disp b) in A; [|lra].
      rewrite Rinv_l in A by lra. lra. }
    destruct H as [H|H]; [contradiction|]. rewrite H0, Rinv_1, H. reflexivity.
  - exfalso. apply A. apply Rmult_le_reg_r with (disp a / disp b); auto. rewrite Rinv_l by lra. lra.
Qed.
Lemma conc_range fsf a b t : (forall x d1 d2, 0 < x -> 0 <= fsf x d1 d2) ->
  concentration_test fsf a b = Ok t -> 0 < co_f t /\ 0 <= co_pval t <= 1.
Proof.
  intros HF E.
  assert (D : (2 <= length a)%nat /\ (2 <= length b)%nat /\ ~ one_direction a /\ ~ one_direction b).
  { assert (X : forall P : Prop, (P -> concentration_test fsf a b = Err ValueError) -> ~ P)
      by (intros P K p; rewrite (K p) in E; discriminate).
    repeat split; try (apply X; intros; apply conc_errors; auto).
    - destruct (le_lt_dec 2 (length a)); auto. exfalso. revert l. apply X. intros. apply conc_errors; auto.
    - destruct (le_lt_dec 2 (length b)); auto. exfalso. revert l. apply X. intros. apply conc_errors; auto. }
  destruct D as (La & Lb & Na & Nb). pose proof (disp_pos a La Na) as Da. pose proof (disp_pos b Lb Nb) as Db.
  rewrite (conc_run fsf a b) in E by auto. injection E as <-. cbn.
  assert (P : 0 < disp a / disp b) by (apply Rdiv_lt_0_compat; auto). split; auto. unfold conc_p.
  split; [|apply Rmin_r]. apply Rmin_glb; [|lra].
  destruct (Rle_dec 1 (disp a / disp b)).
  - pose proof (HF (disp a / disp b) (length a - 1)%nat (length b - 1)%nat P). lra.
  - pose proof (HF (/ (disp a / disp b)) (length b - 1)%nat (length a - 1)%nat (Rinv_0_lt_compat _ P)). lra.
Qed.
(** At F = 1 with unequal sizes the order of the samples matters. *)
Lemma conc_swap_refuted fsf : fsf 1 1%nat 2%nat < 1/2 < fsf 1 2%nat 1%nat ->
  exists a b t t', concentration_test fsf a b = Ok t /\ concentration_test fsf b a = Ok t' /\
    co_pval t < 1 /\ co_pval t' = 1.
Proof.
  intros H. exists [- (PI/3); PI/3], [0; - (PI/2); PI/2].
  assert (Ra : resultant [- (PI/3); PI/3] = 1).
  { unfold resultant. simpl. rewrite cos_neg, sin_neg, cos_PI3.
    match goal with |- sqrt ?X = 1 => replace X with 1 by field end. apply sqrt_1. }
  assert (Rb : resultant [0; - (PI/2); PI/2] = 1).
  { unfold resultant. simpl. rewrite cos_neg, sin_neg, cos_0, sin_0, cos_PI2, sin_PI2.
    match goal with |- sqrt ?X = 1 => replace X with 1 by field end. apply sqrt_1. }
  assert (Na : ~ one_direction [- (PI/3); PI/3]).
  { intros K. apply resultant_full in K; [|discriminate]. rewrite Ra in K. simpl in K. lra. }
  assert (Nb : ~ one_direction [0; - (PI/2); PI/2]).
  { intros K. apply resultant_full in K; [|discriminate]. rewrite Rb in K. simpl in K. lra. }
  eexists _, _. rewrite (conc_run fsf _ _) by (auto; simpl; lia). rewrite (conc_run fsf _ _) by (auto; simpl; lia).
  split; [reflexivity|]. split; [reflexivity|]. cbn [co_pval].
  unfold disp. rewrite Ra, Rb. simpl length. cbn [Nat.sub]. simpl INR.
  replace ((1 + 1 - 1) / 1 / ((1 + 1 + 1 - 1) / (1 + 1))) with 1 by field.
  replace ((1 + 1 + 1 - 1) / (1 + 1) / ((1 + 1 - 1) / 1)) with 1 by field.
  unfold conc_p. destruct (Rle_dec 1 1); [|lra]. split.
  - apply Rle_lt_trans with (2 * fsf 1 1%nat 2%nat); [apply Rmin_l|lra].
  - apply Rmin_right. lra.
Qed.
