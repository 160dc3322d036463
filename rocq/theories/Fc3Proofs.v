(** wrapcauchy's fit. *)
From Coq Require Import String.
From Verif Require Import Prelude NpModel NpProofs CircleSpec IntSpec IntProofs DescModel DescProofs CorrModel DistModel DistSpec DistProofs Dist2Proofs Dist3Proofs Dist4Proofs Dist6Proofs Dist7Proofs Dist8Proofs JpProofs Jp8Proofs CwModel CwSpec Cw3Proofs Cw4Proofs FcModel FcSpec FcProofs Fc2Proofs.
Import ListNotations.
Open Scope R_scope.
Open Scope list_scope.

Lemma wc_pdf_pos mu rho x : 0 <= rho < 1 -> 0 < wc_pdf mu rho x.
Proof. intros H. pose proof PI_RGT_0. unfold wc_pdf. fold (wc_D mu rho x). apply Rdiv_lt_0_compat; [nra|]. apply Rmult_lt_0_compat; [lra|apply wc_D_pos, H]. Qed.
Lemma wc_ln_pdf mu rho x : 0 <= rho < 1 -> ln (wc_pdf mu rho x) = ln (1 - rho ^ 2) - ln (2 * PI) - ln (wc_D mu rho x).
Proof.
  intros H. pose proof PI_RGT_0. pose proof (wc_D_pos mu rho x H). unfold wc_pdf. fold (wc_D mu rho x). rewrite ln_div_pos, ln_mult; try lra; try nra.
Qed.
Lemma wc_D_wrap mu rho x : wc_D mu rho (wrap_angles x) = wc_D mu rho x.
Proof. destruct (wrap_same x) as [k ->]. unfold wc_D. replace (x + 2 * PI * IZR k - mu) with (x - mu + 2 * PI * IZR k) by ring. rewrite NpProofs.cos_turns. reflexivity. Qed.
Definition wc_far (s : list (R * R)) mu rho := forall d, In d s -> / 10 ^ 15 <= 1 + rho ^ 2 - 2 * rho * cos (fst d - mu).
Lemma wc_far_wrapped s mu rho : wc_far s mu rho -> wc_far (cw_wrapped s) mu rho.
Proof. unfold wc_far. intros H. apply (wrapped_in s (fun x => / 10 ^ 15 <= wc_D mu rho x)); [intros x; rewrite wc_D_wrap; auto|exact H]. Qed.
Lemma wc_nll_fin s mu rho : 0 <= rho < 1 -> exists v, wc_nll s mu rho = Fin v.
Proof. intros H. unfold wc_nll. rewrite (proj2 (Rleb_true 0 rho)), (proj2 (Rltb_true rho 1)) by lra. eexists. reflexivity. Qed.
Lemma wc_nll_lik s mu rho : 0 <= rho < 1 -> wc_far s mu rho -> wc_nll s mu rho = Fin (- loglik (wc_pdf mu rho) s).
Proof.
  intros H F. unfold wc_nll. rewrite (proj2 (Rleb_true 0 rho)), (proj2 (Rltb_true rho 1)) by lra. cbn [andb negb]. do 2 f_equal. unfold loglik. apply Rsum_ext_map. intros d I. f_equal. rewrite wc_ln_pdf by exact H. unfold wc_den, wc_D. rewrite Rmax_left by (apply F, I). replace (1 + - rho ^ 2) with (1 - rho ^ 2) by ring. reflexivity.
Qed.
Lemma wc_stat s mu rho : (forall d, In d s -> 0 <= snd d) -> 0 < rho < 1 -> rho * wc_S s mu rho = 0 -> Rsum (map snd s) * (2 * rho / (1 - rho ^ 2)) + (2 * rho * wc_P s mu rho - 2 * wc_Q s mu rho) = 0 ->
  near_mle wc_pdf (fun m r => 0 <= r < 1) s mu rho 0.
Proof.
  intros Hw Hr H1 H2 m r Hmr _. rewrite Rplus_0_r. assert (H3 : wc_S s mu rho = 0) by (apply Rmult_integral in H1; destruct H1; [lra|assumption]). apply wc_gap; try assumption; try lra; unfold Rdiv in *; lra.
Qed.
Lemma loglik_wc_dmu s mu rho : 0 < rho < 1 -> derivable_pt_lim (fun m => loglik (wc_pdf m rho) s) mu (2 * rho * wc_S s mu rho).
Proof.
  intros Hr. unfold loglik, wc_S. rewrite <- Rsum_scal_map. apply (dlim_Rsum (fun p m => snd p * ln (wc_pdf m rho (fst p)))). intros d _. pose proof (wc_D_pos mu rho (fst d) ltac:(lra)) as D.
  apply (dlim_ext_loc (fun m => snd d * (ln (1 - rho ^ 2) - ln (2 * PI) - ln (wc_D m rho (fst d)))) _ mu _ (mu - 1) (mu + 1)); [lra| |].
  - intros m _. rewrite wc_ln_pdf by lra. reflexivity.
  - eapply dlim_eq; [|apply dlim_scal, dlim_minus; [apply dlim_const|apply dlim_ln; [exact D|unfold wc_D; apply dlim_minus; [apply dlim_const|apply dlim_scal, dlim_cos_mu]]]]. cbv beta. field. lra.
Qed.
Lemma loglik_wc_drho s mu rho : 0 < rho < 1 -> derivable_pt_lim (fun r => loglik (wc_pdf mu r) s) rho (- (Rsum (map snd s) * (2 * rho / (1 - rho ^ 2)) + (2 * rho * wc_P s mu rho - 2 * wc_Q s mu rho))).
Proof.
  intros Hr. assert (q0 : 0 < 1 - rho ^ 2) by nra. unfold loglik. eapply dlim_eq; [|apply (dlim_Rsum (fun p r => snd p * ln (wc_pdf mu r (fst p))) (fun p => snd p * (- (2 * rho / (1 - rho ^ 2)) - (2 * rho - 2 * cos (fst p - mu)) / wc_D mu rho (fst p))))].
  - unfold wc_P, wc_Q. induction s as [|d s IH]; [simpl; ring|]. cbn [map]. rewrite !Rsum_cons. rewrite IH. pose proof (wc_D_pos mu rho (fst d) ltac:(lra)). field. split; lra.
  - intros d _. pose proof (wc_D_pos mu rho (fst d) ltac:(lra)) as D. apply (dlim_ext_loc (fun r => snd d * (ln (1 - r ^ 2) - ln (2 * PI) - ln (wc_D mu r (fst d)))) _ rho _ 0 1); [lra| |].
    + intros r Hr'. rewrite wc_ln_pdf by lra. reflexivity.
    + eapply dlim_eq; [|apply dlim_scal, dlim_minus; [apply dlim_minus; [apply dlim_ln; [exact q0|apply dlim_minus; [apply dlim_const|apply derivable_pt_lim_pow]]|apply dlim_const]|apply dlim_ln; [exact D|unfold wc_D; apply dlim_minus; [apply dlim_plus; [apply dlim_const|apply derivable_pt_lim_pow]|apply dlim_mult; [apply dlim_scal, dlim_id|apply dlim_const]]]]]. cbn [pred INR pow]. cbv beta. cbn [pow] in *. field. split; lra.
Qed.
Lemma wc_stationary s mu rho : (forall d, In d s -> 0 <= snd d) -> 0 < rho < 1 ->
  derivable_pt_lim (fun m => loglik (wc_pdf m rho) s) mu 0 -> derivable_pt_lim (fun r => loglik (wc_pdf mu r) s) rho 0 ->
  near_mle wc_pdf (fun m r => 0 <= r < 1) s mu rho 0.
Proof.
  intros Hw Hr D1 D2. pose proof (uniqueness_limite _ _ _ _ D1 (loglik_wc_dmu s mu rho Hr)) as Z1. pose proof (uniqueness_limite _ _ _ _ D2 (loglik_wc_drho s mu rho Hr)) as Z2. apply wc_stat; try assumption; lra.
Qed.
Lemma wc_grad_stat s mu rho : (forall d, In d s -> 0 <= snd d) -> / 10 ^ 9 <= rho <= 1 - / 10 ^ 9 -> wc_far s mu rho -> wc_grad s mu rho = (0, 0) -> near_mle wc_pdf (fun m r => 0 <= r < 1) s mu rho 0.
Proof.
  intros Hw Hr F E. assert (E1 := f_equal fst E). assert (E2 := f_equal snd E). unfold wc_grad in E1, E2. cbn [fst snd] in E1, E2. assert (e9 : 0 < / 10 ^ 9) by (apply Rinv_0_lt_compat, pow_lt; lra).
  assert (D : forall d, In d s -> wc_den mu rho (fst d) = wc_D mu rho (fst d)) by (intros d I; unfold wc_den, wc_D; apply Rmax_left, F, I).
  assert (q : / 10 ^ 15 <= 1 - rho ^ 2) by (assert (rho * rho <= (1 - / 10 ^ 9) * 1) by (apply Rmult_le_compat; lra); simpl (rho ^ 2); lra). rewrite Rmax_left in E2 by exact q.
  apply wc_stat; try assumption; [lra| |].
  - unfold wc_S. rewrite (Rsum_ext_map _ (fun p => snd p / wc_den mu rho (fst p) * sin (fst p - mu))) by (intros d I; rewrite D by exact I; reflexivity). lra.
  - rewrite <- E2. f_equal. unfold wc_P, wc_Q. rewrite <- !Rsum_scal_map, <- Rsum_map_minus. apply Rsum_ext_map. intros d I. rewrite D by exact I. unfold Rdiv. ring.
Qed.
Lemma wc_ok_intro mu rho : 0 <= mu <= 2 * PI -> 0 <= rho < 1 -> wc_ok mu rho = true.
Proof. intros. unfold wc_ok. repeat (apply andb_true_intro; split); try apply Rleb_true; try apply Rltb_true; lra. Qed.
Lemma wc_moment1 mu rho : 0 <= mu <= 2 * PI -> 0 <= rho < 1 -> trig_moment_of (wc_pdf mu rho) 1 (rho * cos mu) (rho * sin mu).
Proof.
  intros Hm Hr. pose proof (wc_moments mu rho (wc_pdf mu rho) 1 (wc_ok_intro mu rho Hm Hr)) as K. cbn [INR Z.of_nat Pos.of_succ_nat] in K. rewrite Rmult_1_l, pow_1 in K. apply K. intros x. rewrite (wc_ok_intro mu rho Hm Hr). rewrite public_pdf_fin, wc_wrap. reflexivity.
Qed.
Lemma wc_ll s mu rho : 0 <= rho < 1 -> wc_far s mu rho -> fopp (wc_nll (cw_wrapped s) mu rho) = Fin (loglik (wc_pdf mu rho) s).
Proof. intros Hr F. rewrite wc_nll_lik by (try exact Hr; apply wc_far_wrapped, F). cbn [fopp]. rewrite wrapped_ll by (intros; apply wc_wrap). f_equal. ring. Qed.
Lemma e12 : 0 < / 10 ^ 12. Proof. apply Rinv_0_lt_compat, pow_lt. lra. Qed.
Lemma wc_fit_moments_spec minimize method s mu rho ll n g : In (lower method) ["moments"; "analytical"]%string -> wc_fit minimize method s = Ok (mu, rho, ll, n, g) ->
  let W := Rsum (map snd s) in let C := Rsum (map (fun d => snd d * cos (fst d)) s) / W in let S := Rsum (map (fun d => snd d * sin (fst d)) s) / W in
  let r := sqrt (C * C + S * S) in
  wc_ok mu rho = true /\ rho = Rmin r (1 - / 10 ^ 12) /\ (/ 10 ^ 12 < r -> C = r * cos mu /\ S = r * sin mu) /\
  (/ 10 ^ 12 < r <= 1 - / 10 ^ 12 -> trig_moment_of (wc_pdf mu rho) 1 C S) /\
  n = W ^ 2 / Rsum (map (fun d => snd d ^ 2) s) /\
  ((forall d, In d s -> / 10 ^ 15 <= 1 + rho ^ 2 - 2 * rho * cos (fst d - mu)) -> ll = Fin (loglik (wc_pdf mu rho) s)).
Proof.
  intros Hm E W C S r. pose proof e12 as E12. assert (Hk : wc_method method = "moments"%string) by (unfold wc_method; destruct Hm as [<-|[<-|[]]]; reflexivity). revert E. unfold wc_fit. rewrite Hk. destruct (cw_data s) as [t|] eqn:Ed; [|discriminate]. destruct (cw_data_ok s t Ed) as (_ & Hw & W0 & ->). clear Ed. cbv beta iota delta [bind]. destruct (fc_start (cw_wrapped s)) as [m r0] eqn:Es.
  destruct (fc_start_wrapped s m r0 Hw W0 Es) as (M & R1 & R2 & D). change (fc_r s) with r in R1. subst r0. rewrite String.eqb_refl. unfold wrap_direction. rewrite wrap_in by lra.
  assert (Cl : 0 <= clip r 0 (1 - / 10 ^ 12) <= 1 - / 10 ^ 12) by (apply clip_range; lra). assert (Ec : clip r 0 (1 - / 10 ^ 12) = Rmin r (1 - / 10 ^ 12)) by (unfold clip; rewrite Rmax_left by lra; reflexivity). assert (Ei : r <= 1 - / 10 ^ 12 -> clip r 0 (1 - / 10 ^ 12) = r) by (intros; apply clip_in; lra).
  set (rc := clip r 0 (1 - / 10 ^ 12)) in *. intros E. injection E as <- <- <- <- <-.
  split; [apply wc_ok_intro; lra|]. split; [exact Ec|]. split; [exact D|]. split; [|split; [apply wrapped_neff|intros F; apply wc_ll; [lra|exact F]]].
  intros K. destruct (D ltac:(lra)) as [A1 A2]. fold W in A1, A2. change (C = r * cos m) in A1. change (S = r * sin m) in A2. rewrite A1, A2. rewrite Ei by lra. apply wc_moment1; lra.
Qed.
Lemma wc_fit_mle_spec minimize method s mu rho ll n g : box_min (/ 10 ^ 9) (1 - / 10 ^ 9) minimize -> In (lower method) ["mle"; "numerical"]%string -> wc_fit minimize method s = Ok (mu, rho, ll, n, g) ->
  wc_ok mu rho = true /\ / 10 ^ 9 <= rho <= 1 - / 10 ^ 9 /\ n = Rsum (map snd s) ^ 2 / Rsum (map (fun d => snd d ^ 2) s) /\
  ((forall d, In d s -> / 10 ^ 15 <= 1 + rho ^ 2 - 2 * rho * cos (fst d - mu)) ->
     ll = Fin (loglik (wc_pdf mu rho) s) /\ (g = Some 0 -> near_mle wc_pdf (fun m r => 0 <= r < 1) s mu rho 0)) /\
  forall mu0 rho0 ll0 n0, wc_fit minimize "moments" s = Ok (mu0, rho0, ll0, n0, None) -> / 10 ^ 3 <= rho0 <= 1 - / 10 ^ 3 -> exists a b, ll = Fin a /\ ll0 = Fin b /\ b <= a.
Proof.
  intros HM Hm. pose proof e12 as E12. assert (e9 : 0 < / 10 ^ 9) by (apply Rinv_0_lt_compat, pow_lt; lra). assert (Hk : wc_method method = "mle"%string) by (unfold wc_method; destruct Hm as [<-|[<-|[]]]; reflexivity). unfold wc_fit. rewrite Hk. destruct (cw_data s) as [t|] eqn:Ed; [|discriminate]. destruct (cw_data_ok s t Ed) as (_ & Hw & W0 & ->). clear Ed. cbv beta iota delta [bind]. destruct (fc_start (cw_wrapped s)) as [m0 r0] eqn:Es.
  destruct (fc_start_wrapped s m0 r0 Hw W0 Es) as (M & R1 & R2 & D). change (String.eqb "mle" "moments") with false. change (String.eqb "mle" "mle") with true. change (String.eqb (wc_method "moments") "moments") with true. cbv iota. unfold wrap_direction. rewrite (wrap_in m0) by lra.
  destruct (minimize _ _ _ _) as [[[[m r] v] [g1 g2]]|] eqn:Em; [|discriminate]. destruct (HM _ _ _ _ _ _ _ _ Em) as (B1 & B2 & B3 & B4 & B5). rewrite (clip_in r) by exact B2. rewrite (wrap_in m) by lra. subst v. set (rm := clip r0 0 (1 - / 10 ^ 12)) in *. intros E. injection E as <- <- <- <- <-.
  split; [apply wc_ok_intro; lra|]. split; [exact B2|]. split; [apply wrapped_neff|]. split.
  - intros F. split; [apply wc_ll; [lra|exact F]|]. intros G. injection G as G. apply near_wrapped; [intros; apply wc_wrap|]. apply wc_grad_stat; [exact (wrapped_posw s Hw)|exact B2|exact (wc_far_wrapped s m r F)|]. rewrite <- B4.
    pose proof (pow2_ge_0 g1). pose proof (pow2_ge_0 g2). simpl pow in *. apply sqrt_eq_0 in G; [|lra]. assert (g1 = 0) by nra. assert (g2 = 0) by nra. subst. reflexivity.
  - intros mu0 rho0 ll0 n0 E K. injection E as <- <- <- _. rewrite (Rmin_left rm), Rmax_right in B5 by lra. destruct (wc_nll_fin (cw_wrapped s) m0 rm ltac:(lra)) as [y Ey]. rewrite Ey in *. destruct (B5 y eq_refl) as (x & X1 & X2). exists (- x), (- y). rewrite X1. split; [reflexivity|]. split; [reflexivity|lra].
Qed.
Lemma wc_fit_total minimize method s : s <> [] -> (forall p, In p s -> 0 <= snd p) -> 0 < Rsum (map snd s) ->
  (In (lower method) ["moments"; "analytical"]%string -> exists r, wc_fit minimize method s = Ok r) /\
  (In (lower method) ["mle"; "numerical"]%string -> (exists r, wc_fit minimize method s = Ok r) \/ wc_fit minimize method s = Err RuntimeError /\ exists obj grad a b, minimize obj grad a b = None) /\
  (~ In (lower method) ["moments"; "analytical"; "mle"; "numerical"]%string -> wc_fit minimize method s = Err ValueError).
Proof.
  intros H1 H2 H3. unfold wc_fit. rewrite (cw_data_total s H1 H2 H3). cbv beta iota delta [bind]. destruct (fc_start _) as [m r]. split; [|split].
  - intros Hm. assert (Hk : wc_method method = "moments"%string) by (unfold wc_method; destruct Hm as [<-|[<-|[]]]; reflexivity). rewrite Hk. eexists. reflexivity.
  - intros Hm. assert (Hk : wc_method method = "mle"%string) by (unfold wc_method; destruct Hm as [<-|[<-|[]]]; reflexivity). rewrite Hk. change (String.eqb "mle" "moments") with false. change (String.eqb "mle" "mle") with true. cbv iota. destruct (minimize _ _ _ _) as [[[[a b] v] [g1 g2]]|] eqn:E; [left; eexists; reflexivity|right; split; [reflexivity|do 4 eexists; exact E]].
  - intros N. unfold wc_method. destruct (String.eqb_spec (lower method) "analytical") as [A|A]; [exfalso; apply N; rewrite A; simpl; tauto|]. destruct (String.eqb_spec (lower method) "numerical") as [B|B]; [exfalso; apply N; rewrite B; simpl; tauto|].
    destruct (String.eqb_spec (lower method) "moments") as [A'|A']; [exfalso; apply N; rewrite A'; simpl; tauto|]. destruct (String.eqb_spec (lower method) "mle") as [B'|B']; [exfalso; apply N; rewrite B'; simpl; tauto|]. reflexivity.
Qed.
(** Identical observations: the reported log-likelihood is not that of the fitted density. *)
Lemma wc_fit_refuted : exists s, forall minimize, exists mu rho v n, wc_fit minimize "moments" s = Ok (mu, rho, Fin v, n, None) /\ wc_ok mu rho = true /\ v < loglik (wc_pdf mu rho) s.
Proof.
  exists [(0, 1)]. intros minimize. pose proof e12 as E12. pose proof PI_RGT_0 as P0. destruct (wc_fit_total minimize "moments" [(0, 1)]) as (T & _ & _); [discriminate|intros p [<-|[]]; simpl; lra|simpl; lra|]. destruct (T ltac:(left; reflexivity)) as [[[[[mu rho] ll] n] g] E]. pose proof E as E0.
  destruct (wc_fit_moments_spec minimize "moments" [(0, 1)] mu rho ll n g ltac:(left; reflexivity) E) as (Hok & Er & Ed & _). cbn [map fst snd] in Er, Ed. rewrite !Rsum_cons, Rsum_nil, cos_0, sin_0 in Er, Ed.
  replace ((1 * 1 + 0) / (1 + 0)) with 1 in Er, Ed by field. replace ((1 * 0 + 0) / (1 + 0)) with 0 in Er, Ed by field. replace (1 * 1 + 0 * 0) with 1 in Er, Ed by ring. rewrite sqrt_1 in Er, Ed. rewrite Rmin_right in Er by lra. destruct (Ed ltac:(lra)) as [Ec _].
  assert (Q : cos (0 - mu) = 1) by (replace (0 - mu) with (- mu) by ring; rewrite cos_neg; lra).
  unfold wc_fit in E. rewrite (cw_data_total [(0, 1)]) in E; [|discriminate|intros p [<-|[]]; simpl; lra|unfold wtotal; simpl; lra]. cbv beta iota delta [bind] in E. destruct (fc_start _) as [m r] in E. change (String.eqb (wc_method "moments") "moments") with true in E. cbv iota in E. assert (E1 := f_equal (fun x => match x with Ok (l, _, _, _, _) => l | _ => 0 end) E). assert (E2 := f_equal (fun x => match x with Ok (_, l, _, _, _) => l | _ => 0 end) E). assert (E3 := f_equal (fun x => match x with Ok (_, _, l, _, _) => l | _ => NaN end) E). assert (E5 := f_equal (fun x => match x with Ok (_, _, _, _, l) => l | _ => None end) E). cbv beta iota in E1, E2, E3, E5. rewrite E1, E2 in E3.
  assert (Hr : 0 <= rho < 1) by lra. assert (Ew : cw_wrapped [(0, 1)] = [(0, 1)]) by (unfold cw_wrapped; cbn [map fst snd]; rewrite wrap_in by lra; reflexivity). rewrite Ew in E3. unfold wc_nll in E3. rewrite (proj2 (Rleb_true 0 rho)), (proj2 (Rltb_true rho 1)) in E3 by lra. cbn [andb negb fopp] in E3.
  exists mu, rho. rewrite <- E3, <- E5 in E0. exists (- - Rsum (map (fun p : R * R => snd p * (ln (1 + - rho ^ 2) - ln (2 * PI) - ln (wc_den mu rho (fst p)))) [(0, 1)])), n. split; [exact E0|]. split; [exact Hok|].
  unfold loglik. cbn [map fst snd]. rewrite !Rsum_cons, !Rsum_nil. rewrite wc_ln_pdf by exact Hr. unfold wc_den. fold (wc_D mu rho 0). assert (Ev : wc_D mu rho 0 = (1 - rho) ^ 2) by (unfold wc_D; rewrite Q; ring). rewrite Ev, Er. replace (1 - (1 - / 10 ^ 12)) with (/ 10 ^ 12) by ring. rewrite Rmax_right by (simpl; lra).
  assert (L : ln ((/ 10 ^ 12) ^ 2) < ln (/ 10 ^ 15)) by (apply ln_increasing; [apply pow_lt, E12|simpl; lra]). replace (1 + - (1 - / 10 ^ 12) ^ 2) with (1 - (1 - / 10 ^ 12) ^ 2) by ring. lra.
Qed.
