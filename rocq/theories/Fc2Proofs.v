(** cardioid, wrapcauchy and triangular: what the fits return. *)
From Coq Require Import String.
From Verif Require Import Prelude NpModel NpProofs CircleSpec IntSpec IntProofs DescModel DescProofs CorrModel DistModel DistSpec DistProofs Dist2Proofs Dist3Proofs Dist4Proofs Dist6Proofs Dist7Proofs Dist8Proofs JpProofs Jp8Proofs CwModel CwSpec Cw3Proofs Cw4Proofs FcModel FcSpec FcProofs.
Import ListNotations.
Open Scope R_scope.
Open Scope list_scope.

Lemma near_wrapped pdf dom s mu rho g : (forall m r x, pdf m r (wrap_angles x) = pdf m r x) -> near_mle pdf dom (cw_wrapped s) mu rho g -> near_mle pdf dom s mu rho g.
Proof.
  intros Hp H m r Hd Hv. assert (E : forall a b, loglik (pdf a b) (cw_wrapped s) = loglik (pdf a b) s).
  { intros a b. unfold loglik, cw_wrapped. rewrite map_map. apply Rsum_ext_map. intros d _. cbn [fst snd]. rewrite Hp. reflexivity. }
  rewrite <- !E. apply H; [exact Hd|]. intros d I. unfold cw_wrapped in I. apply in_map_iff in I. destruct I as (q & <- & Hq). cbn [fst]. rewrite Hp. apply Hv, Hq.
Qed.
Lemma car_wrap m r x : car_pdf m r (wrap_angles x) = car_pdf m r x.
Proof. destruct (wrap_same x) as [k ->]. unfold car_pdf. replace (x + 2 * PI * IZR k - m) with (x - m + 2 * PI * IZR k) by ring. rewrite NpProofs.cos_turns. reflexivity. Qed.
Lemma wrapped_ll pdf s : (forall x, pdf (wrap_angles x) = pdf x) -> loglik pdf (cw_wrapped s) = loglik pdf s.
Proof. intros H. unfold loglik, cw_wrapped. rewrite map_map. apply Rsum_ext_map. intros d _. cbn [fst snd]. rewrite H. reflexivity. Qed.
Lemma wrapped_in s (Q : R -> Prop) : (forall x, Q x -> Q (wrap_angles x)) -> (forall d, In d s -> Q (fst d)) -> forall d, In d (cw_wrapped s) -> Q (fst d).
Proof. intros H1 H2 d I. unfold cw_wrapped in I. apply in_map_iff in I. destruct I as (q & <- & Hq). cbn [fst]. apply H1, H2, Hq. Qed.

Lemma fc_start_spec s mu r : posw s -> 0 < wtotal s -> fc_start s = (mu, r) ->
  0 <= mu < 2 * PI /\ r = Rlen s / wtotal s /\ 0 <= r <= 1 /\ (/ 10 ^ 12 < r -> Csum s = Rlen s * cos mu /\ Ssum s = Rlen s * sin mu).
Proof.
  intros Hp W. unfold fc_start. destruct (circ_mean_and_r_s s) as [m r'] eqn:Em. intros E. assert (Emu := f_equal fst E). assert (Er := f_equal snd E). cbn [fst snd] in Emu, Er. subst mu r'. pose proof PI_RGT_0 as P. split; [apply pymod_range; lra|].
  pose proof (circ_r_s_range s Hp W) as Rr. rewrite circ_r_s_eq in Rr by exact W.
  destruct (circ_mean_and_r_s_cases s) as [[B1 B2]|[B1 B2]]; rewrite Em in B2; injection B2 as E1 E2; rewrite circ_r_s_eq in B1, E2 by exact W; subst r; (split; [reflexivity|]); (split; [exact Rr|]).
  - intros K. lra.
  - intros _. rewrite E1. rewrite pymod_small by apply mean_dir_range. destruct (mean_dir_polar s W) as (A1 & A2 & A3); [rewrite circ_r_s_eq by exact W; lra|]. split; assumption.
Qed.
(** The data behind a fit. *)
Definition fc_r (s : list (R * R)) : R :=
  let W := Rsum (map snd s) in let C := Rsum (map (fun d => snd d * cos (fst d)) s) / W in let S := Rsum (map (fun d => snd d * sin (fst d)) s) / W in sqrt (C * C + S * S).
Lemma fc_r_eq s : 0 < wtotal s -> fc_r s = Rlen s / wtotal s.
Proof.
  intros W0. assert (iW : 0 < / wtotal s) by (apply Rinv_0_lt_compat, W0). unfold fc_r, Rlen, Rdiv. rewrite <- (sqrt_Rsqr (/ wtotal s)) by lra. rewrite <- sqrt_mult_alt by nra. f_equal. unfold Csum, Ssum, wtotal, Rsqr, Rdiv. ring.
Qed.
Lemma fc_wrapped s : Csum (cw_wrapped s) = Csum s /\ Ssum (cw_wrapped s) = Ssum s /\ Rlen (cw_wrapped s) = Rlen s /\ wtotal (cw_wrapped s) = wtotal s.
Proof.
  destruct (wrapped_sample s) as [SD WT]. fold (cw_wrapped s) in SD, WT. destruct (compute_dirs (cw_wrapped s) s SD) as (EC & ES & _). repeat split; try assumption. unfold Rlen; rewrite EC, ES; reflexivity.
Qed.
Lemma fc_start_wrapped s mu r : (forall p, In p s -> 0 <= snd p) -> 0 < wtotal s -> fc_start (cw_wrapped s) = (mu, r) ->
  let W := Rsum (map snd s) in let C := Rsum (map (fun d => snd d * cos (fst d)) s) / W in let S := Rsum (map (fun d => snd d * sin (fst d)) s) / W in
  0 <= mu < 2 * PI /\ r = fc_r s /\ 0 <= r <= 1 /\ (/ 10 ^ 12 < r -> C = r * cos mu /\ S = r * sin mu).
Proof.
  intros Hw W0 E W C S. destruct (fc_wrapped s) as (E1 & E2 & E3 & E4). destruct (fc_start_spec _ mu r (wrapped_posw s Hw) ltac:(lra) E) as (M & R1 & R2 & D). rewrite E1, E2, E3, E4 in *. split; [exact M|]. split; [rewrite fc_r_eq by exact W0; exact R1|]. split; [exact R2|].
  intros K. destruct (D K) as [D1 D2]. unfold C, S, W. fold (Csum s) (Ssum s) (wtotal s). rewrite D1, D2, R1. unfold Rdiv. split; ring.
Qed.

(** ** cardioid *)
Lemma car_nll_fin s mu rho : 0 <= rho <= 1 / 2 -> (forall d, In d s -> 0 < car_den mu rho (fst d)) -> car_nll s mu rho = Fin (- loglik (car_pdf mu rho) s).
Proof.
  intros Hr H. unfold car_nll. rewrite (proj2 (Rleb_true 0 rho)), (proj2 (Rleb_true rho (1 / 2))) by lra. cbn [andb negb]. assert (B : existsb (fun p => Rleb (car_den mu rho (fst p)) 0) s = false).
  { apply not_true_is_false. intros B. apply existsb_exists in B. destruct B as (d & D1 & D2). apply Rleb_true in D2. pose proof (H d D1). lra. }
  rewrite B. f_equal. rewrite car_loglik by exact H. ring.
Qed.
Lemma car_nll_inf s mu rho d : In d s -> car_pdf mu rho (fst d) <= 0 -> car_nll s mu rho = PInf.
Proof.
  intros I H. unfold car_nll. destruct (negb _); [reflexivity|]. assert (B : existsb (fun p => Rleb (car_den mu rho (fst p)) 0) s = true); [|rewrite B; reflexivity]. apply existsb_exists. exists d. split; [exact I|]. apply Rleb_true. apply Rnot_lt_le. intros K. pose proof PI_RGT_0. assert (0 < car_pdf mu rho (fst d)) by (rewrite car_pdf_den; apply Rdiv_lt_0_compat; lra). lra.
Qed.
Lemma car_wrapped_pos s mu rho : (forall d, In d s -> 0 < car_pdf mu rho (fst d)) -> forall d, In d (cw_wrapped s) -> 0 < car_pdf mu rho (fst d).
Proof. apply (wrapped_in s (fun x => 0 < car_pdf mu rho x)). intros x. rewrite car_wrap. auto. Qed.
Lemma car_ll s mu rho : 0 <= rho <= 1 / 2 -> ((forall d, In d s -> 0 < car_pdf mu rho (fst d)) -> fopp (car_nll (cw_wrapped s) mu rho) = Fin (loglik (car_pdf mu rho) s)) /\
  ((exists d, In d s /\ car_pdf mu rho (fst d) = 0) -> fopp (car_nll (cw_wrapped s) mu rho) = NInf).
Proof.
  intros Hr. split.
  - intros H. rewrite car_nll_fin; [|exact Hr|intros d I; apply car_den_of_pdf, (car_wrapped_pos s mu rho H d I)]. cbn [fopp]. rewrite wrapped_ll by (intros; apply car_wrap). f_equal. ring.
  - intros (d & I & Z). rewrite (car_nll_inf (cw_wrapped s) mu rho (wrap_angles (fst d), snd d)); [reflexivity| |].
    + unfold cw_wrapped. apply in_map_iff. exists d. split; [reflexivity|exact I].
    + cbn [fst]. rewrite car_wrap. lra.
Qed.
Lemma car_ok_intro mu rho : 0 <= mu <= 2 * PI -> 0 <= rho <= 1 / 2 -> car_ok mu rho = true.
Proof. intros. unfold car_ok. repeat (apply andb_true_intro; split); apply Rleb_true; lra. Qed.
Lemma car_moment1 mu rho : 0 <= mu <= 2 * PI -> 0 <= rho <= 1 / 2 -> trig_moment_of (car_pdf mu rho) 1 (rho * cos mu) (rho * sin mu).
Proof.
  intros Hm Hr. pose proof (car_moments mu rho (car_pdf mu rho) 1 ltac:(lia) (car_ok_intro mu rho Hm Hr)) as K. cbn [Nat.eqb INR Z.of_nat Pos.of_succ_nat] in K. rewrite Rmult_1_l in K. apply K. intros x. rewrite (car_ok_intro mu rho Hm Hr). rewrite public_pdf_fin, car_wrap. reflexivity.
Qed.
Lemma car_fit_moments_spec minimize method s mu rho ll n g : lower method = "moments"%string -> car_fit minimize method s = Ok (mu, rho, ll, n, g) ->
  let W := Rsum (map snd s) in let C := Rsum (map (fun d => snd d * cos (fst d)) s) / W in let S := Rsum (map (fun d => snd d * sin (fst d)) s) / W in
  let r := sqrt (C * C + S * S) in
  car_ok mu rho = true /\ rho = Rmin r (1 / 2) /\ (/ 10 ^ 12 < r -> C = r * cos mu /\ S = r * sin mu) /\
  (/ 10 ^ 12 < r <= 1 / 2 -> trig_moment_of (car_pdf mu rho) 1 C S) /\
  n = W ^ 2 / Rsum (map (fun d => snd d ^ 2) s) /\
  ((forall d, In d s -> 0 < car_pdf mu rho (fst d)) -> ll = Fin (loglik (car_pdf mu rho) s)) /\ ((exists d, In d s /\ car_pdf mu rho (fst d) = 0) -> ll = NInf).
Proof.
  intros Hm E W C S r. revert E. unfold car_fit. rewrite Hm. destruct (cw_data s) as [t|] eqn:Ed; [|discriminate]. destruct (cw_data_ok s t Ed) as (_ & Hw & W0 & ->). clear Ed. cbv beta iota delta [bind]. destruct (fc_start (cw_wrapped s)) as [m r0] eqn:Es.
  destruct (fc_start_wrapped s m r0 Hw W0 Es) as (M & R1 & R2 & D). change (fc_r s) with r in R1. subst r0. rewrite String.eqb_refl. unfold wrap_direction. rewrite wrap_in by lra. intros E. injection E as <- <- <- <- <-.
  assert (Cl : 0 <= clip r 0 (1 / 2) <= 1 / 2) by (apply clip_range; lra). assert (Ec : clip r 0 (1 / 2) = Rmin r (1 / 2)) by (unfold clip; rewrite Rmax_left by lra; reflexivity).
  split; [apply car_ok_intro; lra|]. split; [exact Ec|]. split; [exact D|]. destruct (car_ll s m (clip r 0 (1 / 2)) Cl) as [L1 L2]. split; [|split; [apply wrapped_neff|split; assumption]].
  intros K. destruct (D ltac:(lra)) as [A1 A2]. fold W in A1, A2. change (C = r * cos m) in A1. change (S = r * sin m) in A2. rewrite A1, A2. rewrite clip_in by lra. apply car_moment1; lra.
Qed.
Lemma car_fit_mle_spec minimize method s mu rho ll n g : box_min 0 (1 / 2) minimize -> lower method = "mle"%string -> car_fit minimize method s = Ok (mu, rho, ll, n, g) ->
  car_ok mu rho = true /\ n = Rsum (map snd s) ^ 2 / Rsum (map (fun d => snd d ^ 2) s) /\
  ((forall d, In d s -> 0 < car_pdf mu rho (fst d)) -> ll = Fin (loglik (car_pdf mu rho) s)) /\ ((exists d, In d s /\ car_pdf mu rho (fst d) = 0) -> ll = NInf) /\
  match g with
  | None => rho = 0 /\ near_mle car_pdf (fun m r => 0 <= r <= 1 / 2) s mu rho (Rsum (map snd s) / 10 ^ 12)
  | Some g => (0 < rho -> (forall d, In d s -> 0 < car_pdf mu rho (fst d)) -> near_mle car_pdf (fun m r => 0 <= r <= 1 / 2) s mu rho (g * (1 + 1 / (2 * rho)))) /\
      forall mu0 rho0 b n0, car_fit minimize "moments" s = Ok (mu0, rho0, Fin b, n0, None) -> exists a, ll = Fin a /\ b <= a
  end.
Proof.
  intros HM Hm. unfold car_fit. rewrite Hm. destruct (cw_data s) as [t|] eqn:Ed; [|discriminate]. destruct (cw_data_ok s t Ed) as (_ & Hw & W0 & ->). clear Ed. cbv beta iota delta [bind]. destruct (fc_start (cw_wrapped s)) as [m0 r0] eqn:Es.
  destruct (fc_start_wrapped s m0 r0 Hw W0 Es) as (M & R1 & R2 & D). change (String.eqb "mle" "moments") with false. change (String.eqb "mle" "mle") with true. change (String.eqb (lower "moments") "moments") with true. cbv iota.
  unfold wrap_direction. rewrite (wrap_in m0) by lra. destruct (Rleb_spec (clip r0 0 (1 / 2)) (/ 10 ^ 12)) as [L|L].
  - intros E. injection E as <- <- <- <- <-. split; [apply car_ok_intro; lra|]. split; [apply wrapped_neff|]. destruct (car_ll s m0 0 ltac:(lra)) as [L1 L2]. split; [exact L1|]. split; [exact L2|]. split; [reflexivity|].
    assert (R3 : r0 <= / 10 ^ 12). { unfold clip in L. rewrite Rmax_left in L by lra. destruct (Rle_dec r0 (1 / 2)) as [A|A]; [rewrite Rmin_left in L by exact A; exact L|rewrite Rmin_right in L by lra; lra]. }
    intros m r Hr Hv. pose proof (car_flat s m0 Hw m r Hr Hv) as F. eapply Rle_trans; [exact F|]. apply Rplus_le_compat_l. rewrite R1, fc_r_eq in R3 by exact W0. apply (Rmult_le_compat_r (wtotal s)) in R3; [|lra]. unfold Rdiv in R3. rewrite Rmult_assoc, Rinv_l in R3 by lra. unfold wtotal in *. unfold Rdiv. lra.
  - destruct (minimize _ _ _ _) as [[[[m r] v] [g1 g2]]|] eqn:Em; [|discriminate]. destruct (HM _ _ _ _ _ _ _ _ Em) as (B1 & B2 & B3 & B4 & B5). intros E. injection E as <- <- <- <- <-. rewrite (clip_in r) by exact B2. rewrite (wrap_in m) by lra. subst v.
    split; [apply car_ok_intro; lra|]. split; [apply wrapped_neff|]. destruct (car_ll s m r B2) as [L1 L2]. split; [exact L1|]. split; [exact L2|]. split.
    + intros Hr Hu. apply near_wrapped; [apply car_wrap|]. pose proof (car_near (cw_wrapped s) m r (wrapped_posw s Hw) ltac:(lra) (car_wrapped_pos s m r Hu)) as K. rewrite <- B4 in K. exact K.
    + intros mu0 rho0 b n0 E. injection E as <- <- E3 _. destruct (car_nll (cw_wrapped s) m0 (clip r0 0 (1 / 2))) as [y| | |] eqn:Ey; try discriminate. cbn [fopp] in E3. injection E3 as <-. destruct (B5 y eq_refl) as (x & X1 & X2). exists (- x). rewrite X1. split; [reflexivity|lra].
Qed.
Lemma fit_rejects minimize method s : s = [] \/ (exists d, In d s /\ snd d < 0) \/ Rsum (map snd s) <= 0 -> car_fit minimize method s = Err ValueError /\ wc_fit minimize method s = Err ValueError.
Proof. intros H. unfold car_fit, wc_fit. rewrite (cw_data_rejects s H). split; reflexivity. Qed.
Lemma car_fit_total minimize method s : s <> [] -> (forall p, In p s -> 0 <= snd p) -> 0 < Rsum (map snd s) ->
  (lower method = "moments"%string -> exists r, car_fit minimize method s = Ok r) /\
  (lower method = "mle"%string -> (exists r, car_fit minimize method s = Ok r) \/ car_fit minimize method s = Err RuntimeError /\ exists obj grad a b, minimize obj grad a b = None) /\
  (lower method <> "moments"%string -> lower method <> "mle"%string -> car_fit minimize method s = Err ValueError).
Proof.
  intros H1 H2 H3. unfold car_fit. rewrite (cw_data_total s H1 H2 H3). cbv beta iota delta [bind]. destruct (fc_start _) as [m r]. split; [|split].
  - intros ->. eexists. reflexivity.
  - intros ->. change (String.eqb "mle" "moments") with false. change (String.eqb "mle" "mle") with true. cbv iota. destruct (Rleb _ _); [left; eexists; reflexivity|]. destruct (minimize _ _ _ _) as [[[[a b] v] [g1 g2]]|] eqn:E; [left; eexists; reflexivity|right; split; [reflexivity|do 4 eexists; exact E]].
  - intros A B. apply String.eqb_neq in A. apply String.eqb_neq in B. rewrite A, B. reflexivity.
Qed.
