(** Fixed points of the updates and stationary points of the likelihood. *)
From Verif Require Import Prelude NpModel NpProofs UtilsModel CircleSpec IntSpec IntProofs VonSpec VonProofs Von2Proofs Von4Proofs RegModel RegSpec RegClSpec RegProofs Reg2Proofs Reg3Proofs Reg4Proofs Em5Proofs Reg10Proofs Reg11Proofs Reg12Proofs.
From Coq Require Import String.

Lemma one_step st tol q f : cl_loop st tol 1 q None None = Ok (Fitted f) -> st q = Step (f_par f) (f_mu f) (f_kappa f) (f_ll f).
Proof. cbn. destruct (st q) as [new mu k ll|e|]; [|discriminate|discriminate]. intros E. injection E as <-. reflexivity. Qed.
Lemma inner_along x u s e : List.length u = List.length e -> inner x (along u s e) = inner x u + s * inner x e.
Proof.
  revert x e. induction u as [|a u IH]; intros [|y x] [|b e] H; try discriminate; cbn; try ring. rewrite IH by (cbn in H; lia). ring.
Qed.
Lemma sum_zero_nth p (F : nat -> R) : (forall e, List.length e = p -> sumn p (fun j => F j * nth j e 0) = 0) -> forall j, (j < p)%nat -> F j = 0.
Proof.
  intros H j Hj. pose (e := vec_of p (fun k => if Nat.eqb j k then 1 else 0)). specialize (H e (vec_of_length _ _)).
  rewrite (sumn_ext _ _ (fun k => (if Nat.eqb j k then 1 else 0) * F k)) in H by (intros k Hk; unfold e; rewrite nth_vec_of by auto; ring).
  now rewrite sumn_delta in H.
Qed.

(** The derivative of the likelihood of the mean model. *)
Lemma mean_score iv theta (rows : list (list R)) mu k b e : is_iv iv -> List.length b = List.length e ->
  derivable_pt_lim (fun s => vm_loglik iv (under (tan_link mu (along b s e)) (fun _ => k) theta rows)) 0
    (Rsum (map (fun o => k * sin (rdev b o - mu) * inner (grow b o) e) (combine theta rows))).
Proof.
  intros Hi L. eapply dlim_ext; [intros s; symmetry; apply loglik_sum; exact Hi|]. cbv beta.
  eapply dlim_eq; [apply Rminus_0_r|]. apply dlim_minus; [|apply dlim_const].
  apply (dlim_Rsum (fun o s => k * cos (fst o - tan_link mu (along b s e) (snd o)) - ln (iv 0%nat k)) (fun o => k * sin (rdev b o - mu) * inner (grow b o) e)).
  intros o _. apply (dlim_ext (fun s => k * cos (fst o - (mu + 2 * atan (inner (snd o) b + s * inner (snd o) e))) - ln (iv 0%nat k))).
  { intros s. unfold tan_link. now rewrite inner_along. }
  eapply dlim_eq; [|apply dlim_minus; [apply dlim_scal; apply dlim_cos; apply dlim_minus; [apply dlim_const|apply dlim_plus; [apply dlim_const|apply dlim_scal; apply dlim_atan; apply dlim_plus; [apply dlim_const|apply dlim_mult; [apply dlim_id|apply dlim_const]]]]|apply dlim_const]].
  cbv beta. rewrite grow_inner. unfold rdev. rewrite dot_inner, !Rmult_0_l, !Rplus_0_r. unfold obs, vec in *. replace (fst o - 2 * atan (inner (snd o) b) - mu) with (fst o - (mu + 2 * atan (inner (snd o) b))) by ring.
  unfold Rdiv. pose proof (pow2_ge_0 (inner (snd o) b)). unfold obs, vec in *. cbn [pow] in *. field. lra.
Qed.
Lemma mean_fixed iv solve pinv theta p rows b a0 g0 tol c f k : is_iv iv -> right_solve solve -> cc_data theta p rows ->
  cl_run iv solve pinv theta p rows "mean" (Some b) a0 g0 tol 1 = Ok c -> cl_fit c = Fitted f -> f_kappa f = One k ->
  (p_beta (f_par f) = b <->
   forall e, List.length e = p -> derivable_pt_lim (fun s => vm_loglik iv (under (tan_link (f_mu f) (along b s e)) (fun _ => k) theta rows)) 0 (/ 10 ^ 8 * inner b e)).
Proof.
  intros Hi Hs D E Ef Ek. destruct (cl_run_inv _ _ _ _ _ _ _ _ _ _ _ _ _ D E) as (T & Hb & _ & _ & _ & El). destruct (data_obs _ _ _ D) as [Hl Hn].
  injection T as T. rewrite <- T, Ef in El. apply one_step in El. cbn [cl_step] in El. destruct (mean_step_inv _ _ _ _ _ _ _ _ _ _ _ El) as (Hr & _ & k' & Ek' & Ekr & _ & _ & _ & Eb).
  rewrite Ek in Ek'. injection Ek' as <-. cbn [start_par start p_beta] in Hr, Ekr, Eb. cbn in Hb. set (l := combine theta rows) in *.
  set (u := fun o => k * sin (rdev b o - f_mu f)) in *. set (w := k * A1 (iv 0%nat) (iv 1%nat) k) in *.
  assert (Hw : 0 <= w) by (apply weight_nonneg; [exact Hi|]; rewrite Ekr; apply A1inv_nonneg; pose proof (Rres_bounds b l Hn); lra).
  assert (Hg : forall o, In o l -> List.length (grow b o) = p /\ 0 <= w * 1) by (intros o Ho; rewrite grow_length, Rmult_1_r; split; [exact (Hl o Ho)|exact Hw]).
  assert (J : (forall j, (j < p)%nat -> eps8 * nth j b 0 = Rsum (map (fun o => nth j (grow b o) 0 * u o) l)) <-> p_beta (f_par f) = b).
  { split.
    - intros J. rewrite Eb. refine (safe_solve_unique solve pinv p _ _ l _ b Hs (mean_rhs_length _ _ _ _ _) Hg Hb _).
      intros j Hj. rewrite mean_rhs_nth, <- J by auto. ring.
    - intros J j Hj. assert (K : Rsum (map (fun o => w * 1 * nth j (grow b o) 0 * inner (grow b o) (p_beta (f_par f))) l) + eps8 * nth j (p_beta (f_par f)) 0 = nth j (mean_rhs p b w u l) 0).
      { rewrite Eb. exact (proj2 (safe_solve_spec solve pinv p _ _ l (mean_rhs p b w u l) Hs (mean_rhs_length p b w u l) Hg) j Hj). }
      rewrite J, mean_rhs_nth in K by auto. lra. }
  assert (Sc : forall e, List.length e = p -> Rsum (map (fun o => u o * inner (grow b o) e) l) = sumn p (fun j => Rsum (map (fun o => nth j (grow b o) 0 * u o) l) * nth j e 0)).
  { intros e He. rewrite (sumn_ext _ _ (fun j => Rsum (map (fun o => nth j (grow b o) 0 * u o * nth j e 0) l))) by (intros j _; now rewrite <- Rsum_map_scal_r).
    rewrite sumn_sum. apply Rsum_map_ext. intros o Ho. rewrite (inner_sum p (grow b o) e) by (apply (Hg o Ho)). rewrite <- sumn_scal. apply sumn_ext. intros. ring. }
  assert (E8 : / 10 ^ 8 = eps8) by (unfold eps8; f_equal; lra).
  rewrite <- J. split.
  - intros K e He. eapply dlim_eq; [|apply mean_score; [exact Hi|congruence]]. rewrite E8. fold l.
    transitivity (Rsum (map (fun o => u o * inner (grow b o) e) l)); [reflexivity|]. rewrite Sc by auto. rewrite (inner_sum p b e) by auto. rewrite <- sumn_scal.
    apply sumn_ext. intros j Hj. rewrite <- K by auto. ring.
  - intros K j Hj. apply Rminus_diag_uniq. revert j Hj. apply sum_zero_nth. intros e He.
    pose proof (dlim_unique _ _ _ _ (K e He) (mean_score iv theta rows (f_mu f) k b e Hi ltac:(congruence))) as U. rewrite E8 in U. fold l in U.
    change (eps8 * inner b e = Rsum (map (fun o => u o * inner (grow b o) e) l)) in U. rewrite Sc in U by auto. rewrite (inner_sum p b e) in U by auto. rewrite <- sumn_scal in U.
    rewrite (sumn_ext _ _ (fun j => eps8 * (nth j b 0 * nth j e 0) - Rsum (map (fun o => nth j (grow b o) 0 * u o) l) * nth j e 0)) by (intros; ring). rewrite sumn_minus. lra.
Qed.

(** The derivative of the likelihood of the concentrations. *)
Lemma conc_score iv theta (rows : list (list R)) loc q da dg : is_iv iv -> List.length (p_gamma q) = List.length dg ->
  derivable_pt_lim (fun s => vm_loglik iv (under loc (log_link (p_alpha q + s * da) (along (p_gamma q) s dg)) theta rows)) 0
    (Rsum (map (fun o => kap q o * (cos (fst o - loc (snd o)) - A1 (iv 0%nat) (iv 1%nat) (kap q o)) * inner (x1 o) (da :: dg)) (combine theta rows))).
Proof.
  intros Hi L. eapply dlim_ext; [intros s; symmetry; apply loglik_sum; exact Hi|]. cbv beta.
  eapply dlim_eq; [apply Rminus_0_r|]. apply dlim_minus; [|apply dlim_const].
  apply (dlim_Rsum (fun o s => log_link (p_alpha q + s * da) (along (p_gamma q) s dg) (snd o) * cos (fst o - loc (snd o)) - ln (iv 0%nat (log_link (p_alpha q + s * da) (along (p_gamma q) s dg) (snd o))))
    (fun o => kap q o * (cos (fst o - loc (snd o)) - A1 (iv 0%nat) (iv 1%nat) (kap q o)) * inner (x1 o) (da :: dg))).
  intros o _. set (kk := fun s => exp ((p_alpha q + s * da) + (inner (snd o) (p_gamma q) + s * inner (snd o) dg))).
  apply (dlim_ext (fun s => kk s * cos (fst o - loc (snd o)) - ln (iv 0%nat (kk s)))).
  { intros s. unfold log_link, kk. now rewrite inner_along. }
  assert (Dk : derivable_pt_lim kk 0 (kk 0 * inner (x1 o) (da :: dg))).
  { unfold kk. eapply dlim_eq; [|apply dlim_exp; apply dlim_plus; apply dlim_plus; [apply dlim_const|apply dlim_mult; [apply dlim_id|apply dlim_const]|apply dlim_const|apply dlim_mult; [apply dlim_id|apply dlim_const]]].
    unfold x1, obs, vec. cbn [inner]. cbv beta. ring. }
  assert (K0 : kk 0 = kap q o) by (unfold kk, kap; rewrite dot_inner; unfold obs, vec; f_equal; ring).
  pose proof (i0_pos iv (kk 0) Hi) as P.
  eapply dlim_eq; [|apply dlim_minus; [apply dlim_mult; [exact Dk|apply dlim_const]|apply dlim_ln; [exact P|apply (dlim_comp (iv 0%nat) kk); [exact Dk|apply i0_d; exact Hi]]]].
  cbv beta. rewrite K0 in *. unfold A1. generalize (inner (x1 o) (da :: dg)). intros z. unfold obs, vec in *. field. lra.
Qed.
Lemma conc_fixed iv solve pinv theta p rows q loc d a g : is_iv iv -> right_solve solve -> cc_data theta p rows -> List.length (p_gamma q) = p ->
  (forall o, In o (combine theta rows) -> d o = fst o - loc (snd o)) ->
  conc_update (iv 0%nat) (iv 1%nat) solve pinv p (combine theta rows) q d = Some (a, g) ->
  (a = p_alpha q /\ g = p_gamma q <->
   forall da dg, List.length dg = p -> derivable_pt_lim (fun s => vm_loglik iv (under loc (log_link (p_alpha q + s * da) (along (p_gamma q) s dg)) theta rows)) 0 0).
Proof.
  intros Hi Hs D Hq Hd E. destruct (data_obs _ _ _ D) as [Hl Hn]. destruct (conc_update_inv _ _ _ _ _ _ _ _ _ Hi Hs Hl E) as (NZ & u & Lu & Ea & Eg & Eu & Eq). set (l := combine theta rows) in *.
  set (w := fun o => kap q o ^ 2 * A1p (iv 0%nat) (iv 1%nat) (kap q o)) in *. set (v := fun o => kap q o * (cos (d o) - A1 (iv 0%nat) (iv 1%nat) (kap q o))) in *.
  assert (Hg : forall o, In o l -> List.length (x1 o) = S p /\ 0 <= w o).
  { intros o Ho. split; [rewrite x1_length; f_equal; exact (Hl o Ho)|]. apply Rmult_le_pos; [apply pow2_ge_0|]. apply A1p_nonneg; [exact Hi|apply kap_pos]. }
  assert (Z : (forall j, (j < S p)%nat -> Rsum (map (fun o => nth j (x1 o) 0 * v o) l) = 0) <-> forall j, (j < S p)%nat -> nth j u 0 = 0).
  { split.
    - intros Z j Hj. apply (gridge_regular (S p) w x1 l u Lu Hg); [|apply nth_In; lia]. intros i Hi'. rewrite gridge_mv; auto; [|intros o Ho; apply (Hg o Ho)].
      etransitivity; [exact (Eq i Hi')|exact (Z i Hi')].
    - intros Z j Hj. etransitivity; [symmetry; exact (Eq j Hj)|]. rewrite (Z j Hj). rewrite Rmult_0_r, Rplus_0_r. transitivity (Rsum (map (fun _ : obs => 0) l)); [|rewrite Rsum_map_const; ring].
      apply Rsum_map_ext. intros o Ho. rewrite (inner_sum' (S p) (x1 o) u) by auto. rewrite (sumn_ext _ _ (fun _ => 0)) by (intros i Hi'; rewrite Z by auto; ring). unfold sumn. rewrite Rsum_map_const. ring. }
  assert (U : a = p_alpha q /\ g = p_gamma q <-> forall j, (j < S p)%nat -> nth j u 0 = 0).
  { destruct u as [|u0 u]; [discriminate|]. cbn [nth tl] in *. cbn in Lu. assert (Lu' : List.length u = p) by lia. split.
    - intros [Ha Hgm] [|j] Hj; [lra|]. cbn [nth]. assert (N : nth j g 0 = nth j (p_gamma q) 0 + nth j u 0) by (rewrite Eg; apply (vadd_nth p); auto; lia). rewrite Hgm in N. lra.
    - intros Z'. split; [pose proof (Z' 0%nat ltac:(lia)); cbn in *; lra|]. rewrite Eg. apply (vec_eq p); [apply vadd_length; auto|exact Hq|]. intros j Hj. rewrite (vadd_nth p) by auto.
      pose proof (Z' (S j) ltac:(lia)) as Z0. cbn in Z0. lra. }
  assert (Sc : forall e, List.length e = S p -> Rsum (map (fun o => v o * inner (x1 o) e) l) = sumn (S p) (fun j => Rsum (map (fun o => nth j (x1 o) 0 * v o) l) * nth j e 0)).
  { intros e He. rewrite (sumn_ext _ _ (fun j => Rsum (map (fun o => nth j (x1 o) 0 * v o * nth j e 0) l))) by (intros j _; now rewrite <- Rsum_map_scal_r).
    rewrite sumn_sum. apply Rsum_map_ext. intros o Ho. rewrite (inner_sum (S p) (x1 o) e) by (apply (Hg o Ho)). rewrite <- sumn_scal. apply sumn_ext. intros. ring. }
  assert (Dv : forall da dg, List.length dg = p -> derivable_pt_lim (fun s => vm_loglik iv (under loc (log_link (p_alpha q + s * da) (along (p_gamma q) s dg)) theta rows)) 0
     (Rsum (map (fun o => v o * inner (x1 o) (da :: dg)) l))).
  { intros da dg Hdg. eapply dlim_eq; [|apply conc_score; [exact Hi|congruence]]. fold l. apply Rsum_map_ext. intros o Ho. unfold v. rewrite (Hd o Ho). reflexivity. }
  rewrite U, <- Z. split.
  - intros K da dg Hdg. eapply dlim_eq; [|apply Dv; exact Hdg]. rewrite Sc by (cbn; lia). rewrite (sumn_ext _ _ (fun _ => 0)) by (intros j Hj; rewrite K by auto; ring). unfold sumn. rewrite Rsum_map_const. ring.
  - intros K. apply sum_zero_nth. intros [|da dg] He; [discriminate|]. rewrite <- Sc by auto. cbn in He. symmetry. exact (dlim_unique _ _ _ _ (K da dg ltac:(lia)) (Dv da dg ltac:(lia))).
Qed.
