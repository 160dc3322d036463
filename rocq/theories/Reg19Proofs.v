(** The standard errors of circular-linear regression. *)
From Coq Require Import String.
From Verif Require Import Prelude NpModel NpProofs UtilsModel CircleSpec IntSpec IntProofs DistProofs Dist2Proofs Dist5Proofs VonSpec VonProofs RegModel RegSpec RegClSpec RegSeSpec RegProofs Reg4Proofs Reg9Proofs Reg10Proofs Reg11Proofs Reg12Proofs Reg13Proofs Reg14Proofs Reg18Proofs.

Lemma over_rows theta (rows : list (list R)) (F : list R -> R) : List.length theta = List.length rows ->
  Rsum (map (fun o : obs => F (snd o)) (combine theta rows)) = Rsum (map F rows).
Proof.
  intros L. f_equal. revert rows L. induction theta as [|t theta IH]; intros [|r rows] L; try discriminate; cbn; [reflexivity|]. f_equal. apply IH. cbn in L. lia.
Qed.
Definition growx (b x : list R) : list R := map (fun v => 2 * v / (1 + inner x b ^ 2)) x.
Lemma grow_x b (o : obs) : grow b o = growx b (snd o).
Proof. unfold grow, growx. rewrite dot_inner. reflexivity. Qed.
Lemma growx_inner b x e : inner (growx b x) e = 2 * inner x e / (1 + inner x b ^ 2).
Proof.
  unfold growx. generalize (inner x b). intros z. pose proof (pow2_ge_0 z). revert e. induction x as [|a x IH]; intros [|c e]; cbn [map inner]; try (unfold Rdiv; ring). rewrite IH. field. lra.
Qed.
Lemma tan_link_d mu dm b x e : List.length b = List.length e ->
  derivable_pt_lim (fun s => tan_link (mu + s * dm) (along b s e) x) 0 (dm + inner (growx b x) e).
Proof.
  intros L. apply (dlim_ext (fun s => mu + s * dm + 2 * atan (inner x b + s * inner x e))). { intros s. unfold tan_link. now rewrite inner_along. }
  eapply dlim_eq; [|apply dlim_plus; [apply dlim_plus; [apply dlim_const|apply dlim_mult; [apply dlim_id|apply dlim_const]]|apply dlim_scal; apply dlim_atan; apply dlim_plus; [apply dlim_const|apply dlim_mult; [apply dlim_id|apply dlim_const]]]].
  cbv beta. rewrite growx_inner, !Rmult_0_l, !Rplus_0_r. pose proof (pow2_ge_0 (inner x b)). cbn [pow] in *. field. lra.
Qed.
Lemma log_link_d a da g x e : List.length g = List.length e ->
  derivable_pt_lim (fun s => log_link (a + s * da) (along g s e) x) 0 (log_link a g x * inner (1 :: x) (da :: e)).
Proof.
  intros L. apply (dlim_ext (fun s => exp (a + s * da + (inner x g + s * inner x e)))). { intros s. unfold log_link. now rewrite inner_along. }
  eapply dlim_eq; [|apply dlim_exp; apply dlim_plus; apply dlim_plus; [apply dlim_const|apply dlim_mult; [apply dlim_id|apply dlim_const]|apply dlim_const|apply dlim_mult; [apply dlim_id|apply dlim_const]]].
  cbv beta. cbn [inner]. unfold log_link. rewrite !Rmult_0_l, !Rplus_0_r. ring.
Qed.
Lemma along_0 b e : along b 0 e = b.
Proof. revert e. induction b as [|x b IH]; intros [|y e]; cbn; try reflexivity. rewrite IH. f_equal. ring. Qed.
Lemma log_link_pos a g x : 0 < log_link a g x.
Proof. apply exp_pos. Qed.

(** ** The joint information of location and concentration *)
Lemma fisher_tan iv mu dm b db (conc : R -> list R -> R) kl rows : is_iv iv -> List.length b = List.length db ->
  (forall x, In x rows -> derivable_pt_lim (fun s => conc s x) 0 (kl x) /\ 0 < conc 0 x) ->
  fisher iv (fun s => tan_link (mu + s * dm) (along b s db)) conc rows
    (Rsum (map (fun x => conc 0 x * A1 (iv 0%nat) (iv 1%nat) (conc 0 x) * (dm + inner (growx b x) db) ^ 2) rows) + Rsum (map (fun x => kl x ^ 2 * A1p (iv 0%nat) (iv 1%nat) (conc 0 x)) rows)).
Proof.
  intros Hi L D. eapply fisher_eq; [|apply (fisher_sum iv (fun s => tan_link (mu + s * dm) (along b s db)) conc rows (fun x => dm + inner (growx b x) db) kl Hi)].
  - rewrite <- Rsum_map_plus. apply Rsum_map_ext. intros x _. ring.
  - intros x Hx. destruct (D x Hx) as [D1 D2]. split; [now apply tan_link_d|]. auto.
Qed.
Lemma fisher_loc iv mu dm (conc : R -> list R -> R) kl rows : is_iv iv ->
  (forall x, In x rows -> derivable_pt_lim (fun s => conc s x) 0 (kl x) /\ 0 < conc 0 x) ->
  fisher iv (fun s _ => mu + s * dm) conc rows
    (Rsum (map (fun x => conc 0 x * A1 (iv 0%nat) (iv 1%nat) (conc 0 x) * dm ^ 2) rows) + Rsum (map (fun x => kl x ^ 2 * A1p (iv 0%nat) (iv 1%nat) (conc 0 x)) rows)).
Proof.
  intros Hi D. eapply fisher_eq; [|apply (fisher_sum iv (fun s _ => mu + s * dm) conc rows (fun _ => dm) kl Hi)].
  - rewrite <- Rsum_map_plus. apply Rsum_map_ext. intros x _. ring.
  - intros x Hx. destruct (D x Hx) as [D1 D2]. split; [|auto]. eapply dlim_eq; [|apply dlim_plus; [apply dlim_const|apply dlim_mult; [apply dlim_id|apply dlim_const]]]. cbv beta. ring.
Qed.
Lemma fisher_ext iv loc loc' conc conc' rows v : (forall s x, In x rows -> loc s x = loc' s x /\ conc s x = conc' s x) -> fisher iv loc conc rows v -> fisher iv loc' conc' rows v.
Proof.
  intros E (us & -> & F). exists us. split; [reflexivity|]. induction F as [|x u rows us (sc & D & I) F IH]; constructor; [|apply IH; intros s y Hy; apply E; now right].
  exists sc. split.
  - intros t. eapply dlim_ext; [|apply D]. intros s. destruct (E s x (or_introl eq_refl)) as [-> ->]. reflexivity.
  - destruct (E 0 x (or_introl eq_refl)) as [<- <-]. exact I.
Qed.

(** ** The mean model *)
Lemma sqrt_1div x : 0 < x -> sqrt (1 / x) = 1 / sqrt x.
Proof. intros H. unfold Rdiv. rewrite !Rmult_1_l. apply sqrt_inv. Qed.
Lemma small_10 : small = / 10 ^ 12.
Proof. unfold small. f_equal. ring. Qed.
Lemma rmax_small_pos x : 0 < Rmax x small.
Proof. pose proof small_pos. pose proof (Rmax_r x small). lra. Qed.
Lemma mean_ses iv inv pinv theta p rows f k : is_iv iv -> right_inv inv -> cc_data theta p rows -> List.length (p_beta (f_par f)) = p -> f_kappa f = One k -> 0 < k ->
  let s := standard_errors (iv 0%nat) (iv 1%nat) inv pinv Mean p (combine theta rows) f in
  let b := p_beta (f_par f) in let mu := f_mu f in
  (exists A B, information iv p (fun e s => tan_link mu (along b s e)) (fun _ _ _ => k) rows A /\ inverse_of p (/ 10 ^ 8) A B /\ se_beta s = Some (root_diag B (seq 0 p))) /\
  (exists v, fisher iv (fun s => tan_link (mu + s) b) (fun _ _ => k) rows v /\ se_mu s = Fin (1 / sqrt (Rmax ((1 - INR p / INR (List.length theta)) * v) (/ 10 ^ 12)))) /\
  (exists v, se_kappa s = [Fin (1 / sqrt (Rmax v (/ 10 ^ 12)))] /\ forall dm db, List.length db = p -> exists u, forall dk, fisher iv (fun s => tan_link (mu + s * dm) (along b s db)) (fun s _ => k + s * dk) rows (u + v * dk ^ 2)).
Proof.
  intros Hi Hv D Lb Ek Hk s b mu. destruct (data_obs _ _ _ D) as [Hl Hn]. assert (L : List.length theta = List.length rows) by apply D.
  assert (Hc : @List.length obs (combine theta rows) = List.length theta) by (etransitivity; [apply combine_length|lia]).
  assert (N : 0 < INR (List.length theta)) by (apply lt_0_INR; destruct theta; [cbn in *; congruence|cbn; lia]).
  unfold s, standard_errors. rewrite Ek, ridge_scaled. cbn [se_beta se_mu se_kappa]. fold b. set (a := A1 (iv 0%nat) (iv 1%nat) k).
  assert (Hg : forall o, In o (combine theta rows) -> List.length (grow b o) = p /\ 0 <= k * a * 1).
  { intros o Ho. rewrite grow_length, Rmult_1_r. split; [exact (Hl o Ho)|]. apply weight_nonneg; [exact Hi|lra]. }
  assert (Dk : forall dk, forall x : list R, In x rows -> derivable_pt_lim (fun s => k + s * dk) 0 dk /\ 0 < k + 0 * dk).
  { intros dk x _. split; [|lra]. eapply dlim_eq; [|apply dlim_plus; [apply dlim_const|apply dlim_mult; [apply dlim_id|apply dlim_const]]]. cbv beta. ring. }
  assert (J : forall dm db, List.length db = p -> forall dk, fisher iv (fun s => tan_link (mu + s * dm) (along b s db)) (fun s _ => k + s * dk) rows
     (Rsum (map (fun x => k * a * (dm + inner (growx b x) db) ^ 2) rows) + INR (List.length theta) * A1p (iv 0%nat) (iv 1%nat) k * dk ^ 2)).
  { intros dm db Hdb dk. eapply fisher_eq; [|apply (fisher_tan iv mu dm b db (fun s _ => k + s * dk) (fun _ => dk) rows Hi (eq_trans Lb (eq_sym Hdb)) (Dk dk))].
    cbv beta. rewrite Rmult_0_l, Rplus_0_r. fold a. rewrite Rsum_map_const, L. ring. }
  split; [|split].
  - exists (gram p (fun _ => k * a * 1) (grow b) (combine theta rows)), (safe_inverse inv pinv (gridge p (fun _ => k * a * 1) (grow b) (combine theta rows))). split; [|split].
    + split; [apply gram_sym|]. intros e He. rewrite gram_quad by (intros o Ho; apply (Hg o Ho)). eapply fisher_ext; [|eapply fisher_eq; [|apply (J 0 e He 0)]].
      * intros s0 x _. cbv beta. rewrite !Rmult_0_r, !Rplus_0_r. split; reflexivity.
      * transitivity (Rsum (map (fun x => k * a * 1 * inner (growx b x) e ^ 2) rows)); [|rewrite <- (over_rows theta rows (fun x => k * a * 1 * inner (growx b x) e ^ 2) L); apply Rsum_map_ext; intros o _; now rewrite grow_x].
        cbn [pow]. rewrite !Rmult_0_l, !Rmult_0_r, Rplus_0_r. apply Rsum_map_ext. intros x _. ring.
    + now apply gram_inverse.
    + f_equal. apply diag_root; [exact Hv|exact Hg|lia].
  - exists (INR (List.length theta) * (k * a)). split.
    + eapply fisher_ext; [|eapply fisher_eq; [|apply (J 1 (repeat 0 p) (repeat_length 0 p) 0)]].
      * intros s0 x _. cbv beta. rewrite !Rmult_0_r, !Rplus_0_r, Rmult_1_r. split; [|reflexivity]. f_equal. clear - Lb. revert p Lb. fold b. generalize b. induction b0 as [|y b0 IH]; intros [|p] Lb; try discriminate; cbn; [reflexivity|]. f_equal; [ring|]. apply IH. now injection Lb.
      * rewrite (Rsum_map_ext _ (fun _ => k * a)). { rewrite Rsum_map_const, L. cbn [pow]. ring. }
        intros x _. rewrite (inner_sum' p _ (repeat 0 p) (repeat_length _ _)). rewrite (sumn_ext _ _ (fun _ => 0)). { unfold sumn. rewrite Rsum_map_const. ring. }
        intros j _. rewrite nth_repeat. ring.
    + rewrite small_10, Hc. fold a. do 3 f_equal. f_equal. field. lra.
  - exists (INR (List.length theta) * A1p (iv 0%nat) (iv 1%nat) k). split.
    + rewrite Hc. fold a. destruct (Reqb_spec k 0); [lra|]. rewrite sqrt_1div by apply rmax_small_pos. rewrite small_10. unfold A1p. fold a. replace (1 - a ^ 2 - a / k) with (1 - a / k - a ^ 2) by ring. reflexivity.
    + intros dm db Hdb. eexists. intros dk. apply (J dm db Hdb dk).
Qed.

(** ** The other models *)
Definition cloc (m : cl_type) (mu : R) (b : list R) : list R -> R := match m with Kappa => fun _ => mu | _ => tan_link mu b end.
Definition growm (m : cl_type) (b x e : list R) : R := match m with Kappa => 0 | _ => inner (growx b x) e end.
Lemma fisher_cloc iv m mu dm b db (conc : R -> list R -> R) kl rows : is_iv iv -> List.length b = List.length db ->
  (forall x, In x rows -> derivable_pt_lim (fun s => conc s x) 0 (kl x) /\ 0 < conc 0 x) ->
  fisher iv (fun s => cloc m (mu + s * dm) (along b s db)) conc rows
    (Rsum (map (fun x => conc 0 x * A1 (iv 0%nat) (iv 1%nat) (conc 0 x) * (dm + growm m b x db) ^ 2) rows) + Rsum (map (fun x => kl x ^ 2 * A1p (iv 0%nat) (iv 1%nat) (conc 0 x)) rows)).
Proof.
  intros Hi L D. destruct m; [now apply fisher_tan| |now apply fisher_tan]. eapply fisher_eq; [|exact (fisher_loc iv mu dm conc kl rows Hi D)]. f_equal. apply Rsum_map_ext. intros x _. cbn [growm]. ring.
Qed.
Lemma along_zeros b p s : List.length b = p -> along b s (repeat 0 p) = b.
Proof. revert p. induction b as [|y b IH]; intros [|p] L; try discriminate; cbn; [reflexivity|]. f_equal; [ring|]. apply IH. now injection L. Qed.
Lemma inner_zeros x p : inner x (repeat 0 p) = 0.
Proof. revert p. induction x as [|y x IH]; intros [|p]; cbn; try reflexivity. rewrite IH. ring. Qed.
Lemma over_pairs theta (rows : list (list R)) (F : list R -> R) (G : list R -> R -> R) : List.length theta = List.length rows ->
  Rsum (map (fun ok : obs * R => G (snd (fst ok)) (snd ok)) (combine (combine theta rows) (map F rows))) = Rsum (map (fun x => G x (F x)) rows).
Proof.
  revert rows. induction theta as [|t theta IH]; intros [|r rows] L; try discriminate; cbn [combine map]; [reflexivity|]. rewrite !Rsum_cons. cbn [fst snd]. f_equal. apply IH. cbn in L. lia.
Qed.
Lemma nth_map_R {A} (F : R -> A) l i d : (i < List.length l)%nat -> nth i (map F l) d = F (nth i l 0).
Proof. intros H. rewrite (nth_indep _ d (F 0)) by (rewrite map_length; exact H). apply map_nth. Qed.
Lemma conc_ses iv inv pinv m theta p rows f : is_iv iv -> right_inv inv -> cc_data theta p rows -> List.length (p_beta (f_par f)) = p -> List.length (p_gamma (f_par f)) = p -> m <> Mean ->
  f_kappa f = Each (map (log_link (p_alpha (f_par f)) (p_gamma (f_par f))) rows) ->
  let s := standard_errors (iv 0%nat) (iv 1%nat) inv pinv m p (combine theta rows) f in
  let b := p_beta (f_par f) in let a := p_alpha (f_par f) in let g := p_gamma (f_par f) in let mu := f_mu f in
  (exists A B, symmetric (S p) A /\
     (forall dm db, List.length db = p -> exists u, forall da dg, List.length dg = p ->
        fisher iv (fun s => cloc m (mu + s * dm) (along b s db)) (fun s => log_link (a + s * da) (along g s dg)) rows (u + quad_form (S p) A (da :: dg))) /\
     inverse_of (S p) (/ 10 ^ 8) A B /\ se_ag s = Some (Fin (sqrt (entry B 0 0)), root_diag B (seq 1 p))) /\
  (exists v, fisher iv (fun s => cloc m (mu + s) b) (fun _ => log_link a g) rows v /\ se_mu s = Fin (1 / sqrt (Rmax (v - 1 / 2) (/ 10 ^ 12)))) /\
  (m = Mixed -> exists A B, information iv p (fun e s => tan_link mu (along b s e)) (fun _ _ => log_link a g) rows A /\ inverse_of p (/ 10 ^ 8) A B /\ se_beta s = Some (root_diag B (seq 0 p))) /\
  (List.length (se_kappa s) = List.length rows /\ forall i, (i < List.length rows)%nat -> exists v,
     fisher iv (fun _ => cloc m mu b) (fun s x => log_link a g x + s) [nth i rows []] v /\ nth i (se_kappa s) NaN = Fin (1 / sqrt (Rmax (INR (List.length rows) * v) (/ 10 ^ 12)))).
Proof.
  intros Hi Hv D Lb Lg Hm Ek s b a g mu. destruct (data_obs _ _ _ D) as [Hl Hn]. assert (L : List.length theta = List.length rows) by apply D.
  assert (Hc : @List.length obs (combine theta rows) = List.length rows) by (etransitivity; [apply combine_length|lia]).
  set (A1' := A1 (iv 0%nat) (iv 1%nat)). set (A1p' := A1p (iv 0%nat) (iv 1%nat)). set (k := log_link a g). set (l := combine theta rows : list obs).
  assert (J : forall dm db da dg, List.length db = p -> List.length dg = p -> fisher iv (fun s => cloc m (mu + s * dm) (along b s db)) (fun s => log_link (a + s * da) (along g s dg)) rows
     (Rsum (map (fun x => k x * A1' (k x) * (dm + growm m b x db) ^ 2) rows) + Rsum (map (fun x => (k x ^ 2 * A1p' (k x)) * inner (1 :: x) (da :: dg) ^ 2) rows))).
  { intros dm db da dg Hdb Hdg. eapply fisher_eq; [|apply (fisher_cloc iv m mu dm b db (fun s => log_link (a + s * da) (along g s dg)) (fun x => k x * inner (1 :: x) (da :: dg)) rows Hi (eq_trans Lb (eq_sym Hdb)))].
    - cbv beta. rewrite Rmult_0_l, Rplus_0_r, along_0. fold k A1' A1p'. f_equal. apply Rsum_map_ext. intros x _. ring.
    - intros x _. split; [apply log_link_d; exact (eq_trans Lg (eq_sym Hdg))|apply exp_pos]. }
  assert (W1 : forall x, 0 <= k x * A1' (k x)) by (intros x; apply weight_nonneg; [exact Hi|left; apply exp_pos]).
  assert (W2 : forall x, 0 <= k x ^ 2 * A1p' (k x)) by (intros x; apply Rmult_le_pos; [apply pow2_ge_0|apply A1p_nonneg; [exact Hi|apply exp_pos]]).
  assert (AG : exists A B, symmetric (S p) A /\ (forall dm db, List.length db = p -> exists u, forall da dg, List.length dg = p ->
        fisher iv (fun s => cloc m (mu + s * dm) (along b s db)) (fun s => log_link (a + s * da) (along g s dg)) rows (u + quad_form (S p) A (da :: dg))) /\
     inverse_of (S p) (/ 10 ^ 8) A B /\ se_ag_of (iv 0%nat) (iv 1%nat) inv pinv p l f (map k rows) = (Fin (sqrt (entry B 0 0)), root_diag B (seq 1 p))).
  { set (w := fun o : obs => k (snd o) ^ 2 * A1p' (k (snd o))).
    assert (Hg : forall o, In o l -> List.length (x1 o) = S p /\ 0 <= w o) by (intros o Ho; split; [rewrite x1_length; f_equal; exact (Hl o Ho)|apply W2]).
    exists (gram (S p) w x1 l), (safe_inverse inv pinv (gridge (S p) w x1 l)). split; [apply gram_sym|]. split; [|split; [now apply gram_inverse|]].
    - intros dm db Hdb. eexists. intros da dg Hdg. eapply fisher_eq; [|apply (J dm db da dg Hdb Hdg)]. f_equal. rewrite gram_quad by (intros o Ho; apply (Hg o Ho)).
      rewrite <- (over_rows theta rows (fun x => k x ^ 2 * A1p' (k x) * inner (1 :: x) (da :: dg) ^ 2) L). reflexivity.
    - unfold se_ag_of. cbv zeta.
      assert (M : ridge (S p) (mat_of (S p) (S p) (fun a0 b0 => Rsum (map (fun ok => nth a0 (x1 (fst ok)) 0 * (exp (dot (x1 (fst ok)) (p_alpha (f_par f) :: p_gamma (f_par f))) ^ 2 * A1p (iv 0%nat) (iv 1%nat) (snd ok) * nth b0 (x1 (fst ok)) 0)) (combine l (map k rows))))) = gridge (S p) w x1 l).
      { apply mat_of_ext. intros i j Hi' Hj. rewrite ent_mat_of by auto. f_equal.
        transitivity (Rsum (map (fun x => (fun x v => nth i (1 :: x) 0 * (exp (inner (1 :: x) (a :: g)) ^ 2 * A1p' v * nth j (1 :: x) 0)) x (k x)) rows)).
        - rewrite <- (over_pairs theta rows k (fun x v => nth i (1 :: x) 0 * (exp (inner (1 :: x) (a :: g)) ^ 2 * A1p' v * nth j (1 :: x) 0)) L). apply Rsum_map_ext. intros o _. rewrite dot_inner. reflexivity.
        - rewrite <- (over_rows theta rows (fun x => (fun x v => nth i (1 :: x) 0 * (exp (inner (1 :: x) (a :: g)) ^ 2 * A1p' v * nth j (1 :: x) 0)) x (k x)) L). apply Rsum_map_ext. intros o _. cbv beta.
          unfold w. destruct o as [t x]. unfold x1. cbn [fst snd]. assert (Ex : exp (inner (1 :: x) (a :: g)) = k x) by (unfold k, log_link; cbn [inner]; f_equal; ring). rewrite Ex. ring. }
      rewrite M. pose proof (diag_root inv pinv (S p) w x1 l 1 p Hv Hg ltac:(lia)) as E1. pose proof (diag_root inv pinv (S p) w x1 l 0 1 Hv Hg ltac:(lia)) as E0. unfold diag, root_diag in E0. cbn [seq map] in E0. injection E0 as E0. rewrite E1, E0. reflexivity. }
  assert (MU : exists v, fisher iv (fun s => cloc m (mu + s) b) (fun _ => log_link a g) rows v /\ v = Rsum (map (fun x => x * A1' x) (map k rows))).
  { eexists. split; [|reflexivity]. eapply fisher_ext; [|eapply fisher_eq; [|apply (J 1 (repeat 0 p) 0 (repeat 0 p)); apply repeat_length]].
    - intros s0 x _. cbv beta. rewrite Rmult_0_r, Rplus_0_r, Rmult_1_r, !along_zeros by assumption. split; reflexivity.
    - rewrite map_map. rewrite <- Rsum_map_plus. apply Rsum_map_ext. intros x _. cbn [inner]. rewrite inner_zeros. assert (G0 : growm m b x (repeat 0 p) = 0) by (destruct m; cbn [growm]; auto using inner_zeros). rewrite G0. ring. }
  assert (KP : forall i, (i < List.length rows)%nat -> exists v, fisher iv (fun _ => cloc m mu b) (fun s x => log_link a g x + s) [nth i rows []] v /\ v = A1p' (nth i (map k rows) 0)).
  { intros i Hlt. eexists. split; [|reflexivity]. eapply fisher_eq; [|apply (fisher_sum iv (fun _ => cloc m mu b) (fun s x => log_link a g x + s) [nth i rows []] (fun _ => 0) (fun _ => 1) Hi)].
    - cbn [map]. rewrite Rsum_cons, Rsum_nil, !Rplus_0_r. rewrite (nth_indep _ 0 (k [])) by (rewrite map_length; exact Hlt). rewrite map_nth. fold k A1' A1p'. ring.
    - intros x _. split; [apply dlim_const|]. split; [|rewrite Rplus_0_r; apply exp_pos]. eapply dlim_eq; [|apply dlim_plus; [apply dlim_const|apply dlim_id]]. ring. }
  unfold s, standard_errors. fold l. rewrite Ek. fold b a g. fold k. destruct m; [congruence| |]; cbn [se_beta se_ag se_mu se_kappa].
  - split; [|split; [|split; [discriminate|]]].
    + destruct AG as (A & B & H1 & H2 & H3 & H4). exists A, B. split; [exact H1|]. split; [exact H2|]. split; [exact H3|]. now rewrite H4.
    + destruct MU as (v & H1 & ->). exists (Rsum (map (fun x => x * A1' x) (map k rows))). split; [exact H1|]. rewrite small_10. reflexivity.
    + split; [now rewrite !map_length|]. intros i Hlt. destruct (KP i Hlt) as (v & H1 & ->). eexists. split; [exact H1|].
      rewrite nth_map_R by (rewrite map_length; exact Hlt). rewrite sqrt_1div by apply rmax_small_pos. rewrite small_10. unfold l. rewrite Hc. reflexivity.
  - split; [|split; [|split]].
    + destruct AG as (A & B & H1 & H2 & H3 & H4). exists A, B. split; [exact H1|]. split; [exact H2|]. split; [exact H3|]. now rewrite H4.
    + destruct MU as (v & H1 & ->). exists (Rsum (map (fun x => x * A1' x) (map k rows))). split; [exact H1|]. rewrite small_10. reflexivity.
    + intros _. set (w := fun o : obs => k (snd o) * A1' (k (snd o))).
      assert (Hg : forall o, In o l -> List.length (grow b o) = p /\ 0 <= w o) by (intros o Ho; split; [rewrite grow_length; exact (Hl o Ho)|apply W1]).
      assert (M : ridge p (mat_of p p (fun a0 b0 => Rsum (map (fun ok => nth a0 (grow b (fst ok)) 0 * (snd ok * A1 (iv 0%nat) (iv 1%nat) (snd ok) * nth b0 (grow b (fst ok)) 0)) (combine l (map k rows))))) = gridge p w (grow b) l).
      { apply mat_of_ext. intros i j Hi' Hj. rewrite ent_mat_of by auto. f_equal.
        transitivity (Rsum (map (fun x => (fun x v => nth i (growx b x) 0 * (v * A1' v * nth j (growx b x) 0)) x (k x)) rows)).
        - rewrite <- (over_pairs theta rows k (fun x v => nth i (growx b x) 0 * (v * A1' v * nth j (growx b x) 0)) L). apply Rsum_map_ext. intros o _. rewrite grow_x. reflexivity.
        - rewrite <- (over_rows theta rows (fun x => (fun x v => nth i (growx b x) 0 * (v * A1' v * nth j (growx b x) 0)) x (k x)) L). apply Rsum_map_ext. intros o _. cbv beta. unfold w. rewrite !grow_x. ring. }
      rewrite M. exists (gram p w (grow b) l), (safe_inverse inv pinv (gridge p w (grow b) l)). split; [|split; [now apply gram_inverse|f_equal; apply diag_root; [exact Hv|exact Hg|lia]]].
      split; [apply gram_sym|]. intros e He. rewrite gram_quad by (intros o Ho; apply (Hg o Ho)). eapply fisher_ext; [|eapply fisher_eq; [|apply (J 0 e 0 (repeat 0 p) He (repeat_length _ _))]].
      * intros s0 x _. cbv beta. cbn [cloc]. rewrite !Rmult_0_r, !Rplus_0_r, along_zeros by assumption. split; reflexivity.
      * transitivity (Rsum (map (fun x => k x * A1' (k x) * inner (growx b x) e ^ 2) rows)); [|rewrite <- (over_rows theta rows (fun x => k x * A1' (k x) * inner (growx b x) e ^ 2) L); apply Rsum_map_ext; intros o _; now rewrite grow_x].
        rewrite <- Rsum_map_plus. apply Rsum_map_ext. intros x _. cbn [inner growm]. rewrite inner_zeros. ring.
    + split; [now rewrite !map_length|]. intros i Hlt. destruct (KP i Hlt) as (v & H1 & ->). eexists. split; [exact H1|].
      rewrite nth_map_R by (rewrite map_length; exact Hlt). rewrite sqrt_1div by apply rmax_small_pos. rewrite small_10. unfold l. rewrite Hc. unfold A1p', A1p.
      do 4 f_equal. ring.
Qed.
