(** Turning and reordering, continued. *)
From Verif Require Import Prelude NpModel NpProofs UtilsModel CircleSpec IntSpec IntProofs VonSpec VonProofs RegModel RegSpec RegClSpec RegProofs Reg2Proofs Reg3Proofs Reg4Proofs Em5Proofs Desc9Proofs Reg10Proofs Reg11Proofs Reg12Proofs Reg13Proofs Reg14Proofs Reg15Proofs.
From Coq Require Import String Permutation.

(** The parameters after n iterations. *)
Fixpoint nth_par (st : par -> step) (q0 : par) (n : nat) : option par :=
  match n with
  | O => Some q0
  | S n => match nth_par st q0 n with Some q => match st q with Step new _ _ _ => Some new | _ => None end | None => None end
  end.
Lemma nth_par_le st q0 n m q : nth_par st q0 (n + m) = Some q -> exists q', nth_par st q0 n = Some q'.
Proof.
  revert q. induction m as [|m IH]; intros q; [rewrite Nat.add_0_r; eauto|]. rewrite Nat.add_succ_r. cbn. destruct (nth_par st q0 (n + m)) as [q1|]; [|discriminate]. intros _. eauto.
Qed.
(** With tol = 0 the loop never stops early. *)
Lemma loop_zero st q0 q' fuel : forall n q old last, nth_par st q0 n = Some q -> nth_par st q0 (n + fuel) = Some q' -> (0 < fuel)%nat \/ last <> None ->
  exists mu k ll, cl_loop st 0 fuel q old last = Ok (Fitted {| f_par := q'; f_mu := mu; f_kappa := k; f_ll := ll |}).
Proof.
  induction fuel as [|fuel IH]; intros n q old last Hq Hq' Hl; cbn.
  - rewrite Nat.add_0_r, Hq in Hq'. injection Hq' as ->. destruct last as [[[mu k] ll]|]; [eauto|]. destruct Hl; [lia|congruence].
  - replace (n + S fuel)%nat with (S n + fuel)%nat in Hq' by lia. destruct (nth_par_le _ _ _ _ _ Hq') as [q1 Hq1]. pose proof Hq1 as Hq1'. cbn in Hq1. rewrite Hq in Hq1. destruct (st q) as [new mu k ll| |]; try discriminate. injection Hq1 as ->.
    assert (B : (match old with None => false | Some o => Rltb (Rabs (ll - o)) 0 end) = false). { destruct old as [o|]; [|reflexivity]. destruct (Rltb_spec (Rabs (ll - o)) 0); [pose proof (Rabs_pos (ll - o)); lra|reflexivity]. }
    rewrite B. apply (IH (S n)); auto. right. discriminate.
Qed.
Lemma loop_rel_n (V : R * conc * R -> R * conc * R -> Prop) st st' tol q0 N :
  (forall n q, (n < N)%nat -> nth_par st q0 n = Some q -> match st q, st' q with
     | Step new mu k ll, Step new' mu' k' ll' => new = new' /\ V (mu, k, ll) (mu', k', ll') /\ ll' = ll
     | Raise e, Raise e' => e = e' | Lost, Lost => True | _, _ => False end) ->
  forall fuel n q old last last', (n + fuel)%nat = N -> nth_par st q0 n = Some q -> match last, last' with None, None => True | Some v, Some v' => V v v' | _, _ => False end ->
  match cl_loop st tol fuel q old last, cl_loop st' tol fuel q old last' with
  | Ok (Fitted f), Ok (Fitted f') => f_par f = f_par f' /\ V (f_mu f, f_kappa f, f_ll f) (f_mu f', f_kappa f', f_ll f')
  | Ok NanFit, Ok NanFit => True | Err e, Err e' => e = e' | _, _ => False end.
Proof.
  intros H. induction fuel as [|fuel IH]; intros n q old last last' En Hq HV; cbn.
  - destruct last as [[[mu k] ll]|], last' as [[[mu' k'] ll']|]; cbn; try tauto; auto.
  - specialize (H n q ltac:(lia) Hq). destruct (st q) as [new mu k ll|e|] eqn:Es, (st' q) as [new' mu' k' ll'|e'|]; try tauto.
    destruct H as (<- & H2 & ->). destruct (match old with None => false | Some o => Rltb (Rabs (ll - o)) tol end); [cbn; auto|]. apply (IH (S n)); [lia| |exact H2]. cbn. now rewrite Hq, Es.
Qed.

(** The weighted resultant of the deviations vanishes. *)
Definition Kzero (q : par) (dev : obs -> R) (l : list obs) : Prop :=
  Rsum (map (fun o => kap q o * sin (dev o)) l) = 0 /\ Rsum (map (fun o => kap q o * cos (dev o)) l) = 0.
Lemma Kmu_turned d q dev dev' l l' : Forall2 (turned1 d) l l' -> (forall o o', turned1 d o o' -> same_dir (dev' o') (dev o + d)) -> ~ Kzero q dev l -> same_dir (Kmu q dev' l') (Kmu q dev l + d).
Proof.
  intros H Hd N. destruct (resultant_turned d l l' (kap q) (kap q) dev dev' H) as [E1 E2]; [intros o o' Ho; split; [now apply (kap_turned d)|now apply Hd]|].
  unfold Kmu. rewrite E1, E2. apply arctan2_turned. unfold Kzero in N. destruct (Req_dec (Rsum (map (fun o => kap q o * sin (dev o)) l)) 0); [|auto]. right. tauto.
Qed.
Lemma conc_update_turned i0 i1 solve pinv p d q dev dev' l l' : Forall2 (turned1 d) l l' -> (forall o o', turned1 d o o' -> same_dir (dev' o') (dev o)) ->
  conc_update i0 i1 solve pinv p l' q dev' = conc_update i0 i1 solve pinv p l q dev.
Proof.
  intros H Hd. unfold conc_update. rewrite (existsb_turned d l l' (fun o => isclose (A1p i0 i1 (kap q o)) 0) _ H) by (intros o o' Ho; now rewrite (kap_turned d q o o' Ho)).
  destruct (existsb _ l); [reflexivity|]. cbv zeta.
  rewrite (gram_turned d l l' (S p) (fun o => kap q o ^ 2 * A1p i0 i1 (kap q o)) _ x1 H) by (intros o o' Ho; split; [now apply (x1_turned d)|now rewrite (kap_turned d q o o' Ho)]).
  rewrite (tmul_turned d l l' (S p) x1 (fun o => kap q o ^ 2 * A1p i0 i1 (kap q o) * ((cos (dev o) - A1 i0 i1 (kap q o)) / (A1p i0 i1 (kap q o) * kap q o))) _ H); [reflexivity|].
  intros o o' Ho. split; [now apply (x1_turned d)|]. now rewrite (kap_turned d q o o' Ho), (same_dir_cos _ _ (Hd o o' Ho)).
Qed.
Lemma conc_ll_turned i0 d q dev dev' l l' : Forall2 (turned1 d) l l' -> (forall o o', turned1 d o o' -> same_dir (dev' o') (dev o)) -> conc_ll i0 l' q dev' = conc_ll i0 l q dev.
Proof.
  intros H Hd. unfold conc_ll. f_equal; [f_equal|]; apply (sum_turned d _ _ _ _ H); intros o o' Ho; rewrite (kap_turned d q o o' Ho); [reflexivity|]. now rewrite (same_dir_cos _ _ (Hd o o' Ho)).
Qed.
Lemma map_kap_turned d q l l' : Forall2 (turned1 d) l l' -> map (kap q) l' = map (kap q) l.
Proof. induction 1 as [|o o' l l' Ho H IH]; cbn; [reflexivity|]. now rewrite IH, (kap_turned d q o o' Ho). Qed.
Definition dev_of (m : cl_type) (q : par) : obs -> R := match m with Kappa => fst | _ => rdev (p_beta q) end.
Lemma conc_step_turned m i0 i1 solve pinv p d l l' q : m <> Mean -> Forall2 (turned1 d) l l' -> ~ Kzero q (dev_of m q) l ->
  match cl_step m i0 i1 solve pinv p l q, cl_step m i0 i1 solve pinv p l' q with
  | Step new mu k ll, Step new' mu' k' ll' => new = new' /\ turned_vals d (mu, k, ll) (mu', k', ll') /\ ll' = ll
  | Raise e, Raise e' => e = e' | Lost, Lost => True | _, _ => False end.
Proof.
  intros Hm H N. assert (Hd : forall o o', turned1 d o o' -> same_dir (dev_of m q o') (dev_of m q o + d)) by (intros o o' Ho; destruct m; [now apply rdev_turned|apply Ho|now apply rdev_turned]).
  pose proof (Kmu_turned d q (dev_of m q) (dev_of m q) l l' H Hd N) as Em.
  assert (Hdev : forall o o', turned1 d o o' -> same_dir (dev_of m q o' - Kmu q (dev_of m q) l') (dev_of m q o - Kmu q (dev_of m q) l)) by (intros o o' Ho; exact (dev_same _ _ _ _ _ (Hd o o' Ho) Em)).
  destruct m; [congruence| |]; cbn [cl_step dev_of] in *.
  - unfold kappa_step. fold (Kmu q fst l) (Kmu q fst l'). cbv zeta. rewrite (conc_update_turned i0 i1 solve pinv p d q (fun o => fst o - Kmu q fst l) (fun o => fst o - Kmu q fst l') l l' H Hdev).
    destruct (conc_update _ _ _ _ _ l _ _) as [[a g]|]; [|reflexivity]. rewrite (map_kap_turned d q l l' H), (conc_ll_turned i0 d q (fun o => fst o - Kmu q fst l) (fun o => fst o - Kmu q fst l') l l' H Hdev). cbn. auto.
  - unfold mixed_step. fold (Kmu q (rdev (p_beta q)) l) (Kmu q (rdev (p_beta q)) l'). cbv zeta. rewrite (conc_update_turned i0 i1 solve pinv p d q (fun o => rdev (p_beta q) o - Kmu q (rdev (p_beta q)) l) (fun o => rdev (p_beta q) o - Kmu q (rdev (p_beta q)) l') l l' H Hdev).
    destruct (conc_update _ _ _ _ _ l _ _) as [[a g]|]; [|reflexivity]. rewrite (map_kap_turned d q l l' H), (conc_ll_turned i0 d q (fun o => rdev (p_beta q) o - Kmu q (rdev (p_beta q)) l) (fun o => rdev (p_beta q) o - Kmu q (rdev (p_beta q)) l') l l' H Hdev).
    rewrite (gram_turned d l l' p (fun o => kap q o * A1 i0 i1 (kap q o)) _ (grow (p_beta q)) H) by (intros o o' Ho; split; [now apply (grow_turned d)|now rewrite (kap_turned d q o o' Ho)]).
    rewrite (tmul_turned d l l' p (grow (p_beta q)) (fun o => kap q o * A1 i0 i1 (kap q o) * sin (fst o - Kmu q (rdev (p_beta q)) l)) _ H).
    + cbn. auto.
    + intros o o' Ho. split; [now apply (grow_turned d)|]. rewrite (kap_turned d q o o' Ho). f_equal. apply same_dir_sin. exact (dev_same _ _ _ _ _ (proj2 Ho) Em).
Qed.
Lemma type_not_mean mt m : type_of mt = Some m -> mt <> "mean"%string -> m <> Mean.
Proof. unfold type_of. destruct (String.eqb_spec mt "mean"); [congruence|]. destruct (String.eqb mt "kappa"); [congruence|]. destruct (String.eqb mt "mixed"); congruence. Qed.
Lemma cl_conc_turned iv solve pinv d theta theta' p rows mt m b0 a0 g0 tol it c f : cc_data theta p rows -> cl_turned d theta theta' -> type_of mt = Some m -> mt <> "mean"%string ->
  ~ Kzero (start_par p b0 a0 g0) (dev_of m (start_par p b0 a0 g0)) (combine theta rows) ->
  (forall n c0 f0, (0 < n < it)%nat -> cl_run iv solve pinv theta p rows mt b0 a0 g0 0 n = Ok c0 -> cl_fit c0 = Fitted f0 -> ~ Kzero (f_par f0) (dev_of m (f_par f0)) (combine theta rows)) ->
  cl_run iv solve pinv theta p rows mt b0 a0 g0 tol it = Ok c -> cl_fit c = Fitted f ->
  exists c' f', cl_run iv solve pinv theta' p rows mt b0 a0 g0 tol it = Ok c' /\ cl_fit c' = Fitted f' /\
    f_par f' = f_par f /\ f_kappa f' = f_kappa f /\ f_ll f' = f_ll f /\ same_dir (f_mu f') (f_mu f + d).
Proof.
  intros D H Tm Nm Z0 Z E Ef. destruct (cl_run_inv _ _ _ _ _ _ _ _ _ _ _ _ _ D E) as (T & Hb & Hg & _ & _ & El). rewrite Tm in T. injection T as T. rewrite <- T, Ef in El. pose proof (type_not_mean _ _ Tm Nm) as Hm.
  pose proof (data_turned _ _ _ _ _ H D) as D'. rewrite (cl_run_eval iv solve pinv theta' p rows mt m b0 a0 g0 tol it D' Tm Hb Hg).
  set (st := cl_step m (iv 0%nat) (iv 1%nat) solve pinv p (combine theta rows)) in *. set (st' := cl_step m (iv 0%nat) (iv 1%nat) solve pinv p (combine theta' rows)).
  pose proof (loop_rel_n (turned_vals d) st st' tol (start_par p b0 a0 g0) it) as LR.
  assert (K : forall n q, (n < it)%nat -> nth_par st (start_par p b0 a0 g0) n = Some q -> ~ Kzero q (dev_of m q) (combine theta rows)).
  { intros n q Hn Hq. destruct n as [|n]; [cbn in Hq; injection Hq as <-; exact Z0|].
    destruct (loop_zero st (start_par p b0 a0 g0) q (S n) 0 (start_par p b0 a0 g0) None None eq_refl Hq (or_introl (Nat.lt_0_succ n))) as (mu & k & ll & Q).
    refine (Z (S n) {| cl_p := p; cl_obs := combine theta rows; cl_names := map xname (seq 0 p); cl_mt := m; cl_fit := Fitted {| f_par := q; f_mu := mu; f_kappa := k; f_ll := ll |} |} {| f_par := q; f_mu := mu; f_kappa := k; f_ll := ll |} _ _ eq_refl); [lia|].
    rewrite (cl_run_eval iv solve pinv theta p rows mt m b0 a0 g0 0 (S n) D Tm Hb Hg). fold st. rewrite Q. reflexivity. }
  specialize (LR ltac:(intros n q Hn Hq; apply conc_step_turned; [exact Hm|now apply turned_obs2|exact (K n q Hn Hq)]) it 0%nat (start_par p b0 a0 g0) None None None eq_refl eq_refl I).
  rewrite El in LR. destruct (cl_loop st' _ _ _ _ _) as [[f'|]|e] eqn:El'; [|destruct LR|destruct LR]. destruct LR as [E1 (E2 & E3 & E4)].
  cbn [bind]. eexists _, f'. split; [reflexivity|]. cbn. split; [reflexivity|]. split; [auto|]. split; [auto|]. split; [auto|]. apply E4.
  intros K1. destruct (loop_inv (fun _ => True) _ _ _ ltac:(auto) _ _ _ _ I El) as [(_ & _ & X)|(q' & new & _ & Es & _)]; [discriminate|]. unfold st in Es. destruct m; [congruence| |]; cbn [cl_step] in Es.
  - destruct (kappa_step_inv _ _ _ _ _ _ _ _ _ _ _ Es) as (_ & X & _). congruence.
  - destruct (mixed_step_inv _ _ _ _ _ _ _ _ _ _ _ Es) as (_ & X & _). congruence.
Qed.

(** ** Reordering *)
Definition conc_perm (k k' : conc) : Prop := match k, k' with One a, One b => a = b | Each u, Each v => Permutation u v | _, _ => False end.
Definition perm_vals (v v' : R * conc * R) : Prop := let '(mu, k, ll) := v in let '(mu', k', ll') := v' in mu' = mu /\ conc_perm k k' /\ ll' = ll.
Lemma sum_perm {A} (F : A -> R) l l' : Permutation l l' -> Rsum (map F l') = Rsum (map F l).
Proof. intros H. symmetry. now apply Rsum_perm, Permutation_map. Qed.
Lemma gram_perm p w g l l' : Permutation l l' -> gram p w g l' = gram p w g l.
Proof. intros H. apply mat_of_ext. intros. now apply sum_perm. Qed.
Lemma tmul_perm p g u l l' : Permutation l l' -> tmul p g u l' = tmul p g u l.
Proof. intros H. apply vec_of_ext. intros. now apply sum_perm. Qed.
Lemma existsb_perm {A} (F : A -> bool) l l' : Permutation l l' -> existsb F l' = existsb F l.
Proof. induction 1; cbn; [reflexivity|congruence| |congruence]. destruct (F x), (F y); reflexivity. Qed.
Lemma mean_perm (F : obs -> R) l l' : Permutation l l' -> mean (map F l') = mean (map F l).
Proof. intros H. unfold mean. rewrite !map_length, (sum_perm F l l' H), (Permutation_length H). reflexivity. Qed.
Lemma step_perm m i0 i1 solve pinv p l l' q : Permutation l l' ->
  match cl_step m i0 i1 solve pinv p l q, cl_step m i0 i1 solve pinv p l' q with
  | Step new mu k ll, Step new' mu' k' ll' => new = new' /\ perm_vals (mu, k, ll) (mu', k', ll') /\ ll' = ll
  | Raise e, Raise e' => e = e' | Lost, Lost => True | _, _ => False end.
Proof.
  intros H. assert (CU : forall d, conc_update i0 i1 solve pinv p l' q d = conc_update i0 i1 solve pinv p l q d).
  { intros d. unfold conc_update. rewrite (existsb_perm _ l l' H). destruct (existsb _ l); [reflexivity|]. cbv zeta. now rewrite (gram_perm _ _ _ l l' H), (tmul_perm _ _ _ l l' H). }
  assert (CL : forall d, conc_ll i0 l' q d = conc_ll i0 l q d) by (intros d; unfold conc_ll; now rewrite !(sum_perm _ l l' H)).
  destruct m; cbn [cl_step].
  - unfold mean_step. rewrite !(mean_perm _ l l' H). destruct (Reqb _ 1); [exact I|]. cbv zeta. rewrite (gram_perm _ _ _ l l' H), (tmul_perm _ _ _ l l' H), (sum_perm _ l l' H), (Permutation_length H). cbn. auto.
  - unfold kappa_step. cbv zeta. rewrite !(sum_perm _ l l' H), CU, CL. destruct (conc_update _ _ _ _ _ l _ _) as [[a g]|]; [|reflexivity]. split; [reflexivity|]. split; [|reflexivity]. split; [reflexivity|]. split; [|reflexivity]. now apply Permutation_map.
  - unfold mixed_step. cbv zeta. rewrite !(sum_perm _ l l' H), CU, CL. destruct (conc_update _ _ _ _ _ l _ _) as [[a g]|]; [|reflexivity]. rewrite (gram_perm _ _ _ l l' H), (tmul_perm _ _ _ l l' H).
    split; [reflexivity|]. split; [|reflexivity]. split; [reflexivity|]. split; [|reflexivity]. now apply Permutation_map.
Qed.
Lemma cl_reordered iv solve pinv theta theta' p rows rows' mt b0 a0 g0 tol it c f : cc_data theta p rows -> cc_data theta' p rows' -> Permutation (combine theta rows) (combine theta' rows') ->
  cl_run iv solve pinv theta p rows mt b0 a0 g0 tol it = Ok c -> cl_fit c = Fitted f ->
  exists c' f', cl_run iv solve pinv theta' p rows' mt b0 a0 g0 tol it = Ok c' /\ cl_fit c' = Fitted f' /\
    f_par f' = f_par f /\ f_mu f' = f_mu f /\ f_ll f' = f_ll f /\ conc_perm (f_kappa f) (f_kappa f').
Proof.
  intros D D' H E Ef. destruct (cl_run_inv _ _ _ _ _ _ _ _ _ _ _ _ _ D E) as (T & Hb & Hg & _ & _ & El).
  rewrite (cl_run_eval iv solve pinv theta' p rows' mt (cl_mt c) b0 a0 g0 tol it D' T Hb Hg). rewrite Ef in El.
  pose proof (loop_rel eq perm_vals (cl_step (cl_mt c) (iv 0%nat) (iv 1%nat) solve pinv p (combine theta rows)) (cl_step (cl_mt c) (iv 0%nat) (iv 1%nat) solve pinv p (combine theta' rows')) tol it) as LR.
  specialize (LR ltac:(intros q q' <-; apply step_perm; exact H) (start_par p b0 a0 g0) _ None None None eq_refl I).
  rewrite El in LR. destruct (cl_loop (cl_step _ _ _ _ _ _ (combine theta' rows')) _ _ _ _ _) as [[f'|]|e]; [|destruct LR|destruct LR]. destruct LR as [E1 (E2 & E3 & E4)].
  cbn [bind]. eexists _, f'. split; [reflexivity|]. cbn. auto 10.
Qed.
