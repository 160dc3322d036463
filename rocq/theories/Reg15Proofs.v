(** Turning the responses and reordering the observations of the circular-linear regression. *)
From Verif Require Import Prelude NpModel NpProofs UtilsModel CircleSpec IntSpec IntProofs VonSpec VonProofs RegModel RegSpec RegClSpec RegProofs Reg2Proofs Reg3Proofs Reg4Proofs Em5Proofs Desc9Proofs Reg10Proofs Reg11Proofs Reg12Proofs Reg13Proofs Reg14Proofs.
From Coq Require Import String.

Definition turned1 (d : R) (o o' : obs) : Prop := snd o' = snd o /\ same_dir (fst o') (fst o + d).
Lemma sum_turned d l l' (F F' : obs -> R) : Forall2 (turned1 d) l l' -> (forall o o', turned1 d o o' -> F' o' = F o) -> Rsum (map F' l') = Rsum (map F l).
Proof. intros H HF. induction H as [|o o' l l' Ho H IH]; cbn [map]; [reflexivity|]. rewrite !Rsum_cons, IH, (HF o o' Ho). reflexivity. Qed.
Lemma turned_len d l l' : Forall2 (turned1 d) l l' -> List.length l' = List.length l.
Proof. induction 1; cbn; congruence. Qed.
Lemma gram_turned d l l' p w w' g : Forall2 (turned1 d) l l' -> (forall o o', turned1 d o o' -> g o' = g o /\ w' o' = w o) -> gram p w' g l' = gram p w g l.
Proof. intros H Hg. apply mat_of_ext. intros i j _ _. apply (sum_turned d l l'); [exact H|]. intros o o' Ho. destruct (Hg o o' Ho) as [-> ->]. reflexivity. Qed.
Lemma tmul_turned d l l' p g u u' : Forall2 (turned1 d) l l' -> (forall o o', turned1 d o o' -> g o' = g o /\ u' o' = u o) -> tmul p g u' l' = tmul p g u l.
Proof. intros H Hg. apply vec_of_ext. intros j _. apply (sum_turned d l l'); [exact H|]. intros o o' Ho. destruct (Hg o o' Ho) as [-> ->]. reflexivity. Qed.
Lemma existsb_turned d l l' (F F' : obs -> bool) : Forall2 (turned1 d) l l' -> (forall o o', turned1 d o o' -> F' o' = F o) -> existsb F' l' = existsb F l.
Proof. intros H HF. induction H as [|o o' l l' Ho H IH]; cbn; [reflexivity|]. now rewrite IH, (HF o o' Ho). Qed.
Lemma grow_turned d b o o' : turned1 d o o' -> grow b o' = grow b o.
Proof. intros [E _]. unfold grow. now rewrite E. Qed.
Lemma x1_turned d o o' : turned1 d o o' -> x1 o' = x1 o.
Proof. intros [E _]. unfold x1. now rewrite E. Qed.
Lemma kap_turned d q o o' : turned1 d o o' -> kap q o' = kap q o.
Proof. intros [E _]. unfold kap. now rewrite E. Qed.
Lemma rdev_turned d b o o' : turned1 d o o' -> same_dir (rdev b o') (rdev b o + d).
Proof. intros [E [z Hz]]. exists z. unfold rdev. rewrite E, Hz. ring. Qed.
(** A weighted resultant turns. *)
Lemma resultant_turned d l l' (w w' dev dev' : obs -> R) : Forall2 (turned1 d) l l' -> (forall o o', turned1 d o o' -> w' o' = w o /\ same_dir (dev' o') (dev o + d)) ->
  let S := Rsum (map (fun o => w o * sin (dev o)) l) in let C := Rsum (map (fun o => w o * cos (dev o)) l) in
  Rsum (map (fun o => w' o * sin (dev' o)) l') = S * cos d + C * sin d /\ Rsum (map (fun o => w' o * cos (dev' o)) l') = C * cos d - S * sin d.
Proof.
  intros H Hd. cbv zeta. split.
  - rewrite <- !Rsum_map_scal_r, <- Rsum_map_plus. apply (sum_turned d); [exact H|]. intros o o' Ho. destruct (Hd o o' Ho) as [-> K]. rewrite (same_dir_sin _ _ K), sin_plus. ring.
  - rewrite <- !Rsum_map_scal_r, <- Rsum_map_minus. apply (sum_turned d); [exact H|]. intros o o' Ho. destruct (Hd o o' Ho) as [-> K]. rewrite (same_dir_cos _ _ K), cos_plus. ring.
Qed.
Lemma arctan2_turned S C d : S <> 0 \/ C <> 0 -> same_dir (arctan2 (S * cos d + C * sin d) (C * cos d - S * sin d)) (arctan2 S C + d).
Proof.
  intros H. destruct (polar C S) as [E1 E2]. assert (Hh : 0 < hypot C S).
  { destruct (hypot_nonneg C S) as [K|K]; [exact K|]. exfalso. rewrite <- K in E1, E2. lra. }
  revert Hh E1 E2. generalize (hypot C S) (arctan2 S C). intros h a Hh E1 E2. apply (arctan2_unique h); [exact Hh| |].
  - rewrite cos_plus, <- E1, <- E2. ring.
  - rewrite sin_plus, <- E1, <- E2. ring.
Qed.
Lemma hypot_turned S C d : hypot (S * cos d + C * sin d) (C * cos d - S * sin d) = hypot S C.
Proof.
  unfold hypot. f_equal. pose proof (sin2_cos2 d) as T. unfold Rsqr in T.
  transitivity ((S * S + C * C) * (sin d * sin d + cos d * cos d)); [ring|]. rewrite T. ring.
Qed.
Lemma dev_same a a' m m' d : same_dir a' (a + d) -> same_dir m' (m + d) -> same_dir (a' - m') (a - m).
Proof. intros [z Hz] [y Hy]. exists (z - y)%Z. rewrite minus_IZR, Hz, Hy. ring. Qed.
Lemma Rres_turned d b l l' : Forall2 (turned1 d) l l' -> Rres b l' = Rres b l /\ (Rres b l <> 0 -> same_dir (Mres b l') (Mres b l + d)).
Proof.
  intros H. pose proof (resultant_turned d l l' (fun _ => / INR (List.length l)) (fun _ => / INR (List.length l)) (rdev b) (rdev b) H) as K.
  cbv beta zeta in K. specialize (K ltac:(intros o o' Ho; split; [reflexivity|now apply rdev_turned])). destruct K as [K1 K2]. rewrite !Rsum_map_scal in K1, K2.
  unfold Rres, Mres, mean. rewrite !map_length, (turned_len _ _ _ H). unfold Rdiv. rewrite !(Rmult_comm _ (/ INR (List.length l))).
  set (S := / INR (List.length l) * Rsum (map (fun o => sin (rdev b o)) l)) in *. set (C := / INR (List.length l) * Rsum (map (fun o => cos (rdev b o)) l)) in *.
  rewrite K1, K2. split; [apply hypot_turned|]. intros N. apply arctan2_turned. destruct (Req_dec S 0) as [->|]; [|auto]. right. intros ->. apply N. unfold hypot. rewrite Rmult_0_l, Rplus_0_l. apply sqrt_0.
Qed.

Definition turned_vals (d : R) (v v' : R * conc * R) : Prop :=
  let '(mu, k, ll) := v in let '(mu', k', ll') := v' in k' = k /\ ll' = ll /\ (k <> One 0 -> same_dir mu' (mu + d)).
Lemma A1inv_0 r : 0 <= r < 1 -> r <> 0 -> 0 < A1inv r.
Proof.
  intros H N. unfold A1inv. destruct (Rleb_spec 0 r); [|lra]. destruct (Rltb_spec r (53/100)); cbn [andb].
  - assert (0 < r) by lra. assert (0 < r ^ 3) by (apply pow_lt; lra). assert (0 < r ^ 5) by (apply pow_lt; lra). lra.
  - destruct (Rltb_spec r (85/100)).
    + assert (0 < 43/100 / (1 - r)) by (apply Rdiv_lt_0_compat; lra). lra.
    + apply Rdiv_lt_0_compat; [lra|]. replace (r ^ 3 - 4 * r ^ 2 + 3 * r) with (r * (1 - r) * (3 - r)) by ring. apply Rmult_lt_0_compat; [apply Rmult_lt_0_compat|]; lra.
Qed.
Lemma mean_step_turned i0 i1 solve pinv p d l l' q : l <> [] -> Forall2 (turned1 d) l l' ->
  match mean_step i0 i1 solve pinv p l q, mean_step i0 i1 solve pinv p l' q with
  | Step new mu k ll, Step new' mu' k' ll' => new = new' /\ turned_vals d (mu, k, ll) (mu', k', ll') /\ ll' = ll
  | Raise e, Raise e' => e = e' | Lost, Lost => True | _, _ => False end.
Proof.
  intros Hn H. destruct (Rres_turned d (p_beta q) l l' H) as [Er Em]. pose proof (Rres_bounds (p_beta q) l Hn) as Hr. unfold mean_step. fold (Rres (p_beta q) l) (Rres (p_beta q) l') (Mres (p_beta q) l) (Mres (p_beta q) l'). rewrite Er.
  destruct (Reqb_spec (Rres (p_beta q) l) 1); [exact I|]. cbv zeta. set (r := Rres (p_beta q) l) in *. set (k := A1inv r) in *.
  rewrite (gram_turned d l l' p (fun _ => 1) (fun _ => 1) (grow (p_beta q)) H) by (intros o o' Ho; split; [now apply (grow_turned d)|reflexivity]).
  assert (Hk : forall (g : R -> R), (g = sin \/ g = cos) -> forall o o', turned1 d o o' -> k * g (rdev (p_beta q) o' - Mres (p_beta q) l') = k * g (rdev (p_beta q) o - Mres (p_beta q) l)).
  { intros g Hg o o' Ho. destruct (Req_dec r 0) as [Z|N]; [unfold k; rewrite Z, (proj1 A1inv_drop); ring|]. pose proof (dev_same _ _ _ _ _ (rdev_turned d (p_beta q) o o' Ho) (Em N)) as K.
    destruct Hg as [-> | ->]; [now rewrite (same_dir_sin _ _ K)|now rewrite (same_dir_cos _ _ K)]. }
  rewrite (tmul_turned d l l' p (grow (p_beta q)) (fun o => k * sin (rdev (p_beta q) o - Mres (p_beta q) l)) _ H) by (intros o o' Ho; split; [now apply (grow_turned d)|apply (Hk sin); auto]).
  rewrite (turned_len _ _ _ H). rewrite <- !Rsum_map_scal.
  rewrite (sum_turned d l l' (fun o => k * cos (rdev (p_beta q) o - Mres (p_beta q) l)) (fun o => k * cos (rdev (p_beta q) o - Mres (p_beta q) l')) H) by (apply Hk; auto).
  split; [reflexivity|]. split; [|reflexivity]. split; [reflexivity|]. split; [reflexivity|]. intros N. apply Em. intros Z. apply N. f_equal. unfold k. rewrite Z. apply A1inv_drop.
Qed.
(** The responses of two fits, the second turned by d. *)
Definition cl_turned (d : R) (theta theta' : list R) : Prop :=
  List.length theta' = List.length theta /\ forall i, (i < List.length theta)%nat -> same_dir (nth i theta' 0) (nth i theta 0 + d).
Lemma turned_obs2 d theta theta' (rows : list (list R)) : cl_turned d theta theta' -> Forall2 (turned1 d) (combine theta rows) (combine theta' rows).
Proof.
  intros [L H]. revert theta' rows L H. induction theta as [|t theta IH]; intros [|t' theta'] rows L H; try discriminate; [constructor|]. destruct rows as [|r rows]; [constructor|]. cbn. constructor.
  - split; [reflexivity|]. exact (H 0%nat ltac:(cbn; lia)).
  - apply IH; [cbn in L; lia|]. intros i Hi. exact (H (S i) ltac:(cbn; lia)).
Qed.
Lemma data_turned d theta theta' p rows : cl_turned d theta theta' -> cc_data theta p rows -> cc_data theta' p rows.
Proof. intros [L _] (A & B & C). split; [congruence|auto]. Qed.
Lemma cl_mean_turned iv solve pinv d theta theta' p rows b0 a0 g0 tol it c f : cc_data theta p rows -> cl_turned d theta theta' ->
  cl_run iv solve pinv theta p rows "mean" b0 a0 g0 tol it = Ok c -> cl_fit c = Fitted f ->
  exists c' f', cl_run iv solve pinv theta' p rows "mean" b0 a0 g0 tol it = Ok c' /\ cl_fit c' = Fitted f' /\
    f_par f' = f_par f /\ f_kappa f' = f_kappa f /\ f_ll f' = f_ll f /\ (f_kappa f <> One 0 -> same_dir (f_mu f') (f_mu f + d)).
Proof.
  intros D H E Ef. destruct (cl_run_inv _ _ _ _ _ _ _ _ _ _ _ _ _ D E) as (T & Hb & Hg & _ & _ & El). destruct (data_obs _ _ _ D) as [Hl Hn].
  pose proof (data_turned _ _ _ _ _ H D) as D'. rewrite (cl_run_eval iv solve pinv theta' p rows "mean" Mean b0 a0 g0 tol it D' eq_refl Hb Hg). injection T as T. rewrite <- T, Ef in El.
  pose proof (loop_rel eq (turned_vals d) (cl_step Mean (iv 0%nat) (iv 1%nat) solve pinv p (combine theta rows)) (cl_step Mean (iv 0%nat) (iv 1%nat) solve pinv p (combine theta' rows)) tol it) as LR.
  specialize (LR ltac:(intros q q' <-; cbn [cl_step]; apply mean_step_turned; [exact Hn|now apply turned_obs2]) (start_par p b0 a0 g0) _ None None None eq_refl I).
  rewrite El in LR. destruct (cl_loop (cl_step Mean _ _ _ _ _ (combine theta' rows)) _ _ _ _ _) as [[f'|]|e]; [|destruct LR|destruct LR]. destruct LR as [E1 (E2 & E3 & E4)].
  cbn [bind]. eexists _, f'. split; [reflexivity|]. cbn. auto.
Qed.
