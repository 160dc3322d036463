(** The iterations and the loop of the circular-linear regression. *)
From Verif Require Import Prelude NpModel NpProofs UtilsModel CircleSpec IntSpec IntProofs VonSpec VonProofs Von2Proofs RegModel RegSpec RegProofs Reg2Proofs Reg3Proofs Reg4Proofs Reg9Proofs Desc9Proofs Em5Proofs Reg10Proofs.
From Coq Require Import String.

Lemma isclose_0 a : isclose a 0 = false -> a <> 0.
Proof. intros H ->. revert H. unfold isclose, isclose_tol. rewrite Rminus_0_r, Rabs_R0, Rmult_0_r. destruct (Rleb_spec 0 (/ 100000000 + 0)); [discriminate|]. lra. Qed.
Lemma kap_pos q o : 0 < kap q o.
Proof. apply exp_pos. Qed.
Lemma x1_length o : List.length (x1 o) = S (List.length (snd o)).
Proof. reflexivity. Qed.

(** The equations of the concentration part: the score on the right. *)
Lemma conc_update_inv iv solve pinv p l q d a g : is_iv iv -> right_solve solve -> rows_ok p l ->
  conc_update (iv 0%nat) (iv 1%nat) solve pinv p l q d = Some (a, g) ->
  (forall o, In o l -> A1p (iv 0%nat) (iv 1%nat) (kap q o) <> 0) /\
  exists u, List.length u = S p /\ a = p_alpha q + nth 0 u 0 /\ g = vadd (p_gamma q) (tl u) /\
    u = safe_solve solve pinv (gridge (S p) (fun o => kap q o ^ 2 * A1p (iv 0%nat) (iv 1%nat) (kap q o)) x1 l) (tmul (S p) x1 (fun o => kap q o * (cos (d o) - A1 (iv 0%nat) (iv 1%nat) (kap q o))) l) /\
    forall j, (j < S p)%nat ->
      Rsum (map (fun o => kap q o ^ 2 * A1p (iv 0%nat) (iv 1%nat) (kap q o) * nth j (x1 o) 0 * inner (x1 o) u) l) + eps8 * nth j u 0 =
      Rsum (map (fun o => nth j (x1 o) 0 * (kap q o * (cos (d o) - A1 (iv 0%nat) (iv 1%nat) (kap q o)))) l).
Proof.
  intros Hi Hs Hl. unfold conc_update. destruct (existsb _ l) eqn:Ex; [discriminate|]. intros E.
  assert (K : forall X Y (a : R) (g : vec), Some (X, Y) = Some (a, g) -> a = X /\ g = Y) by (intros; split; congruence). apply K in E. destruct E as [-> ->]. clear K.
  assert (NZ : forall o, In o l -> A1p (iv 0%nat) (iv 1%nat) (kap q o) <> 0).
  { intros o Ho. apply isclose_0. destruct (isclose _ 0) eqn:K; [|reflexivity]. assert (existsb (fun o => isclose (A1p (iv 0%nat) (iv 1%nat) (kap q o)) 0) l = true) by (apply existsb_exists; eauto). congruence. }
  split; [exact NZ|]. rewrite ridge_gram.
  assert (T : tmul (S p) x1 (fun o => kap q o ^ 2 * A1p (iv 0%nat) (iv 1%nat) (kap q o) * ((cos (d o) - A1 (iv 0%nat) (iv 1%nat) (kap q o)) / (A1p (iv 0%nat) (iv 1%nat) (kap q o) * kap q o))) l
      = tmul (S p) x1 (fun o => kap q o * (cos (d o) - A1 (iv 0%nat) (iv 1%nat) (kap q o))) l).
  { apply vec_of_ext. intros j _. apply Rsum_map_ext. intros o Ho. pose proof (kap_pos q o). pose proof (NZ o Ho). field. lra. }
  cbv beta zeta. rewrite T. eexists. split; [|split; [reflexivity|]; split; [reflexivity|]; split; [reflexivity|]].
  - refine (proj1 (safe_solve_spec solve pinv (S p) _ x1 l _ Hs (tmul_length _ _ _ _) _)). intros o Ho. split; [rewrite x1_length; f_equal; exact (Hl o Ho)|].
    apply Rmult_le_pos; [apply pow2_ge_0|]. apply A1p_nonneg; [exact Hi|apply kap_pos].
  - intros j Hj. rewrite <- (tmul_nth (S p) x1 _ l j Hj).
    refine (proj2 (safe_solve_spec solve pinv (S p) _ x1 l _ Hs (tmul_length _ _ _ _) _) j Hj). intros o Ho. split; [rewrite x1_length; f_equal; exact (Hl o Ho)|].
    apply Rmult_le_pos; [apply pow2_ge_0|]. apply A1p_nonneg; [exact Hi|apply kap_pos].
Qed.
Definition Kmu (q : par) (dev : obs -> R) (l : list obs) : R :=
  arctan2 (Rsum (map (fun o => kap q o * sin (dev o)) l)) (Rsum (map (fun o => kap q o * cos (dev o)) l)).
Lemma kappa_step_inv i0 i1 solve pinv p l q new mu k ll : kappa_step i0 i1 solve pinv p l q = Step new mu k ll ->
  mu = Kmu q fst l /\ k = Each (map (kap q) l) /\ ll = conc_ll i0 l q (fun o => fst o - mu) /\ p_beta new = p_beta q /\
  conc_update i0 i1 solve pinv p l q (fun o => fst o - mu) = Some (p_alpha new, p_gamma new).
Proof.
  unfold kappa_step. fold (Kmu q fst l). destruct (conc_update _ _ _ _ _ _ _ _) as [[a g]|] eqn:E; [|discriminate]. intros H. injection H as <- <- <- <-. cbn [p_beta p_alpha p_gamma]. auto.
Qed.
Lemma mixed_step_inv i0 i1 solve pinv p l q new mu k ll : mixed_step i0 i1 solve pinv p l q = Step new mu k ll ->
  mu = Kmu q (rdev (p_beta q)) l /\ k = Each (map (kap q) l) /\ ll = conc_ll i0 l q (fun o => rdev (p_beta q) o - mu) /\
  p_beta new = safe_solve solve pinv (gridge p (fun o => kap q o * A1 i0 i1 (kap q o)) (grow (p_beta q)) l)
    (tmul p (grow (p_beta q)) (fun o => kap q o * A1 i0 i1 (kap q o) * sin (fst o - mu)) l) /\
  conc_update i0 i1 solve pinv p l q (fun o => rdev (p_beta q) o - mu) = Some (p_alpha new, p_gamma new).
Proof.
  unfold mixed_step. fold (Kmu q (rdev (p_beta q)) l). destruct (conc_update _ _ _ _ _ _ _ _) as [[a g]|] eqn:E; [|discriminate]. intros H. injection H as <- <- <- <-. cbn [p_beta p_alpha p_gamma]. rewrite ridge_gram. auto.
Qed.

(** Lengths are kept. *)
Definition sized (p : nat) (q : par) : Prop := List.length (p_beta q) = p /\ List.length (p_gamma q) = p.
Lemma conc_sized iv solve pinv p l q d a g : is_iv iv -> right_solve solve -> rows_ok p l -> sized p q ->
  conc_update (iv 0%nat) (iv 1%nat) solve pinv p l q d = Some (a, g) -> List.length g = p.
Proof.
  intros Hi Hs Hl [_ Hg] E. destruct (conc_update_inv _ _ _ _ _ _ _ _ _ Hi Hs Hl E) as (_ & u & Lu & _ & -> & _). apply vadd_length; [exact Hg|]. destruct u; cbn in *; lia.
Qed.
Lemma step_sized m iv solve pinv p l q new mu k ll : is_iv iv -> right_solve solve -> rows_ok p l -> l <> [] -> sized p q ->
  cl_step m (iv 0%nat) (iv 1%nat) solve pinv p l q = Step new mu k ll -> sized p new.
Proof.
  intros Hi Hs Hl Hn Hq E. destruct m; cbn [cl_step] in E.
  - destruct (mean_step_inv _ _ _ _ _ _ _ _ _ _ _ E) as (Hr & _ & kk & _ & Ek & _ & _ & Eg & Eb). split; [|rewrite Eg; apply Hq]. rewrite Eb.
    refine (proj1 (safe_solve_spec solve pinv p _ _ l _ Hs (mean_rhs_length _ _ _ _ _) _)). intros o Ho. rewrite grow_length. split; [exact (Hl o Ho)|].
    rewrite Rmult_1_r. apply weight_nonneg; [exact Hi|]. rewrite Ek. apply A1inv_nonneg. pose proof (Rres_bounds (p_beta q) l Hn). lra.
  - destruct (kappa_step_inv _ _ _ _ _ _ _ _ _ _ _ E) as (_ & _ & _ & Eb & Eu). split; [rewrite Eb; apply Hq|]. exact (conc_sized _ _ _ _ _ _ _ _ _ Hi Hs Hl Hq Eu).
  - destruct (mixed_step_inv _ _ _ _ _ _ _ _ _ _ _ E) as (_ & _ & _ & Eb & Eu). split; [|exact (conc_sized _ _ _ _ _ _ _ _ _ Hi Hs Hl Hq Eu)]. rewrite Eb.
    refine (proj1 (safe_solve_spec solve pinv p _ _ l _ Hs (tmul_length _ _ _ _) _)). intros o Ho. rewrite grow_length. split; [exact (Hl o Ho)|].
    apply weight_nonneg; [exact Hi|left; apply kap_pos].
Qed.

(** ** The loop *)
Lemma loop_inv (P : par -> Prop) st tol n : (forall q new mu k ll, P q -> st q = Step new mu k ll -> P new) ->
  forall q old last f, P q -> cl_loop st tol n q old last = Ok (Fitted f) ->
  (n = 0%nat /\ q = f_par f /\ last = Some (f_mu f, f_kappa f, f_ll f)) \/
  exists q' new, P q' /\ st q' = Step new (f_mu f) (f_kappa f) (f_ll f) /\ (f_par f = q' \/ f_par f = new).
Proof.
  intros Hst. induction n as [|n IH]; intros q old last f Hq E; cbn in E.
  - left. destruct last as [[[mu k] ll]|]; [|discriminate]. injection E as <-. auto.
  - right. destruct (st q) as [new mu k ll|e|] eqn:Es; [|discriminate|discriminate].
    destruct (match old with None => false | Some o => Rltb (Rabs (ll - o)) tol end).
    + injection E as <-. cbn. exists q, new. auto.
    + destruct (IH new (Some ll) (Some (mu, k, ll)) f (Hst _ _ _ _ _ Hq Es) E) as [(_ & <- & K)|(q' & new' & H)]; [|eauto].
      injection K as -> -> ->. exists q, new. auto.
Qed.
(** If one more iteration changes nothing, the reported values are those of the reported
    parameters. *)
Lemma loop_settled st tol n : forall q old last f, cl_loop st tol n q old last = Ok (Fitted f) -> cl_loop st tol (S n) q old last = Ok (Fitted f) ->
  exists new, st (f_par f) = Step new (f_mu f) (f_kappa f) (f_ll f).
Proof.
  induction n as [|n IH]; intros q old last f E E'.
  - cbn in E, E'. destruct last as [[[mu k] ll]|]; [|discriminate]. injection E as <-. destruct (st q) as [new mu' k' ll'|e|] eqn:Es; [|discriminate|discriminate].
    destruct (match old with None => false | Some o => Rltb (Rabs (ll' - o)) tol end); injection E'; intros; subst; cbn; eauto.
  - cbn in E. change (match st q with
      | Step new mu k ll => if match old with None => false | Some o => Rltb (Rabs (ll - o)) tol end then Ok (Fitted {| f_par := q; f_mu := mu; f_kappa := k; f_ll := ll |})
          else cl_loop st tol (S n) new (Some ll) (Some (mu, k, ll))
      | Raise e => Err e | Lost => Ok NanFit end = Ok (Fitted f)) in E'.
    destruct (st q) as [new mu k ll|e|] eqn:Es; [|discriminate|discriminate].
    destruct (match old with None => false | Some o => Rltb (Rabs (ll - o)) tol end).
    + injection E as <-. cbn. eauto.
    + exact (IH _ _ _ _ E E').
Qed.
(** Two runs in step. *)
Lemma loop_rel (P : par -> par -> Prop) (V : R * conc * R -> R * conc * R -> Prop) st st' tol n :
  (forall q q', P q q' -> match st q, st' q' with
     | Step new mu k ll, Step new' mu' k' ll' => P new new' /\ V (mu, k, ll) (mu', k', ll') /\ ll' = ll
     | Raise e, Raise e' => e = e' | Lost, Lost => True | _, _ => False end) ->
  forall q q' old last last', P q q' -> match last, last' with None, None => True | Some v, Some v' => V v v' | _, _ => False end ->
  match cl_loop st tol n q old last, cl_loop st' tol n q' old last' with
  | Ok (Fitted f), Ok (Fitted f') => P (f_par f) (f_par f') /\ V (f_mu f, f_kappa f, f_ll f) (f_mu f', f_kappa f', f_ll f')
  | Ok NanFit, Ok NanFit => True | Err e, Err e' => e = e' | _, _ => False end.
Proof.
  intros H. induction n as [|n IH]; intros q q' old last last' HP HV; cbn.
  - destruct last as [[[mu k] ll]|], last' as [[[mu' k'] ll']|]; cbn; try tauto; auto.
  - specialize (H q q' HP). destruct (st q) as [new mu k ll|e|], (st' q') as [new' mu' k' ll'|e'|]; try tauto.
    destruct H as (H1 & H2 & ->). destruct (match old with None => false | Some o => Rltb (Rabs (ll - o)) tol end); [cbn; auto|]. apply IH; auto.
Qed.

(** ** The constructor on arrays of numbers *)
Definition cl_run (iv : nat -> R -> R) (solve : mat -> vec -> option vec) (pinv : mat -> mat) (theta : list R) (p : nat) (rows : list (list R))
    (model_type : string) (beta0 : option (list R)) (alpha0 : option R) (gamma0 : option (list R)) (tol : R) (max_iter : nat) : res clreg :=
  CLRegression (iv 0%nat) (iv 1%nat) solve pinv None None (Some (map Fin theta)) (Some (X2 p (map (map Fin) rows)))
    model_type (option_map (map Fin) beta0) alpha0 (option_map (map Fin) gamma0) tol max_iter.
Definition start (p : nat) (v : option (list R)) : list R := match v with None => repeat 0 p | Some v => v end.
Definition start_par (p : nat) (b0 : option (list R)) (a0 : option R) (g0 : option (list R)) : par :=
  {| p_beta := start p b0; p_alpha := match a0 with Some a => a | None => 0 end; p_gamma := start p g0 |}.
Definition fits_len (p : nat) (v : option (list R)) : Prop := match v with None => True | Some v => List.length v = p end.
Lemma start_length p v : fits_len p v -> List.length (start p v) = p.
Proof. destruct v; cbn; [auto|]. intros _. apply repeat_length. Qed.
Lemma coerce_num v p : fits_len p v -> coerce_vector (option_map (map Fin) v) p = Ok (start p v).
Proof. destruct v as [v|]; cbn; [|reflexivity]. intros <-. rewrite map_length, Nat.eqb_refl. cbn. now rewrite finite_map. Qed.
Lemma coerce_num_inv v p u : coerce_vector (option_map (map Fin) v) p = Ok u -> fits_len p v /\ u = start p v.
Proof.
  destruct v as [v|]; cbn; [|intros E; injection E; auto]. rewrite map_length. destruct (Nat.eqb_spec (List.length v) p); cbn; [|discriminate]. rewrite finite_map. intros E. injection E. auto.
Qed.
Lemma prepare_num theta p rows : cc_data theta p rows -> cl_prepare (map Fin theta) (X2 p (map (map Fin) rows)) = Ok (p, combine theta rows).
Proof.
  intros (L & N & H). unfold cl_prepare. destruct theta as [|t theta]; [destruct rows; [congruence|discriminate]|]. cbn [map]. change (Fin t :: map Fin theta) with (map Fin (t :: theta)).
  rewrite finite_map, forallb_len by auto. cbn [negb]. rewrite map_length, <- L, Nat.eqb_refl. cbn [negb]. now rewrite finite_rows_map.
Qed.
Lemma cl_run_eval iv solve pinv theta p rows mt m b0 a0 g0 tol it : cc_data theta p rows -> type_of mt = Some m -> fits_len p b0 -> fits_len p g0 ->
  cl_run iv solve pinv theta p rows mt b0 a0 g0 tol it =
  (do f <- cl_loop (cl_step m (iv 0%nat) (iv 1%nat) solve pinv p (combine theta rows)) tol it (start_par p b0 a0 g0) None None;
   Ok {| cl_p := p; cl_obs := combine theta rows; cl_names := map xname (seq 0 p); cl_mt := m; cl_fit := f |}).
Proof.
  intros D T Hb Hg. unfold cl_run, CLRegression, cl_source. cbn [bind fst snd]. rewrite (prepare_num _ _ _ D). cbn [bind]. rewrite T, (coerce_num _ _ Hb). cbn [bind]. rewrite (coerce_num _ _ Hg). cbn [bind]. reflexivity.
Qed.
Lemma cl_run_inv iv solve pinv theta p rows mt b0 a0 g0 tol it c : cc_data theta p rows ->
  cl_run iv solve pinv theta p rows mt b0 a0 g0 tol it = Ok c ->
  type_of mt = Some (cl_mt c) /\ fits_len p b0 /\ fits_len p g0 /\ cl_p c = p /\ cl_obs c = combine theta rows /\
  cl_loop (cl_step (cl_mt c) (iv 0%nat) (iv 1%nat) solve pinv p (combine theta rows)) tol it (start_par p b0 a0 g0) None None = Ok (cl_fit c).
Proof.
  intros D E. destruct (type_of mt) as [m|] eqn:T.
  2:{ unfold cl_run, CLRegression, cl_source in E. cbn [bind fst snd] in E. rewrite (prepare_num _ _ _ D) in E. cbn [bind] in E. rewrite T in E. discriminate. }
  assert (Hb : fits_len p b0 /\ fits_len p g0).
  { unfold cl_run, CLRegression, cl_source in E. cbn [bind fst snd] in E. rewrite (prepare_num _ _ _ D) in E. cbn [bind] in E. rewrite T in E.
    destruct (coerce_vector (option_map (map Fin) b0) p) as [b|] eqn:Eb; [|discriminate]. cbn [bind] in E.
    destruct (coerce_vector (option_map (map Fin) g0) p) as [g|] eqn:Eg; [|discriminate]. split; [exact (proj1 (coerce_num_inv _ _ _ Eb))|exact (proj1 (coerce_num_inv _ _ _ Eg))]. }
  destruct Hb as [Hb Hg]. rewrite (cl_run_eval _ _ _ _ _ _ _ _ _ _ _ _ _ D T Hb Hg) in E.
  destruct (cl_loop _ _ _ _ _ _) as [f|] eqn:El; [|discriminate]. cbn [bind] in E. injection E as <-. cbn. auto 10.
Qed.
Lemma data_obs theta p rows : cc_data theta p rows -> rows_ok p (combine theta rows) /\ combine theta rows <> [].
Proof.
  intros (L & N & H). split; [now apply combine_ok|]. destruct rows as [|r rows]; [congruence|]. destruct theta; [discriminate|]. discriminate.
Qed.
Lemma start_sized p b0 a0 g0 : fits_len p b0 -> fits_len p g0 -> sized p (start_par p b0 a0 g0).
Proof. intros Hb Hg. split; cbn; now apply start_length. Qed.
