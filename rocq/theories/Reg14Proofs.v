(** The updates at the interface, independence of the solver, standard errors. *)
From Verif Require Import Prelude NpModel NpProofs UtilsModel CircleSpec IntSpec IntProofs VonSpec VonProofs Von2Proofs Von4Proofs RegModel RegSpec RegClSpec RegProofs Reg2Proofs Reg3Proofs Reg4Proofs Em5Proofs Reg10Proofs Reg11Proofs Reg12Proofs Reg13Proofs.
From Coq Require Import String.

Lemma kappa_fixed iv solve pinv theta p rows b0 a g tol c f : is_iv iv -> right_solve solve -> cc_data theta p rows ->
  cl_run iv solve pinv theta p rows "kappa" b0 (Some a) (Some g) tol 1 = Ok c -> cl_fit c = Fitted f ->
  (p_alpha (f_par f) = a /\ p_gamma (f_par f) = g <->
   forall da dg, List.length dg = p -> derivable_pt_lim (fun s => vm_loglik iv (under (fun _ => f_mu f) (log_link (a + s * da) (along g s dg)) theta rows)) 0 0).
Proof.
  intros Hi Hs D E Ef. destruct (cl_run_inv _ _ _ _ _ _ _ _ _ _ _ _ _ D E) as (T & Hb & Hg & _ & _ & El).
  injection T as T. rewrite <- T, Ef in El. apply one_step in El. cbn [cl_step] in El. destruct (kappa_step_inv _ _ _ _ _ _ _ _ _ _ _ El) as (_ & _ & _ & _ & Eu).
  exact (conc_fixed iv solve pinv theta p rows (start_par p b0 (Some a) (Some g)) (fun _ => f_mu f) _ _ _ Hi Hs D Hg (fun o _ => eq_refl) Eu).
Qed.
Lemma mixed_fixed iv solve pinv theta p rows b a g tol c f : is_iv iv -> right_solve solve -> cc_data theta p rows ->
  cl_run iv solve pinv theta p rows "mixed" (Some b) (Some a) (Some g) tol 1 = Ok c -> cl_fit c = Fitted f ->
  (p_alpha (f_par f) = a /\ p_gamma (f_par f) = g <->
   forall da dg, List.length dg = p -> derivable_pt_lim (fun s => vm_loglik iv (under (tan_link (f_mu f) b) (log_link (a + s * da) (along g s dg)) theta rows)) 0 0).
Proof.
  intros Hi Hs D E Ef. destruct (cl_run_inv _ _ _ _ _ _ _ _ _ _ _ _ _ D E) as (T & Hb & Hg & _ & _ & El).
  injection T as T. rewrite <- T, Ef in El. apply one_step in El. cbn [cl_step] in El. destruct (mixed_step_inv _ _ _ _ _ _ _ _ _ _ _ El) as (_ & _ & _ & _ & Eu).
  refine (conc_fixed iv solve pinv theta p rows (start_par p (Some b) (Some a) (Some g)) (tan_link (f_mu f) b) _ _ _ Hi Hs D Hg _ Eu).
  intros o _. cbn [start_par start p_beta]. unfold rdev, tan_link. rewrite dot_inner. unfold obs, vec in *. ring.
Qed.

(** ** Any two correct solvers give the same fit *)
Lemma solve_same solve pinv solve' pinv' p w g l b : right_solve solve -> right_solve solve' -> List.length b = p -> (forall o, In o l -> List.length (g o) = p /\ 0 <= w o) ->
  safe_solve solve pinv (gridge p w g l) b = safe_solve solve' pinv' (gridge p w g l) b.
Proof.
  intros Hs Hs' Hb Hg. destruct (safe_solve_spec solve' pinv' p w g l b Hs' Hb Hg) as [L E]. exact (safe_solve_unique solve pinv p w g l b _ Hs Hb Hg L E).
Qed.
Lemma x1_weights iv p l q : is_iv iv -> rows_ok p l -> forall o, In o l -> List.length (x1 o) = S p /\ 0 <= kap q o ^ 2 * A1p (iv 0%nat) (iv 1%nat) (kap q o).
Proof.
  intros Hi Hl o Ho. split; [rewrite x1_length; f_equal; exact (Hl o Ho)|]. apply Rmult_le_pos; [apply pow2_ge_0|]. apply A1p_nonneg; [exact Hi|apply kap_pos].
Qed.
Lemma conc_same iv solve pinv solve' pinv' p l q d : is_iv iv -> right_solve solve -> right_solve solve' -> rows_ok p l ->
  conc_update (iv 0%nat) (iv 1%nat) solve pinv p l q d = conc_update (iv 0%nat) (iv 1%nat) solve' pinv' p l q d.
Proof.
  intros Hi Hs Hs' Hl. unfold conc_update. rewrite ridge_gram. destruct (existsb _ l); [reflexivity|]. cbv zeta.
  rewrite (solve_same solve pinv solve' pinv' (S p) _ x1 l _ Hs Hs' (tmul_length _ _ _ _) (x1_weights iv p l q Hi Hl)). reflexivity.
Qed.
Lemma step_same m iv solve pinv solve' pinv' p l q : is_iv iv -> right_solve solve -> right_solve solve' -> rows_ok p l -> l <> [] ->
  cl_step m (iv 0%nat) (iv 1%nat) solve pinv p l q = cl_step m (iv 0%nat) (iv 1%nat) solve' pinv' p l q.
Proof.
  intros Hi Hs Hs' Hl Hn. destruct m; cbn [cl_step].
  - unfold mean_step. fold (Rres (p_beta q) l). destruct (Reqb_spec (Rres (p_beta q) l) 1); [reflexivity|]. cbv zeta. rewrite ridge_scaled.
    change (vadd ?A (mv (mscale ?w (gram p (fun _ => 1) (grow (p_beta q)) l)) (p_beta q))) with (mean_rhs p (p_beta q) w (fun o => A1inv (Rres (p_beta q) l) * sin (rdev (p_beta q) o - Mres (p_beta q) l)) l).
    rewrite (solve_same solve pinv solve' pinv' p _ (grow (p_beta q)) l _ Hs Hs' (mean_rhs_length _ _ _ _ _)); [reflexivity|].
    intros o Ho. rewrite grow_length, Rmult_1_r. split; [exact (Hl o Ho)|]. apply weight_nonneg; [exact Hi|]. apply A1inv_nonneg. pose proof (Rres_bounds (p_beta q) l Hn). lra.
  - unfold kappa_step. cbv zeta. rewrite (conc_same iv solve pinv solve' pinv' p l q _ Hi Hs Hs' Hl). reflexivity.
  - unfold mixed_step. cbv zeta. rewrite (conc_same iv solve pinv solve' pinv' p l q _ Hi Hs Hs' Hl). rewrite ridge_gram.
    rewrite (solve_same solve pinv solve' pinv' p _ (grow (p_beta q)) l _ Hs Hs' (tmul_length _ _ _ _)); [reflexivity|].
    intros o Ho. rewrite grow_length. split; [exact (Hl o Ho)|]. apply weight_nonneg; [exact Hi|left; apply kap_pos].
Qed.
Lemma loop_ext st st' tol n : (forall q, st q = st' q) -> forall q old last, cl_loop st tol n q old last = cl_loop st' tol n q old last.
Proof. intros H. induction n as [|n IH]; intros q old last; cbn; [reflexivity|]. rewrite H. destruct (st' q); [|reflexivity|reflexivity]. destruct (match old with None => false | Some o => Rltb (Rabs (ll - o)) tol end); [reflexivity|]. apply IH. Qed.
Lemma cl_same iv solve pinv solve' pinv' theta p rows mt b0 a0 g0 tol it : is_iv iv -> right_solve solve -> right_solve solve' -> cc_data theta p rows ->
  cl_run iv solve pinv theta p rows mt b0 a0 g0 tol it = cl_run iv solve' pinv' theta p rows mt b0 a0 g0 tol it.
Proof.
  intros Hi Hs Hs' D. destruct (data_obs _ _ _ D) as [Hl Hn]. unfold cl_run, CLRegression, cl_source. cbn [bind fst snd]. rewrite (prepare_num _ _ _ D). cbn [bind].
  destruct (type_of mt) as [m|]; [|reflexivity]. destruct (coerce_vector (option_map (map Fin) b0) p); [|reflexivity]. cbn [bind]. destruct (coerce_vector (option_map (map Fin) g0) p); [|reflexivity]. cbn [bind].
  rewrite (loop_ext _ (cl_step m (iv 0%nat) (iv 1%nat) solve' pinv' p (combine theta rows))); [reflexivity|]. intros q. now apply step_same.
Qed.

(** ** Standard errors *)
Lemma inv_diag inv pinv p w g l j : right_inv inv -> (forall o, In o l -> List.length (g o) = p /\ 0 <= w o) -> (j < p)%nat ->
  exists v, 0 < v /\ fsqrt (ent (safe_inverse inv pinv (gridge p w g l)) j j) = Fin v.
Proof.
  intros Hv Hg Hj. unfold safe_inverse. specialize (Hv p (gridge p w g l) (gridge_shaped p w g l)). destruct (inv (gridge p w g l)) as [B|].
  2:{ exfalso. destruct Hv as [y Hy]. now apply (null_not p w g l y Hg). }
  destruct Hv as [_ Hv]. set (x := vec_of p (fun k => ent B k j)). assert (Lx : List.length x = p) by apply vec_of_length.
  assert (Ax : forall i, (i < p)%nat -> inner (nth i (gridge p w g l) []) x = if Nat.eqb i j then 1 else 0).
  { intros i Hi. rewrite <- (Hv i j Hi Hj). rewrite (inner_sum' p _ x Lx). unfold sumn. apply Rsum_map_ext. intros k Hk. apply in_seq in Hk. unfold x. rewrite nth_vec_of by lia. reflexivity. }
  pose proof (gridge_quad p w g l x Lx (fun o Ho => proj1 (Hg o Ho))) as Q.
  rewrite (sumn_ext _ _ (fun i => (if Nat.eqb j i then 1 else 0) * nth i x 0)) in Q.
  2:{ intros i Hi. rewrite Ax by auto. rewrite Nat.eqb_sym. ring. }
  rewrite sumn_delta in Q by auto. assert (Xj : nth j x 0 = ent B j j) by (unfold x; now rewrite nth_vec_of). rewrite Xj in Q.
  assert (S0 : 0 <= Rsum (map (fun o => w o * inner (g o) x ^ 2) l)). { apply Rsum_map_nonneg. intros o Ho. apply Rmult_le_pos; [apply (Hg o Ho)|apply pow2_ge_0]. }
  assert (P : 0 < inner x x).
  { destruct (inner_self x) as [H|H]; [exact H|]. exfalso. symmetry in H. pose proof (inner_self_0 x H) as Z. specialize (Ax j Hj). rewrite Nat.eqb_refl in Ax.
    rewrite (inner_sum' p _ x Lx) in Ax. rewrite (sumn_ext _ _ (fun _ => 0)) in Ax by (intros i Hi; rewrite (Z (nth i x 0)) by (apply nth_In; lia); ring).
    unfold sumn in Ax. rewrite Rsum_map_const in Ax. lra. }
  pose proof eps8_pos as E8. assert (Bp : 0 < ent B j j) by nra. exists (sqrt (ent B j j)). split; [now apply sqrt_lt_R0|]. unfold fsqrt. destruct (Rltb_spec (ent B j j) 0); [lra|reflexivity].
Qed.
Definition positive (x : fl) : Prop := exists v, 0 < v /\ x = Fin v.
Definition ses_ok (s : ses) : Prop :=
  match se_beta s with Some l => Forall positive l | None => True end /\
  match se_ag s with Some (a, l) => positive a /\ Forall positive l | None => True end /\
  positive (se_mu s) /\ Forall positive (se_kappa s).
Lemma diag_ok inv pinv p w g l from to : right_inv inv -> (forall o, In o l -> List.length (g o) = p /\ 0 <= w o) -> (from + to <= p)%nat ->
  Forall positive (diag from to (safe_inverse inv pinv (gridge p w g l))).
Proof.
  intros Hv Hg Hp. apply Forall_forall. intros x Hx. apply in_map_iff in Hx. destruct Hx as (j & <- & Hj). apply in_seq in Hj. apply inv_diag; auto. lia.
Qed.
Lemma combine_map {A} (l : list A) (k : A -> R) (F : A * R -> R) : Rsum (map F (combine l (map k l))) = Rsum (map (fun o => F (o, k o)) l).
Proof. induction l as [|o l IH]; cbn [map combine]; [reflexivity|]. rewrite !Rsum_cons, IH. reflexivity. Qed.
Lemma se_ag_ok iv inv pinv p l f q : is_iv iv -> right_inv inv -> rows_ok p l ->
  let '(a, g) := se_ag_of (iv 0%nat) (iv 1%nat) inv pinv p l f (map (kap q) l) in positive a /\ Forall positive g.
Proof.
  intros Hi Hv Hl. unfold se_ag_of. cbv zeta. set (w := fun o : obs => exp (dot (x1 o) (p_alpha (f_par f) :: p_gamma (f_par f))) ^ 2 * A1p (iv 0%nat) (iv 1%nat) (kap q o)).
  assert (M : ridge (S p) (mat_of (S p) (S p) (fun a b => Rsum (map (fun ok => nth a (x1 (fst ok)) 0 * (exp (dot (x1 (fst ok)) (p_alpha (f_par f) :: p_gamma (f_par f))) ^ 2 * A1p (iv 0%nat) (iv 1%nat) (snd ok) * nth b (x1 (fst ok)) 0)) (combine l (map (kap q) l)))))
     = gridge (S p) w x1 l).
  { apply mat_of_ext. intros i j Hi' Hj. rewrite ent_mat_of by auto. rewrite combine_map. cbn [fst snd]. f_equal. apply Rsum_map_ext. intros o _. unfold w. ring. }
  rewrite M. assert (Hg : forall o, In o l -> List.length (x1 o) = S p /\ 0 <= w o).
  { intros o Ho. split; [rewrite x1_length; f_equal; exact (Hl o Ho)|]. apply Rmult_le_pos; [apply pow2_ge_0|]. apply A1p_nonneg; [exact Hi|apply kap_pos]. }
  split; [apply inv_diag; auto; lia|apply diag_ok; auto].
Qed.
Lemma small_pos : 0 < small.
Proof. unfold small. apply Rinv_0_lt_compat. lra. Qed.
Lemma pos_inv_sqrt x : positive (Fin (1 / sqrt (Rmax x small))).
Proof. eexists. split; [|reflexivity]. apply Rdiv_lt_0_compat; [lra|]. apply sqrt_lt_R0. pose proof small_pos. pose proof (Rmax_r x small). lra. Qed.
Lemma pos_sqrt_inv x : positive (Fin (sqrt (1 / Rmax x small))).
Proof. eexists. split; [|reflexivity]. apply sqrt_lt_R0. apply Rdiv_lt_0_compat; [lra|]. pose proof small_pos. pose proof (Rmax_r x small). lra. Qed.
Lemma se_step m iv solve pinv inv p l q new f : is_iv iv -> right_inv inv -> rows_ok p l -> l <> [] -> cl_step m (iv 0%nat) (iv 1%nat) solve pinv p l q = Step new (f_mu f) (f_kappa f) (f_ll f) ->
  f_kappa f <> One 0 -> ses_ok (standard_errors (iv 0%nat) (iv 1%nat) inv pinv m p l f).
Proof.
  intros Hi Hv Hl Hn E K0. destruct m; cbn [cl_step] in E.
  - destruct (mean_step_inv _ _ _ _ _ _ _ _ _ _ _ E) as (Hr & _ & k & Ek & Ekr & _). unfold standard_errors. rewrite Ek. rewrite ridge_scaled. unfold ses_ok. cbn [se_beta se_ag se_mu se_kappa].
    split; [|split; [exact I|split; [apply pos_inv_sqrt|]]].
    + apply diag_ok; [exact Hv| |lia]. intros o Ho. rewrite grow_length, Rmult_1_r. split; [exact (Hl o Ho)|]. apply weight_nonneg; [exact Hi|]. rewrite Ekr. apply A1inv_nonneg. pose proof (Rres_bounds (p_beta q) l Hn). lra.
    + constructor; [|constructor]. destruct (Reqb_spec k 0) as [Z|_]; [congruence|]. apply pos_sqrt_inv.
  - destruct (kappa_step_inv _ _ _ _ _ _ _ _ _ _ _ E) as (_ & Ek & _). unfold standard_errors. rewrite Ek. unfold ses_ok. cbn [se_beta se_ag se_mu se_kappa].
    split; [exact I|]. split; [|split; [apply pos_inv_sqrt|]].
    + exact (se_ag_ok iv inv pinv p l f q Hi Hv Hl).
    + apply Forall_forall. intros x Hx. apply in_map_iff in Hx. destruct Hx as (v & <- & _). apply pos_sqrt_inv.
  - destruct (mixed_step_inv _ _ _ _ _ _ _ _ _ _ _ E) as (_ & Ek & _). unfold standard_errors. rewrite Ek. unfold ses_ok. cbn [se_beta se_ag se_mu se_kappa].
    split; [|split; [|split; [apply pos_inv_sqrt|]]].
    + assert (M : ridge p (mat_of p p (fun a b => Rsum (map (fun ok => nth a (grow (p_beta (f_par f)) (fst ok)) 0 * (snd ok * A1 (iv 0%nat) (iv 1%nat) (snd ok) * nth b (grow (p_beta (f_par f)) (fst ok)) 0)) (combine l (map (kap q) l)))))
         = gridge p (fun o => kap q o * A1 (iv 0%nat) (iv 1%nat) (kap q o)) (grow (p_beta (f_par f))) l).
      { apply mat_of_ext. intros i j Hi' Hj. rewrite ent_mat_of by auto. rewrite combine_map. cbn [fst snd]. f_equal. apply Rsum_map_ext. intros o _. ring. }
      rewrite M. apply diag_ok; [exact Hv| |lia]. intros o Ho. rewrite grow_length. split; [exact (Hl o Ho)|]. apply weight_nonneg; [exact Hi|left; apply kap_pos].
    + exact (se_ag_ok iv inv pinv p l f q Hi Hv Hl).
    + apply Forall_forall. intros x Hx. apply in_map_iff in Hx. destruct Hx as (v & <- & _). apply pos_sqrt_inv.
Qed.
Lemma cl_ses iv solve pinv inv theta p rows mt b0 a0 g0 tol it c f : is_iv iv -> right_solve solve -> right_inv inv -> cc_data theta p rows ->
  cl_run iv solve pinv theta p rows mt b0 a0 g0 tol it = Ok c -> cl_fit c = Fitted f -> f_kappa f <> One 0 ->
  ses_ok (standard_errors (iv 0%nat) (iv 1%nat) inv pinv (cl_mt c) p (cl_obs c) f).
Proof.
  intros Hi Hs Hv D E Ef K0. destruct (cl_run_inv _ _ _ _ _ _ _ _ _ _ _ _ _ D E) as (T & Hb & Hg & _ & Eo & El). destruct (data_obs _ _ _ D) as [Hl Hn]. rewrite Ef in El.
  destruct (loop_inv (fun _ => True) _ _ _ ltac:(auto) _ _ _ _ I El) as [(_ & _ & K)|(q' & new & _ & Es & _)]; [discriminate|]. rewrite Eo. exact (se_step _ _ _ _ _ _ _ _ _ _ Hi Hv Hl Hn Es K0).
Qed.
