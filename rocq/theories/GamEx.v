(** The gamma function exists, and its logarithm has a derivative (Gauss's limit). *)
From Coq Require Import Reals.Ranalysis5 Reals.PSeries_reg.
From Verif Require Import Prelude IntSpec IntProofs DistProofs Dist4Proofs CwSpec GamProofs Js2Proofs.

Fixpoint gs (n : nat) (x : R) : R :=
  match n with O => - ln x | S m => gs m x + (x * ln (1 + / (INR m + 1)) - ln (1 + x * / (INR m + 1))) end.
Fixpoint gd (n : nat) (x : R) : R :=
  match n with O => - / x | S m => gd m x + (ln (1 + / (INR m + 1)) - / (INR m + 1 + x)) end.

Lemma slow_step u c : (forall n, Rabs (u (S n) - u n) <= c * / ((INR n + 1) * (INR n + 2))) -> forall n p, Rabs (u (n + p)%nat - u n) <= c * (/ (INR n + 1) - / (INR (n + p) + 1)).
Proof.
  intros H n p. induction p as [|p IH].
  - rewrite Nat.add_0_r. rewrite !Rminus_diag_eq by reflexivity. rewrite Rabs_R0. lra.
  - rewrite Nat.add_succ_r. set (m := (n + p)%nat) in *. pose proof (H m) as K. rewrite S_INR. pose proof (pos_INR m) as Pm.
    assert (E : / ((INR m + 1) * (INR m + 2)) = / (INR m + 1) - / (INR m + 1 + 1)) by (field; lra). rewrite E in K.
    replace (u (S m) - u n) with ((u (S m) - u m) + (u m - u n)) by ring. apply Rle_trans with (1 := Rabs_triang _ _). lra.
Qed.
Lemma c_pos u c : (forall n, Rabs (u (S n) - u n) <= c * / ((INR n + 1) * (INR n + 2))) -> 0 <= c.
Proof. intros H. pose proof (H 0%nat) as K. simpl in K. pose proof (Rabs_pos (u 1%nat - u 0%nat)). assert (E : / ((0 + 1) * (0 + 2)) = / 2) by (f_equal; ring). rewrite E in K. lra. Qed.
Lemma tail_le c n m : 0 <= c -> c * (/ (INR n + 1) - / (INR m + 1)) <= c * / (INR n + 1).
Proof. intros H. pose proof (pos_INR m). pose proof (Rinv_0_lt_compat (INR m + 1) ltac:(lra)). nra. Qed.
Lemma inv_small c e : 0 <= c -> 0 < e -> exists N : nat, forall n, (n >= N)%nat -> c * / (INR n + 1) < e.
Proof.
  intros Hc He. assert (U : exists N, c / e < INR N) by (destruct (archimed (c / e)) as [A _]; exists (Z.to_nat (up (c / e))); rewrite INR_IZR_INZ, Z2Nat.id; [lra|apply le_IZR; assert (0 <= c / e) by (apply Rmult_le_pos; [exact Hc|left; apply Rinv_0_lt_compat, He]); lra]). destruct U as [N HN]. exists N. intros n Hn. apply le_INR in Hn. pose proof (pos_INR n). apply Rmult_lt_reg_r with (INR n + 1); [lra|]. rewrite Rmult_assoc, Rinv_l by lra. assert (c / e * e < (INR n + 1) * e) by (apply Rmult_lt_compat_r; lra). replace (c / e * e) with c in * by (field; lra). lra.
Qed.
Lemma slow_cv u c : (forall n, Rabs (u (S n) - u n) <= c * / ((INR n + 1) * (INR n + 2))) -> {l : R | Un_cv u l /\ forall n, Rabs (u n - l) <= c * / (INR n + 1)}.
Proof.
  intros H. pose proof (c_pos u c H) as c0. pose proof (slow_step u c H) as St.
  destruct (R_complete u) as [l Hl].
  - intros e He. destruct (inv_small c (e / 2) c0 ltac:(lra)) as [N HN]. exists N. intros n m Hn Hm.
    assert (A : forall k, (k >= N)%nat -> Rabs (u k - u N) < e / 2).
    { intros k Hk. replace k with (N + (k - N))%nat by lia. apply Rle_lt_trans with (1 := St N (k - N)%nat). apply Rle_lt_trans with (1 := tail_le c _ _ c0). apply HN. lia. }
    unfold R_dist. replace (u n - u m) with ((u n - u N) - (u m - u N)) by ring. pose proof (A n Hn). pose proof (A m Hm). apply Rle_lt_trans with (1 := Rabs_triang (u n - u N) (- (u m - u N))). rewrite Rabs_Ropp. lra.
  - exists l. split; [exact Hl|]. intros n. destruct (Rle_dec (Rabs (u n - l)) (c * / (INR n + 1))) as [L|L]; [exact L|exfalso]. apply Rnot_le_lt in L.
    destruct (Hl (Rabs (u n - l) - c * / (INR n + 1)) ltac:(lra)) as [N HN]. specialize (HN (n + N)%nat ltac:(lia)). unfold R_dist in HN. pose proof (St n N) as K. pose proof (tail_le c n (n + N) c0).
    pose proof (Rabs_triang (u n - u (n + N)%nat) (u (n + N)%nat - l)) as T. replace (u n - u (n + N)%nat + (u (n + N)%nat - l)) with (u n - l) in T by ring. rewrite (Rabs_minus_sym (u n) (u (n + N)%nat)) in T. lra.
Qed.
Lemma ln1_bounds t : 0 <= t -> t / (1 + t) <= ln (1 + t) <= t.
Proof.
  intros H. split.
  - assert (K : ln (/ (1 + t)) <= / (1 + t) - 1) by (apply ln_up, Rinv_0_lt_compat; lra). rewrite ln_Rinv in K by lra. replace (t / (1 + t)) with (1 - / (1 + t)) by (field; lra). lra.
  - pose proof (ln_up (1 + t) ltac:(lra)). lra.
Qed.
Lemma gs_step x : 0 < x -> forall n, Rabs (gs (S n) x - gs n x) <= (x + 2 * x ^ 2) * / ((INR n + 1) * (INR n + 2)).
Proof.
  intros Hx n. cbn [gs]. set (k := INR n + 1). assert (k1 : 1 <= k) by (unfold k; pose proof (pos_INR n); lra). replace (INR n + 2) with (k + 1) by (unfold k; ring).
  pose proof (Rinv_0_lt_compat k ltac:(lra)) as ik. assert (xk : 0 < x * / k) by nra. destruct (ln1_bounds (/ k) ltac:(lra)) as [A1 A2]. destruct (ln1_bounds (x * / k) ltac:(lra)) as [B1 B2].
  replace (/ k / (1 + / k)) with (/ (k + 1)) in A1 by (field; lra). replace (x * / k / (1 + x * / k)) with (x * / (k + x)) in B1 by (field; lra).
  assert (I1 : x * / (k + 1) <= x * ln (1 + / k)) by (apply Rmult_le_compat_l; lra). assert (I2 : x * ln (1 + / k) <= x * / k) by (apply Rmult_le_compat_l; lra).
  assert (E1 : x * / (k + 1) - x * / k = - (x * / (k * (k + 1)))) by (field; lra).
  assert (E2 : x * / k - x * / (k + x) <= 2 * x ^ 2 * / (k * (k + 1))).
  { apply Rmult_le_reg_r with (k * (k + 1) * (k + x)); [repeat apply Rmult_lt_0_compat; lra|]. replace ((x * / k - x * / (k + x)) * (k * (k + 1) * (k + x))) with (x ^ 2 * (k + 1)) by (field; lra). replace (2 * x ^ 2 * / (k * (k + 1)) * (k * (k + 1) * (k + x))) with (2 * x ^ 2 * (k + x)) by (field; lra). nra. }
  assert (ikk : 0 < / (k * (k + 1))) by (apply Rinv_0_lt_compat; nra). apply Rabs_le. assert (0 <= x ^ 2 * / (k * (k + 1))) by (apply Rmult_le_pos; nra). assert (0 <= x * / (k * (k + 1))) by nra. split; lra.
Qed.
Lemma gd_step x : 0 < x -> forall n, Rabs (gd (S n) x - gd n x) <= (1 + 2 * x) * / ((INR n + 1) * (INR n + 2)).
Proof.
  intros Hx n. cbn [gd]. set (k := INR n + 1). assert (k1 : 1 <= k) by (unfold k; pose proof (pos_INR n); lra). replace (INR n + 2) with (k + 1) by (unfold k; ring).
  pose proof (Rinv_0_lt_compat k ltac:(lra)) as ik. destruct (ln1_bounds (/ k) ltac:(lra)) as [A1 A2]. replace (/ k / (1 + / k)) with (/ (k + 1)) in A1 by (field; lra).
  assert (E1 : - (1 * / (k * (k + 1))) <= / (k + 1) - / (k + x)).
  { apply Rmult_le_reg_r with (k * (k + 1) * (k + x)); [repeat apply Rmult_lt_0_compat; lra|]. replace (- (1 * / (k * (k + 1))) * (k * (k + 1) * (k + x))) with (- (k + x)) by (field; lra). replace ((/ (k + 1) - / (k + x)) * (k * (k + 1) * (k + x))) with (k * (x - 1)) by (field; lra). nra. }
  assert (E2 : / k - / (k + x) <= 2 * x * / (k * (k + 1))).
  { apply Rmult_le_reg_r with (k * (k + 1) * (k + x)); [repeat apply Rmult_lt_0_compat; lra|]. replace ((/ k - / (k + x)) * (k * (k + 1) * (k + x))) with (x * (k + 1)) by (field; lra). replace (2 * x * / (k * (k + 1)) * (k * (k + 1) * (k + x))) with (2 * x * (k + x)) by (field; lra). nra. }
  assert (ikk : 0 < / (k * (k + 1))) by (apply Rinv_0_lt_compat; nra). assert (0 <= x * / (k * (k + 1))) by nra. apply Rabs_le. split; lra.
Qed.
Definition gamL (x : R) : R := match Rlt_dec 0 x with left H => proj1_sig (slow_cv (fun n => gs n x) _ (gs_step x H)) | right _ => 0 end.
Definition gamD (x : R) : R := match Rlt_dec 0 x with left H => proj1_sig (slow_cv (fun n => gd n x) _ (gd_step x H)) | right _ => 0 end.
Lemma gamL_cv x : 0 < x -> Un_cv (fun n => gs n x) (gamL x).
Proof. intros H. unfold gamL. destruct (Rlt_dec 0 x) as [L|L]; [|lra]. destruct (slow_cv _ _ _) as [l Hl]. exact (proj1 Hl). Qed.
Lemma gamD_cv x : 0 < x -> forall n, Rabs (gd n x - gamD x) <= (1 + 2 * x) * / (INR n + 1).
Proof. intros H. unfold gamD. destruct (Rlt_dec 0 x) as [L|L]; [|lra]. destruct (slow_cv _ _ _) as [l Hl]. exact (proj2 Hl). Qed.
Definition gam (x : R) : R := exp (gamL x).
Lemma gs_one n : gs n 1 = 0.
Proof. induction n as [|n IH]; cbn [gs]; [rewrite ln_1; ring|]. rewrite IH. rewrite !Rmult_1_l. ring. Qed.
Lemma gs_rec n x : 0 < x -> gs n (x + 1) - gs n x = ln x + ln (INR n + 1) - ln (INR n + 1 + x).
Proof.
  intros Hx. induction n as [|n IH].
  - cbn [gs INR]. rewrite Rplus_0_l, ln_1, (Rplus_comm 1 x). ring.
  - rewrite S_INR. cbn [gs]. set (k := INR n + 1) in *. assert (k1 : 1 <= k) by (unfold k; pose proof (pos_INR n); lra). pose proof (Rinv_0_lt_compat k ltac:(lra)) as ik.
    assert (F : forall t, 0 <= t -> ln (1 + t * / k) = ln (k + t) - ln k).
    { intros t Ht. replace (1 + t * / k) with ((k + t) * / k) by (field; lra). rewrite ln_mult, ln_Rinv by lra. ring. }
    rewrite (F (x + 1)), (F x) by lra. pose proof (F 1 ltac:(lra)) as F1. rewrite Rmult_1_l in F1. rewrite F1. replace (k + (x + 1)) with (k + 1 + x) by ring.
    replace (gs n (x + 1) + ((x + 1) * (ln (k + 1) - ln k) - (ln (k + 1 + x) - ln k)) - (gs n x + (x * (ln (k + 1) - ln k) - (ln (k + x) - ln k)))) with (gs n (x + 1) - gs n x + (ln (k + 1) - ln k) - (ln (k + 1 + x) - ln (k + x))) by ring. rewrite IH. ring.
Qed.
Lemma ln_concave x y t : 0 < x -> 0 < y -> 0 <= t <= 1 -> t * ln x + (1 - t) * ln y <= ln (t * x + (1 - t) * y).
Proof.
  intros Hx Hy Ht. set (m := t * x + (1 - t) * y). assert (m0 : 0 < m) by (unfold m; destruct (Req_dec t 0) as [->|N]; [lra|nra]).
  assert (Q : forall u, 0 < u -> ln u <= ln m + (u / m - 1)).
  { intros u Hu. pose proof (ln_up (u / m) ltac:(apply Rmult_lt_0_compat; [exact Hu|apply Rinv_0_lt_compat, m0])) as K. unfold Rdiv in K at 1. rewrite ln_mult, ln_Rinv in K by (try apply Rinv_0_lt_compat; assumption). lra. }
  pose proof (Rmult_le_compat_l t _ _ (proj1 Ht) (Q x Hx)) as Q1. pose proof (Rmult_le_compat_l (1 - t) _ _ ltac:(lra) (Q y Hy)) as Q2. assert (E : t * (x / m) + (1 - t) * (y / m) = 1) by (unfold m; field; fold m; lra).
  replace (t * (ln m + (x / m - 1))) with (t * ln m + t * (x / m) - t) in Q1 by ring. replace ((1 - t) * (ln m + (y / m - 1))) with ((1 - t) * ln m + (1 - t) * (y / m) - (1 - t)) in Q2 by ring. lra.
Qed.
Lemma gs_convex n x y t : 0 < x -> 0 < y -> 0 <= t <= 1 -> gs n (t * x + (1 - t) * y) <= t * gs n x + (1 - t) * gs n y.
Proof.
  intros Hx Hy Ht. induction n as [|n IH]; cbn [gs]; [pose proof (ln_concave x y t Hx Hy Ht); lra|]. pose proof (pos_INR n) as Pn. set (k := INR n + 1). pose proof (Rinv_0_lt_compat k ltac:(unfold k; lra)) as ik.
  pose proof (ln_concave (1 + x * / k) (1 + y * / k) t ltac:(nra) ltac:(nra) Ht) as K. replace (t * (1 + x * / k) + (1 - t) * (1 + y * / k)) with (1 + (t * x + (1 - t) * y) * / k) in K by ring. nra.
Qed.
Lemma cv_le u v a b : Un_cv u a -> Un_cv v b -> (forall n, u n <= v n) -> a <= b.
Proof. intros A B H. exact (Rle_cv_lim H A B). Qed.
Lemma gam_is : is_gamma gam.
Proof.
  split; [|split].
  - unfold gam. assert (E : gamL 1 = 0); [|rewrite E; apply exp_0]. apply (UL_sequence (fun n => gs n 1)); [apply gamL_cv; lra|]. intros e He. exists 0%nat. intros n _. rewrite gs_one. unfold R_dist. rewrite Rminus_0_r, Rabs_R0. exact He.
  - intros x Hx. unfold gam. split; [apply exp_pos|]. assert (E : gamL (x + 1) = gamL x + ln x); [|rewrite E, exp_plus, exp_ln by exact Hx; ring].
    enough (E : gamL (x + 1) - gamL x = ln x) by lra. apply (UL_sequence (fun n => gs n (x + 1) - gs n x)); [apply CV_minus; apply gamL_cv; lra|].
    intros e He. destruct (inv_small x e ltac:(lra) He) as [N HN]. exists N. intros n Hn. unfold R_dist. rewrite gs_rec by exact Hx. pose proof (pos_INR n) as Pn. specialize (HN n Hn). set (k := INR n + 1) in *. pose proof (Rinv_0_lt_compat k ltac:(unfold k; lra)) as ik.
    assert (F : ln (k + x) - ln k = ln (1 + x * / k)) by (replace (1 + x * / k) with ((k + x) * / k) by (field; unfold k; lra); rewrite ln_mult, ln_Rinv by (try exact ik; unfold k; lra); ring). destruct (ln1_bounds (x * / k) ltac:(nra)) as [B1 B2].
    assert (0 <= x * / k / (1 + x * / k)) by (apply Rmult_le_pos; [nra|left; apply Rinv_0_lt_compat; nra]). replace (ln x + ln k - ln (k + x) - ln x) with (- (ln (k + x) - ln k)) by ring. rewrite F, Rabs_Ropp, Rabs_pos_eq by lra. lra.
  - intros x y t Hx Hy Ht. unfold gam. rewrite !ln_exp. assert (M : 0 < t * x + (1 - t) * y) by (destruct (Req_dec t 0) as [->|N]; [lra|nra]).
    apply (cv_le (fun n => gs n (t * x + (1 - t) * y)) (fun n => t * gs n x + (1 - t) * gs n y)); [apply gamL_cv, M| |intros n; apply gs_convex; assumption].
    apply CV_plus; apply CV_mult; try (apply gamL_cv; assumption); intros e He; exists 0%nat; intros n _; unfold R_dist; rewrite Rminus_diag_eq, Rabs_R0 by reflexivity; exact He.
Qed.
Lemma gs_d n x : 0 < x -> derivable_pt_lim (gs n) x (gd n x).
Proof.
  intros Hx. induction n as [|n IH].
  - cbn [gs gd]. apply (dlim_opp ln). apply derivable_pt_lim_ln, Hx.
  - cbn [gd]. pose proof (pos_INR n) as Pn. set (k := INR n + 1). assert (k0 : 0 < k) by (unfold k; lra). pose proof (Rinv_0_lt_compat k k0) as ik.
    apply (dlim_ext (fun x => gs n x + (x * ln (1 + / k) - ln (1 + x * / k)))); [intros; reflexivity|]. apply (dlim_plus (gs n)); [exact IH|].
    eapply dlim_eq; [|apply (dlim_minus (fun x => x * ln (1 + / k)) (fun x => ln (1 + x * / k))); [apply (dlim_mult (fun x => x) (fun _ => ln (1 + / k))); [apply dlim_id|apply dlim_const]|apply (dlim_ln (fun x => 1 + x * / k)); [nra|apply (dlim_plus (fun _ => 1) (fun x => x * / k)); [apply dlim_const|apply (dlim_mult (fun x => x) (fun _ => / k)); [apply dlim_id|apply dlim_const]]]]].
    cbv beta. field. repeat split; try lra; nra.
Qed.
Lemma gam_digamma : is_digamma gamD gam.
Proof.
  intros x Hx. assert (r0 : 0 < x / 2) by lra. set (r := mkposreal (x / 2) r0).
  apply (dlim_ext gamL); [intros y; unfold gam; rewrite ln_exp; reflexivity|].
  assert (B : forall y, Boule x r y -> x / 2 < y < 3 * x / 2) by (intros y Hy; unfold Boule in Hy; simpl in Hy; apply Rabs_def2 in Hy; lra).
  assert (Bx : Boule x r x) by (unfold Boule; rewrite Rminus_diag_eq, Rabs_R0 by reflexivity; exact r0).
  assert (U : CVU gd gamD x r).
  { intros e He. destruct (inv_small (1 + 3 * x) e ltac:(lra) He) as [N HN]. exists N. intros n y Hn Hy. pose proof (B y Hy) as By. rewrite Rabs_minus_sym. apply Rle_lt_trans with (1 := gamD_cv y ltac:(lra) n). apply Rle_lt_trans with (2 := HN n Hn). apply Rmult_le_compat_r; [left; apply Rinv_0_lt_compat; pose proof (pos_INR n); lra|lra]. }
  apply (derivable_pt_lim_CVU gs gd gamL gamD x x r Bx).
  - intros y n Hy. apply gs_d. pose proof (B y Hy). lra.
  - intros y Hy. apply gamL_cv. pose proof (B y Hy). lra.
  - exact U.
  - apply (CVU_continuity gd gamD x r U). intros n y Hy. pose proof (B y Hy) as By. clear -By Hx. induction n as [|n IH].
    + cbn [gd]. apply continuity_pt_opp. apply continuity_pt_inv; [apply derivable_continuous_pt, derivable_pt_id|lra].
    + cbn [gd]. pose proof (pos_INR n). apply (continuity_pt_plus (gd n)); [exact IH|]. apply continuity_pt_minus; [apply continuity_pt_const; intros ? ?; reflexivity|]. apply (continuity_pt_inv (fun x => INR n + 1 + x)); [|lra]. apply (continuity_pt_plus (fun _ => INR n + 1) (fun x => x)); [apply continuity_pt_const; intros ? ?; reflexivity|apply derivable_continuous_pt, derivable_pt_id].
Qed.
