(** The samplers of jonespewsey and jonespewsey_asym. *)
From Verif Require Import Prelude NpModel NpProofs UtilsModel DescModel CircleSpec IntSpec IntProofs DistModel DistSpec VonModel VonSpec VonProofs JpModel JpSpec JpProofs Jp2Proofs JpEx
  Dist4Proofs JsModel JsProofs Js2Proofs Js3Proofs Js4Proofs Js5Proofs Js6Proofs.

(** C194 jonespewsey.rvs keeps a von Mises proposal x with probability f(x) / (m g(x)), where m g is above the density f everywhere. *)
Theorem C194_rejection iv lpmv quad mu kappa psi : is_iv iv -> is_lpmv lpmv -> (forall m, quad_exact quad (fun x => jp_kernel kappa psi (x - m)) (- PI) PI) ->
  jp_ok mu kappa psi = true -> jp_ktol <= kappa -> jp_ptol <= Rabs psi -> Rabs (kappa * psi) <= 500 ->
  exists k m acc, 0 < k /\ 1 < m /\ (forall x, jp_pdf iv lpmv quad mu kappa psi x <= m * von_pdf iv mu k x) /\
    (forall p, acc p = true <-> snd p * (m * von_pdf iv mu k (fst p)) <= jp_pdf iv lpmv quad mu kappa psi (fst p)) /\
    (forall uniforms von batches total l, jp_rvs iv lpmv quad mu kappa psi uniforms von batches total = Some l ->
      length l = total /\ l = firstn total (map fst (filter acc (concat batches)))) /\
    (forall uniforms von b, forallb acc b = true -> jp_rvs iv lpmv quad mu kappa psi uniforms von [b] (length b) = Some (map fst b)).
Proof. exact (jp_rvs_law iv lpmv quad mu kappa psi). Qed.
Print Assumptions C194_rejection.
Example C194_ex : exists iv lpmv quad, jp_rvs iv lpmv quad 1 2 (3 / 2) [] (fun _ _ => []) [[(1, 0); (4, 0)]] 2 = Some [1; 4].
Proof.
  destruct (ex_scipy 2 (3 / 2)) as (iv & lp & q & H1 & H2 & _ & H4). exists iv, lp, q. destruct ex_jp_ok as [O A].
  assert (B : jp_ktol <= 2) by (unfold jp_ktol; lra). assert (C : jp_ptol <= Rabs (3 / 2)) by (rewrite Rabs_pos_eq; unfold jp_ptol; lra).
  destruct (C194_rejection iv lp q 1 2 (3 / 2) H1 H2 H4 O B C A) as (k & m & acc & _ & _ & _ & Ha & _ & L). apply (L [] (fun _ _ => []) [(1, 0); (4, 0)]).
  destruct (jp_c_mass iv lp q 1 2 (3 / 2) H1 H2 (proj1 (proj1 (jp_ok_spec _ _ _) O)) B A (H4 1)) as (Z & Z0 & _ & EZ).
  assert (P : forall x, 0 <= jp_pdf iv lp q 1 2 (3 / 2) x).
  { intros x. rewrite jp_pdf_kernel, EZ by exact B. pose proof (jp_kernel_pos 2 (3 / 2) (x - 1)). pose proof (Rinv_0_lt_compat Z Z0). unfold Rdiv. nra. }
  simpl. rewrite !(proj2 (Ha _)) by (simpl; rewrite Rmult_0_l; apply P). reflexivity.
Qed.
(** Below the tolerance on kappa the density is constant and the draws are uniform. *)
Theorem C194_flat iv lpmv quad mu kappa psi uniforms von batches total : 0 <= kappa < jp_ktol -> jp_rvs iv lpmv quad mu kappa psi uniforms von batches total = Some uniforms /\
  forall x, jp_pdf iv lpmv quad mu kappa psi x = 1 / (2 * PI).
Proof. exact (jp_rvs_flat iv lpmv quad mu kappa psi uniforms von batches total). Qed.
Print Assumptions C194_flat.
Example C194_flat_ex iv lpmv quad : jp_rvs iv lpmv quad 1 0 2 [3; 5] (fun _ _ => []) [] 2 = Some [3; 5].
Proof. apply C194_flat. unfold jp_ktol. lra. Qed.
(** Below the tolerance on psi the density is the von Mises density whose sampler is called. *)
Theorem C194_vonmises iv lpmv quad mu kappa psi uniforms von batches total : is_iv iv -> is_lpmv lpmv -> (forall m, quad_exact quad (fun x => jp_kernel kappa psi (x - m)) (- PI) PI) ->
  jp_ok mu kappa psi = true -> jp_ktol <= kappa -> Rabs psi < jp_ptol -> Rabs (kappa * psi) <= 500 ->
  jp_rvs iv lpmv quad mu kappa psi uniforms von batches total = Some (von (pymod mu (2 * PI)) kappa) /\ forall x, jp_pdf iv lpmv quad mu kappa psi x = von_pdf iv (pymod mu (2 * PI)) kappa x.
Proof. exact (jp_rvs_von iv lpmv quad mu kappa psi uniforms von batches total). Qed.
Print Assumptions C194_vonmises.
Example C194_vonmises_ex : exists iv lpmv quad, forall x, jp_pdf iv lpmv quad 1 2 0 x = von_pdf iv (pymod 1 (2 * PI)) 2 x.
Proof.
  destruct (ex_scipy 2 0) as (iv & lp & q & H1 & H2 & _ & H4). exists iv, lp, q. pose proof PI_gt3.
  apply (C194_vonmises iv lp q 1 2 0 [] (fun _ _ => []) [] 0%nat H1 H2 H4); [apply jp_ok_spec; lra|unfold jp_ktol; lra|rewrite Rabs_R0; unfold jp_ptol; lra|rewrite Rmult_0_r, Rabs_R0; lra].
Qed.

(** C195 The sampler of jonespewsey_asym keeps a proposal x with probability min(1, f(x) / (m g(x))). Missing: m g is above f only for wide shapes. *)
Theorem C195_rejection_partial iv quad xi kappa psi nu : is_iv iv -> (forall m, quad_exact quad (fun x => as_kernel kappa psi nu (x - m)) (- PI) PI) ->
  as_ok xi kappa psi nu = true -> jp_ktol <= kappa -> (jp_ptol <= Rabs psi \/ / 10 ^ 12 <= nu) -> Rabs (kappa * psi) <= 500 ->
  exists k m acc, 0 < k /\ 1 < m /\
    (kappa * ((1 + nu) * cosh (kappa * psi) + 4 / 3) <= 21 / 2 -> forall x, as_pdf quad xi kappa psi nu x <= m * von_pdf iv xi k x) /\
    (forall p, acc p = true <-> snd p * (m * von_pdf iv xi k (fst p)) <= as_pdf quad xi kappa psi nu (fst p)) /\
    (forall uniforms von batches total l, as_rvs iv quad xi kappa psi nu uniforms von batches total = Ok (Some l) ->
      length l = total /\ l = firstn total (map fst (filter acc (concat batches)))) /\
    (forall uniforms von b, forallb acc b = true -> as_rvs iv quad xi kappa psi nu uniforms von [b] (length b) = Ok (Some (map fst b))).
Proof. exact (as_rvs_law iv quad xi kappa psi nu). Qed.
Print Assumptions C195_rejection_partial.
Example C195_ex : exists iv quad k m, 1 < m /\ forall x, as_pdf quad 1 1 1 (1 / 3) x <= m * von_pdf iv 1 k x.
Proof.
  destruct (as_quad_exists 1 1 (1 / 3)) as (q & HQ). destruct iv_exists as [iv H]. pose proof PI_gt3. exists iv, q.
  destruct (C195_rejection_partial iv q 1 1 1 (1 / 3) H HQ) as (k & m & acc & _ & M0 & D & _); [apply as_ok_spec; lra|unfold jp_ktol; lra|right; lra|rewrite Rabs_pos_eq; lra|].
  exists k, m. split; [exact M0|]. apply D. unfold cosh. rewrite Rmult_1_r. pose proof exp_le_3. pose proof (exp_pos 1). assert (exp (- (1)) <= 1) by (apply Rle_trans with (exp 0); [left; apply exp_increasing; lra|rewrite exp_0; lra]). lra.
Qed.
(** A peak narrower than the spacing of the grid is missed: the envelope is below a quarter of the density there, so the draws do not follow the density. *)
Theorem C195_envelope_refuted : exists kappa psi nu, forall iv quad xi, is_iv iv -> 0 <= xi <= 2 * PI -> (forall m, quad_exact quad (fun x => as_kernel kappa psi nu (x - m)) (- PI) PI) ->
  as_ok xi kappa psi nu = true /\ exists k m acc x, 0 < k /\ 1 < m /\ 4 * (m * von_pdf iv xi k x) < as_pdf quad xi kappa psi nu x /\
    (forall p, acc p = true <-> snd p * (m * von_pdf iv xi k (fst p)) <= as_pdf quad xi kappa psi nu (fst p)) /\
    (forall uniforms von batches total l, as_rvs iv quad xi kappa psi nu uniforms von batches total = Ok (Some l) ->
      length l = total /\ l = firstn total (map fst (filter acc (concat batches)))).
Proof. exists 14, (- 1), (/ 650). intros iv quad xi H Hm HQ. split; [apply as_ok_spec; lra|exact (as_rvs_miss iv quad xi H Hm HQ)]. Qed.
Print Assumptions C195_envelope_refuted.
Example C195_refuted_ex : exists iv quad, is_iv iv /\ forall m, quad_exact quad (fun x => as_kernel 14 (- 1) (/ 650) (x - m)) (- PI) PI.
Proof. destruct iv_exists as [iv H]. destruct (as_quad_exists 14 (- 1) (/ 650)) as (q & HQ). exists iv, q. auto. Qed.
(** nu outside [0, 1) is rejected. *)
Theorem C195_guard iv quad xi kappa psi nu uniforms von batches total : ~ (0 <= nu < 1) -> as_rvs iv quad xi kappa psi nu uniforms von batches total = Err ValueError.
Proof. exact (as_rvs_bad iv quad xi kappa psi nu uniforms von batches total). Qed.
Print Assumptions C195_guard.
Example C195_guard_ex iv quad : as_rvs iv quad 1 2 1 1 [] (fun _ _ => []) [] 3 = Err ValueError.
Proof. apply C195_guard. lra. Qed.
