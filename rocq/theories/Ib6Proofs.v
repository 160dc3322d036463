(** The statements of the inverse Batschelet theorems, assembled. *)
From Verif Require Import Prelude NpModel NpProofs CircleSpec IntSpec IntProofs DistModel DistSpec DistProofs Dist2Proofs Dist4Proofs Dist5Proofs
  Dist6Proofs Dist7Proofs KjProofs Kj2Proofs VonModel VonSpec VonProofs Von3Proofs Von4Proofs JpProofs Jp3Proofs Wn3Proofs Wn6Proofs Ws3Proofs GaussProofs Von6Proofs Jp5Proofs
  FtModel FtSpec FtProofs Ft2Proofs Ft3Proofs Ft4Proofs Ft5Proofs Ft7Proofs Ft8Proofs Ft9Proofs IbModel IbProofs Ib2Proofs Ib3Proofs Ib4Proofs Ib5Proofs.

Lemma ib_tnu_solves root nu xi x : is_root root -> -1 <= nu <= 1 -> (nu = 0 \/ / 10 ^ 12 < Rabs nu) ->
  let solves t := - PI <= t < PI /\ same_dir (t - nu * (1 + cos t)) (x - xi) in
  solves (ib_tnu root nu xi x) /\ forall t, solves t -> t = ib_tnu root nu xi x.
Proof.
  intros Hr Hn Hn'. cbv zeta. rewrite ib_tnu_eq by assumption. assert (E : nu_eff nu = nu). { unfold nu_eff. destruct (Rleb_spec (Rabs nu) ib_tol) as [X|X]; [destruct Hn' as [|]; unfold ib_tol in X; lra|reflexivity]. }
  rewrite E. pose proof (warp_nu_ok nu Hn) as Hw. pose proof (centre_range (x - xi)) as Rg. change (pymod (x - xi + PI) (2 * PI) - PI) with (centre (x - xi)) in Rg.
  rewrite <- ginv_in by assumption. destruct (winv_spec root (warp_nu nu) (centre (x - xi)) Hr Hw Rg) as [B S]. destruct (centre_turns (x - xi)) as [z Ez].
  change (pymod (x - xi + PI) (2 * PI) - PI) with (centre (x - xi)) in Ez.
  split.
  - split; [exact B|]. exists z. unfold warp_nu in S at 1. rewrite S. exact Ez.
  - intros t [Bt [z2 Et]]. apply (warp_inj (warp_nu nu) _ _ Hw). rewrite S. unfold warp_nu.
    assert (Bw : - PI <= t - nu * (1 + cos t) < PI).
    { split; [|pose proof (wp_inc _ Hw t PI ltac:(lra)) as I; rewrite (warp_hi _ Hw) in I; exact I].
      destruct (Req_dec t (- PI)) as [->|]; [right; symmetry; exact (wp_pi _ Hw)|]. pose proof (wp_inc _ Hw (- PI) t ltac:(lra)) as I. rewrite (wp_pi _ Hw) in I. left. exact I. }
    rewrite <- (centre_in (t - nu * (1 + cos t)) Bw), Et. unfold centre. replace (x - xi + 2 * PI * IZR z2 + PI) with (x - xi + PI + 2 * PI * IZR z2) by ring. rewrite pymod_add by (pose proof PI_gt3; lra). reflexivity.
Qed.
Lemma ib_sinv_solves root lam x : is_root root -> lam = -1 \/ -1 + / 10 ^ 4 <= lam <= 1 -> - PI <= x < PI ->
  let solves u := - PI <= u < PI /\ u - 1 / 2 * (1 + lam) * sin u = x in
  solves (ib_sinv root lam x) /\ forall u, solves u -> u = ib_sinv root lam x.
Proof.
  intros Hr Hl Hx. cbv zeta. unfold ib_sinv. destruct end_close as (M1 & _). destruct Hl as [->|Hl].
  - rewrite M1. split; [split; [exact Hx|field]|]. intros u [_ U]. lra.
  - assert (C : isclose12 lam (- 1) = false) by (apply (not_true_false _ _ (close12_minus lam)); intros A; apply abs_le_inv in A; lra). rewrite C.
    pose proof (warp_sin_ok (1 / 2 * (1 + lam)) ltac:(lra)) as Hw. change (centre (root (fun u => u - 1 / 2 * (1 + lam) * sin u - x) (- PI) PI)) with (winv root (warp_sin (1 / 2 * (1 + lam))) x).
    destruct (winv_spec root (warp_sin (1 / 2 * (1 + lam))) x Hr Hw Hx) as [B S]. split; [split; [exact B|exact S]|].
    intros u [_ U]. apply (warp_inj _ _ _ Hw). rewrite S. exact U.
Qed.
Lemma ib_density_law iv root pchip guess xi kappa nu lam : is_iv iv -> is_root root -> 0 <= xi <= 2 * PI -> / 10 ^ 9 < kappa <= 700 -> -1 <= nu <= 1 -> (nu = 0 \/ / 10 ^ 12 < Rabs nu) ->
  (lam = 1 \/ ((lam = -1 \/ -1 + / 10 ^ 4 <= lam <= 1 - / 10 ^ 4) /\ 4 * Rabs lam * (PI * kappa * (1 + 1 / 2 * (1 - lam))) / (4096 * (1 - lam) ^ 2) <= 1 / 2)) ->
  exists f c M, (forall x, ib_answer iv root pchip guess [] (CallPdf xi kappa nu lam x) = Fin (f x)) /\ 0 < c /\ (forall x, 0 < f x) /\ (forall x y, same_dir x y -> f x = f y) /\
    (forall u, let t := u - 1 / 2 * (1 + lam) * sin u in f (xi + (t - nu * (1 + cos t))) = c * exp (kappa * cos (u - 1 / 2 * (1 - lam) * sin u))) /\
    (forall x, exists u, let t := u - 1 / 2 * (1 + lam) * sin u in x = xi + (t - nu * (1 + cos t))) /\
    integral f 0 (2 * PI) M /\ 0 < M /\ (lam = 0 \/ lam = 1 -> M = 1) /\
    (lam < 1 -> Rabs (/ M - 1) <= 4 * Rabs lam * (PI * kappa * (1 + 1 / 2 * (1 - lam))) / (4096 * (1 - lam) ^ 2) + 5 / 10 ^ 12).
Proof.
  intros Hiv Hr Hx Hk Hn Hn' Hg. assert (Hl : -1 <= lam <= 1) by (destruct Hg as [->|[[->|[A B]] _]]; lra).
  assert (k0 : 0 < / 10 ^ 9) by (apply Rinv_0_lt_compat, pow_lt; lra).
  assert (Hok : ib_ok xi kappa nu lam = true) by (apply ib_ok_spec; lra).
  destruct (ib_density iv root ib_fresh xi kappa nu lam Hiv Hr (fresh_right iv) Hok Hk Hg) as (c & M & c0 & E & I & M0 & M1 & M2).
  exists (fun x => c * ib_G root kappa nu lam (x - xi)), c, M. split; [exact E|]. split; [exact c0|]. split; [intros x; apply Rmult_lt_0_compat; [exact c0|apply ib_G_pos]|]. split; [|split; [|split; [|split; [exact I|split; [exact M0|split; [exact M1|exact M2]]]]]].
  - intros x y [z ->]. f_equal. replace (y + 2 * PI * IZR z - xi) with (y - xi + 2 * PI * IZR z) by ring. apply ib_G_turns; assumption.
  - intros u. cbv zeta. f_equal. pose proof (ib_G_at root kappa nu lam u Hr Hn Hn' Hl) as G. cbv zeta in G. rewrite <- G. f_equal. ring.
  - intros x. destruct (ib_onto root nu lam (x - xi) Hr Hn Hl) as [u Hu]. exists u. cbv zeta in *. lra.
Qed.
Lemma ib_uniform iv root pchip guess cs xi kappa nu lam x : ib_ok xi kappa nu lam = true -> kappa <= / 10 ^ 9 ->
  ib_answer iv root pchip guess cs (CallPdf xi kappa nu lam x) = Fin (1 / (2 * PI)).
Proof.
  intros Hok Hk. pose proof Hok as O. apply ib_ok_spec in O. assert (/ 10 ^ 9 <= 1) by (rewrite <- Rinv_1; apply Rinv_le_contravar; lra).
  unfold ib_answer. cbn [ib_run]. unfold ib_public_pdf. rewrite Hok. unfold ib_pdf. rewrite (clip_in kappa 0 ib_kmax) by (unfold ib_kmax; lra). cbv zeta. rewrite (proj2 (Rleb_true kappa ib_ktol)) by exact Hk. reflexivity.
Qed.
Lemma ib_forgets iv root pchip guess : is_iv iv -> is_root root ->
  exists c, forall x, exists a b, ib_answer iv root pchip guess [] (CallPdf 0 400 0 1 x) = Fin a /\ ib_answer iv root pchip guess [c] (CallPdf 0 400 0 1 x) = Fin b /\ 0 < b /\ 19 / 10 * b <= a.
Proof.
  intros Hiv Hr. destruct (ib_falls iv root pchip guess Hiv Hr) as (c & m & c0 & Hm & E). exists (CallCdf 0 400 0 1 1). intros x. destruct (E x) as [E1 E2].
  eexists. eexists. split; [exact E1|]. split; [exact E2|]. pose proof (ib_G_pos root 400 0 1 (x - 0)) as G. set (g := ib_G root 400 0 1 (x - 0)) in *.
  assert (P : 0 < c / m) by (apply Rdiv_lt_0_compat; lra). split; [apply Rmult_lt_0_compat; assumption|].
  replace (c * g) with (m * (c / m * g)) by (field; lra). assert (0 < c / m * g) by (apply Rmult_lt_0_compat; assumption). nra.
Qed.
Lemma ib_keeps iv root pchip guess cs xi kappa nu lam x :
  Forall (fun c => match c with CallPdf _ _ _ _ _ => True | CallCdf _ k' _ lam' _ | CallPpf _ k' _ lam' _ => Rmin (Rmax k' 0) 700 <> Rmin (Rmax kappa 0) 700 \/ lam' <> lam end) cs ->
  ib_answer iv root pchip guess cs (CallPdf xi kappa nu lam x) = ib_answer iv root pchip guess [] (CallPdf xi kappa nu lam x).
Proof.
  intros F. apply ib_history. eapply Forall_impl; [|exact F]. intros [?|? k' ? lam' ?|? k' ? lam' ?]; cbn; try tauto; intros N E; injection E; unfold clip, ib_kmax; intros; tauto.
Qed.
