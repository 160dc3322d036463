(** The inverse Batschelet distribution and the caches. *)
From Verif Require Import Prelude NpModel NpProofs CircleSpec IntSpec IntProofs DistModel DistSpec Dist4Proofs VonModel VonSpec
  FtModel FtSpec FtProofs Ft9Proofs IbModel IbProofs Ib3Proofs Ib4Proofs Ib5Proofs Ib6Proofs FtEx.

(** C66 What a call answers does not depend on the calls before it. *)
(** True of the cache of the base class by itself. *)
Theorem C66_cache_partial V (f : list (list R) -> V) (ps : list (list (list R))) p :
  fst (get_cached (fun _ => f p) p (fold_left (fun d q => snd (get_cached (fun _ => f q) q d)) ps [])) = f p.
Proof. exact (cached_right f ps p). Qed.
Print Assumptions C66_cache_partial.
Example C66_cache_ex : fst (get_cached (fun _ => 7%nat) [[1]; [2]] (fold_left (fun d q => snd (get_cached (fun _ => 7%nat) q d)) [[[1]; [2]]; [[1; 2]]] [])) = 7%nat.
Proof. exact (C66_cache_partial nat (fun _ => 7%nat) [[[1]; [2]]; [[1; 2]]] [[1]; [2]]). Qed.
(** True of the density while no table was built for the same kappa and lambda. *)
Theorem C66_pdf_partial iv root pchip guess cs xi kappa nu lam x :
  Forall (fun c => match c with CallPdf _ _ _ _ _ => True | CallCdf _ k' _ lam' _ | CallPpf _ k' _ lam' _ => Rmin (Rmax k' 0) 700 <> Rmin (Rmax kappa 0) 700 \/ lam' <> lam end) cs ->
  ib_answer iv root pchip guess cs (CallPdf xi kappa nu lam x) = ib_answer iv root pchip guess [] (CallPdf xi kappa nu lam x).
Proof. exact (ib_keeps iv root pchip guess cs xi kappa nu lam x). Qed.
Print Assumptions C66_pdf_partial.
Example C66_pdf_ex iv root pchip guess : ib_answer iv root pchip guess [CallPdf 1 2 0 0 3; CallCdf 0 2 0 (1 / 2) 1] (CallPdf 0 2 0 1 1) = ib_answer iv root pchip guess [] (CallPdf 0 2 0 1 1).
Proof. apply C66_pdf_partial. constructor; [exact I|]. constructor; [right; lra|constructor]. Qed.
(** False of the density after a call of the cdf with the same parameters: it changes by a factor of almost two. *)
Theorem C66_refuted iv root pchip guess : is_iv iv -> is_root root ->
  exists c, forall x, exists a b, ib_answer iv root pchip guess [] (CallPdf 0 400 0 1 x) = Fin a /\ ib_answer iv root pchip guess [c] (CallPdf 0 400 0 1 x) = Fin b /\ 0 < b /\ 19 / 10 * b <= a.
Proof. exact (ib_forgets iv root pchip guess). Qed.
Print Assumptions C66_refuted.
Example C66_refuted_ex : exists iv root, forall pchip guess, exists c, ib_answer iv root pchip guess [] (CallPdf 0 400 0 1 1) <> ib_answer iv root pchip guess [c] (CallPdf 0 400 0 1 1).
Proof.
  destruct ex_oracles as (iv & root & _ & H1 & H2 & _). exists iv, root. intros pchip guess. destruct (C66_refuted iv root pchip guess H1 H2) as (c & E). exists c.
  destruct (E 1) as (a & b & A & B & B0 & L). rewrite A, B. intros X. injection X as ->. lra.
Qed.

(** C154 The two warps are solved, and solved uniquely. *)
Theorem C154_nu root nu xi x : is_root root -> -1 <= nu <= 1 -> (nu = 0 \/ / 10 ^ 12 < Rabs nu) ->
  let solves t := - PI <= t < PI /\ same_dir (t - nu * (1 + cos t)) (x - xi) in
  solves (ib_tnu root nu xi x) /\ forall t, solves t -> t = ib_tnu root nu xi x.
Proof. exact (ib_tnu_solves root nu xi x). Qed.
Print Assumptions C154_nu.
Example C154_nu_ex : exists root t, t = ib_tnu root (1 / 3) 1 5 /\ - PI <= t < PI /\ same_dir (t - 1 / 3 * (1 + cos t)) (5 - 1).
Proof.
  destruct ex_oracles as (_ & root & _ & _ & H2 & _). exists root. eexists. split; [reflexivity|].
  apply (C154_nu root (1 / 3) 1 5 H2); [lra|right; rewrite Rabs_pos_eq; lra].
Qed.
Theorem C154_lambda root lam x : is_root root -> lam = -1 \/ -1 + / 10 ^ 4 <= lam <= 1 -> - PI <= x < PI ->
  let solves u := - PI <= u < PI /\ u - 1 / 2 * (1 + lam) * sin u = x in
  solves (ib_sinv root lam x) /\ forall u, solves u -> u = ib_sinv root lam x.
Proof. exact (ib_sinv_solves root lam x). Qed.
Print Assumptions C154_lambda.
Example C154_lambda_ex : exists root u, u = ib_sinv root (1 / 2) 2 /\ u - 1 / 2 * (1 + 1 / 2) * sin u = 2.
Proof.
  pose proof PI_gt3. destruct ex_oracles as (_ & root & _ & _ & H2 & _). exists root. eexists. split; [reflexivity|].
  apply (C154_lambda root (1 / 2) 2 H2); [right; lra|lra].
Qed.

(** C155 The density of an object without history. *)
Theorem C155_partial iv root pchip guess xi kappa nu lam : is_iv iv -> is_root root -> 0 <= xi <= 2 * PI -> / 10 ^ 9 < kappa <= 700 -> -1 <= nu <= 1 -> (nu = 0 \/ / 10 ^ 12 < Rabs nu) ->
  (lam = 1 \/ ((lam = -1 \/ -1 + / 10 ^ 4 <= lam <= 1 - / 10 ^ 4) /\ 4 * Rabs lam * (PI * kappa * (1 + 1 / 2 * (1 - lam))) / (4096 * (1 - lam) ^ 2) <= 1 / 2)) ->
  exists f c M, (forall x, ib_answer iv root pchip guess [] (CallPdf xi kappa nu lam x) = Fin (f x)) /\ 0 < c /\ (forall x, 0 < f x) /\ (forall x y, same_dir x y -> f x = f y) /\
    (forall u, let t := u - 1 / 2 * (1 + lam) * sin u in f (xi + (t - nu * (1 + cos t))) = c * exp (kappa * cos (u - 1 / 2 * (1 - lam) * sin u))) /\
    (forall x, exists u, let t := u - 1 / 2 * (1 + lam) * sin u in x = xi + (t - nu * (1 + cos t))) /\
    integral f 0 (2 * PI) M /\ 0 < M /\ (lam = 0 \/ lam = 1 -> M = 1) /\
    (lam < 1 -> Rabs (/ M - 1) <= 4 * Rabs lam * (PI * kappa * (1 + 1 / 2 * (1 - lam))) / (4096 * (1 - lam) ^ 2) + 5 / 10 ^ 12).
Proof. exact (ib_density_law iv root pchip guess xi kappa nu lam). Qed.
Print Assumptions C155_partial.
Example C155_ex : exists iv root f M, is_iv iv /\ (forall x, ib_answer iv root (fun _ _ _ _ => 0) (fun _ => 0) [] (CallPdf 1 2 (1 / 3) (- (1 / 2)) x) = Fin (f x)) /\ integral f 0 (2 * PI) M /\ Rabs (/ M - 1) <= 1 / 300.
Proof.
  pose proof PI_gt3. pose proof PI_4 as P4. destruct ex_oracles as (iv & root & _ & H1 & H2 & _). destruct ex_ib_ok as (_ & _ & G).
  destruct (C155_partial iv root (fun _ _ _ _ => 0) (fun _ => 0) 1 2 (1 / 3) (- (1 / 2)) H1 H2 ltac:(lra) ltac:(lra) ltac:(lra) ltac:(right; rewrite Rabs_pos_eq; lra) G) as (f & c & M & E & _ & _ & _ & _ & _ & I & _ & _ & B).
  exists iv, root, f, M. split; [exact H1|]. split; [exact E|]. split; [exact I|]. specialize (B ltac:(lra)). rewrite Rabs_Ropp, (Rabs_pos_eq (1 / 2)) in B by lra.
  eapply Rle_trans; [exact B|]. apply Rle_trans with (PI * (7 / 9216) + 5 / 10 ^ 12); [right; field|lra].
Qed.
Theorem C155_uniform iv root pchip guess cs xi kappa nu lam x : ib_ok xi kappa nu lam = true -> kappa <= / 10 ^ 9 ->
  ib_answer iv root pchip guess cs (CallPdf xi kappa nu lam x) = Fin (1 / (2 * PI)).
Proof. exact (ib_uniform iv root pchip guess cs xi kappa nu lam x). Qed.
Print Assumptions C155_uniform.
Example C155_uniform_ex iv root pchip guess : ib_answer iv root pchip guess [CallCdf 0 0 0 0 1] (CallPdf 1 0 (1 / 2) (1 / 2) 2) = Fin (1 / (2 * PI)).
Proof. apply C155_uniform; [pose proof PI_gt3; apply ib_ok_spec; lra|left; apply Rinv_0_lt_compat, pow_lt; lra]. Qed.

(** C156 Special cases. *)
Theorem C156_von_mises_partial iv root pchip guess xi kappa x : is_iv iv -> is_root root -> 0 <= xi <= 2 * PI -> / 10 ^ 9 < kappa <= 700 ->
  ib_answer iv root pchip guess [] (CallPdf xi kappa 0 0 x) = Fin (von_pdf iv xi kappa x).
Proof. exact (ib_vonmises iv root pchip guess xi kappa x). Qed.
Print Assumptions C156_von_mises_partial.
Example C156_von_mises_ex : exists iv root, forall pchip guess, ib_answer iv root pchip guess [] (CallPdf 1 20 0 0 3) = Fin (von_pdf iv 1 20 3).
Proof. pose proof PI_gt3. destruct ex_oracles as (iv & root & _ & H1 & H2 & _). exists iv, root. intros. apply C156_von_mises_partial; try assumption; lra. Qed.
Theorem C156_refuted iv root pchip guess : is_iv iv -> is_root root ->
  exists x y, ib_answer iv root pchip guess [] (CallPdf 0 1000 0 0 x) = Fin y /\ y <> von_pdf iv 0 1000 x.
Proof. exact (ib_cut_refutes iv root pchip guess). Qed.
Print Assumptions C156_refuted.
Example C156_refuted_ex : exists iv root x y, forall pchip guess, ib_answer iv root pchip guess [] (CallPdf 0 1000 0 0 x) = Fin y.
Proof.
  destruct ex_oracles as (iv & root & _ & H1 & H2 & _). destruct (C156_refuted iv root (fun _ _ _ _ => 0) (fun _ => 0) H1 H2) as (x & y & E & _). exists iv, root, x, y. intros. exact E.
Qed.
Theorem C156_flat iv root pchip guess xi kappa : is_iv iv -> is_root root -> 0 <= xi <= 2 * PI -> / 10 ^ 9 < kappa <= 700 ->
  exists f, (forall x, ib_answer iv root pchip guess [] (CallPdf xi kappa 0 (- 1) x) = Fin (f x)) /\ (forall x, 0 < f x) /\ proportional f (fun x => flat_shape kappa (- 1) (x - xi)).
Proof. exact (ib_flat iv root pchip guess xi kappa). Qed.
Print Assumptions C156_flat.
Example C156_flat_ex : exists iv root f, forall pchip guess x, ib_answer iv root pchip guess [] (CallPdf 1 20 0 (- 1) x) = Fin (f x).
Proof.
  pose proof PI_gt3. destruct ex_oracles as (iv & root & _ & H1 & H2 & _). destruct (C156_flat iv root (fun _ _ _ _ => 0) (fun _ => 0) 1 20 H1 H2 ltac:(lra) ltac:(lra)) as (f & E & _). exists iv, root, f. intros pchip guess x. exact (E x).
Qed.
