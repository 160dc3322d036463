(** The flat-topped von Mises distribution. *)
From Verif Require Import Prelude NpModel NpProofs CircleSpec IntSpec IntProofs DistModel DistSpec Dist4Proofs VonModel VonSpec
  FtModel FtSpec FtProofs Ft2Proofs Ft3Proofs Ft5Proofs Ft6Proofs Ft7Proofs Ft8Proofs Ft9Proofs Alias2Proofs IbModel FtEx.

(** C147 Density. *)
Theorem C147_law mu kappa nu : ft_ok mu kappa nu = true ->
  exists f, (forall x, ft_public_pdf mu kappa nu x = Fin (f x)) /\ (forall x, 0 < f x) /\ (forall x y, same_dir x y -> f x = f y) /\
    (kappa <= / 10 ^ 9 -> forall x, f x = 1 / (2 * PI)) /\
    (/ 10 ^ 9 < kappa -> proportional f (fun x => flat_shape kappa nu (x - mu))).
Proof. exact (ft_law mu kappa nu). Qed.
Print Assumptions C147_law.
Example C147_law_ex : exists f, (forall x, ft_public_pdf 1 2 (- (1 / 2)) x = Fin (f x)) /\ proportional f (fun x => flat_shape 2 (- (1 / 2)) (x - 1)).
Proof. destruct (C147_law _ _ _ ex_ft_ok) as (f & E & _ & _ & _ & P). exists f. split; [exact E|apply P]. lra. Qed.
(** The density integrates to one up to the error of the trapezoidal rule. *)
Theorem C147_mass_partial mu kappa nu f : ft_ok mu kappa nu = true -> (forall x, ft_public_pdf mu kappa nu x = Fin (f x)) ->
  exists M, integral f 0 (2 * PI) M /\ 0 < M /\ Rabs (1 / M - 1) <= PI * kappa * (1 + Rabs nu) / 512.
Proof. exact (ft_mass mu kappa nu f). Qed.
Print Assumptions C147_mass_partial.
(** With nu = 0 it is one up to 1e-15. *)
Theorem C147_mass_von_mises mu kappa f : 0 <= mu <= 2 * PI -> 0 <= kappa <= 1000 -> (forall x, ft_public_pdf mu kappa 0 x = Fin (f x)) ->
  exists M, integral f 0 (2 * PI) M /\ Rabs (M - 1) <= / 10 ^ 15.
Proof. exact (ft_mass_0 mu kappa f). Qed.
Print Assumptions C147_mass_von_mises.
Example C147_mass_von_mises_ex : exists f M, (forall x, ft_public_pdf 1 300 0 x = Fin (f x)) /\ integral f 0 (2 * PI) M /\ Rabs (M - 1) <= / 10 ^ 15.
Proof.
  pose proof PI_gt3. assert (Hok : ft_ok 1 300 0 = true) by (apply ft_ok_spec; lra). destruct (C147_law _ _ _ Hok) as (f & E & _). destruct (C147_mass_von_mises 1 300 f) as (M & I & B); [lra|lra|exact E|].
  exists f, M. auto.
Qed.
Example C147_mass_ex : exists f M, (forall x, ft_public_pdf 1 2 (- (1 / 2)) x = Fin (f x)) /\ integral f 0 (2 * PI) M /\ Rabs (1 / M - 1) <= 1 / 40.
Proof.
  destruct (C147_law _ _ _ ex_ft_ok) as (f & E & _). destruct (C147_mass_partial _ _ _ _ ex_ft_ok E) as (M & I & _ & B). exists f, M. split; [exact E|]. split; [exact I|].
  rewrite Rabs_Ropp, (Rabs_pos_eq (1 / 2)) in B by lra. pose proof PI_4. lra.
Qed.

(** C148 With nu = 0 the density is the von Mises density, up to a relative error of 1e-15. *)
Theorem C148_von_mises iv mu kappa x y : is_iv iv -> 0 <= mu <= 2 * PI -> / 10 ^ 9 < kappa <= 1000 ->
  ft_public_pdf mu kappa 0 x = Fin y -> Rabs (y - von_pdf iv mu kappa x) <= / 10 ^ 15 * von_pdf iv mu kappa x.
Proof. exact (ft_von_mises_all iv mu kappa x y). Qed.
Print Assumptions C148_von_mises.
(** Up to 1e-9 the code takes the uniform density. *)
Theorem C148_small iv mu kappa x y : is_iv iv -> 0 <= mu <= 2 * PI -> 0 <= kappa <= / 10 ^ 9 ->
  ft_public_pdf mu kappa 0 x = Fin y -> y = 1 / (2 * PI) /\ Rabs (y - von_pdf iv mu kappa x) <= / 10 ^ 8 * von_pdf iv mu kappa x.
Proof. exact (ft_von_mises_small iv mu kappa x y). Qed.
Print Assumptions C148_small.
Example C148_ex : exists iv y, ft_public_pdf 1 500 0 2 = Fin y /\ Rabs (y - von_pdf iv 1 500 2) <= / 10 ^ 15 * von_pdf iv 1 500 2.
Proof.
  pose proof PI_gt3. destruct ex_oracles as (iv & _ & _ & H1 & _). exists iv. assert (Hok : ft_ok 1 500 0 = true) by (apply ft_ok_spec; lra). destruct (C147_law _ _ _ Hok) as (f & E & _).
  exists (f 2). split; [apply E|]. apply (C148_von_mises iv 1 500 2 (f 2) H1); [lra|lra|apply E].
Qed.

(** C149 The distribution function. *)
Theorem C149_partial pchip mu kappa nu : is_pchip pchip -> ft_ok mu kappa nu = true -> kappa <= 348 ->
  exists F f M, (forall x, ft_public_cdf pchip mu kappa nu x = Fin (F x)) /\ (forall x, ft_public_pdf mu kappa nu x = Fin (f x)) /\ integral f 0 (2 * PI) M /\
    F 0 = 0 /\ F (2 * PI) = 1 /\ (forall a b, 0 <= a -> a <= b -> b <= 2 * PI -> F a <= F b) /\
    (forall x v, 0 <= x <= 2 * PI -> integral f 0 x v -> Rabs (F x - v) <= M * (2 + 7 * PI * kappa * (1 + Rabs nu)) / 512).
Proof. exact (ft_cdf_law pchip mu kappa nu). Qed.
Print Assumptions C149_partial.
Example C149_ex : exists pchip F, is_pchip pchip /\ (forall x, ft_public_cdf pchip 1 2 (- (1 / 2)) x = Fin (F x)) /\ F 1 <= F 2.
Proof.
  destruct ex_oracles as (_ & _ & pchip & _ & _ & H3). exists pchip. destruct (C149_partial pchip _ _ _ H3 ex_ft_ok ltac:(lra)) as (F & _ & _ & E & _ & _ & _ & _ & Mo & _).
  exists F. split; [exact H3|]. split; [exact E|]. pose proof PI_gt3. apply Mo; lra.
Qed.
(** For kappa = 1000 the function falls from above a half to zero before the turn is complete. *)
Theorem C149_refuted pchip : is_pchip pchip -> exists mu kappa nu x y a, ft_ok mu kappa nu = true /\ 0 <= x <= y /\ y < 2 * PI - 1 / 2 /\
  ft_public_cdf pchip mu kappa nu x = Fin a /\ 1 / 2 <= a /\ ft_public_cdf pchip mu kappa nu y = Fin 0.
Proof. exact (ft_cdf_refuted pchip). Qed.
Print Assumptions C149_refuted.
Example C149_refuted_ex : exists pchip a, ft_public_cdf pchip (7 / 2) 1000 0 (7 / 2) = Fin a /\ 1 / 2 <= a /\ ft_public_cdf pchip (7 / 2) 1000 0 (11 / 2) = Fin 0.
Proof. destruct ex_oracles as (_ & _ & pchip & _ & _ & H3). exists pchip. exact (ft_cdf_falls pchip H3). Qed.

(** C150 Quantiles. *)
Theorem C150_partial pchip guess mu kappa nu q : is_pchip pchip -> ft_ok mu kappa nu = true -> kappa <= 348 -> / 10 ^ 12 < q < 1 - / 10 ^ 12 ->
  exists y x (z : Z), ft_public_ppf pchip guess mu kappa nu q = Fin y /\ 0 <= y < 2 * PI /\ 0 < x < 2 * PI /\
    (ft_public_cdf pchip mu kappa nu x = Fin q \/ 2 * PI - / 10 ^ 12 <= x) /\ Rabs (y - x + 2 * PI * IZR z) <= 2 * PI / 512.
Proof. exact (ft_ppf_near pchip guess mu kappa nu q). Qed.
Print Assumptions C150_partial.
(** Levels within 1e-12 of one are mapped to 2 pi, outside the range and with another value of the cdf. *)
Theorem C150_refuted pchip guess mu kappa nu : ft_ok mu kappa nu = true -> exists q, 0 < q < 1 /\
  ft_public_ppf pchip guess mu kappa nu q = Fin (2 * PI) /\ ft_public_cdf pchip mu kappa nu (2 * PI) = Fin 1.
Proof. exact (ft_ppf_end pchip guess mu kappa nu). Qed.
Print Assumptions C150_refuted.
Example C150_ex : exists pchip y, is_pchip pchip /\ ft_public_ppf pchip (fun _ => 0) 1 300 (1 / 2) (1 / 3) = Fin y /\ 0 <= y < 2 * PI.
Proof.
  destruct ex_oracles as (_ & _ & pchip & _ & _ & H3). exists pchip. destruct (C150_partial pchip (fun _ => 0) _ _ _ (1 / 3) H3 ex_ft_ok2 ltac:(lra) ltac:(lra)) as (y & _ & _ & E & B & _).
  exists y. split; [exact H3|]. split; [exact E|exact B].
Qed.

(** C151 One method answers with NaN where another gives a number. *)
Theorem C151_refuted : exists mu kappa nu x q, (exists y, ft_public_pdf mu kappa nu x = Fin y) /\
  forall pchip guess, ft_public_cdf pchip mu kappa nu x = NaN /\ ft_public_ppf pchip guess mu kappa nu q = NaN.
Proof. exact ft_guard_refuted. Qed.
Print Assumptions C151_refuted.
Example C151_refuted_ex : (exists y, ft_public_pdf 1 (- 5) 0 1 = Fin y) /\ forall pchip, ft_public_cdf pchip 1 (- 5) 0 1 = NaN.
Proof. split; [exact (proj1 (proj2 (ft_guard (fun _ _ _ _ => 0) (fun _ => 0) 1 (1 / 2))))|intros pchip; exact (proj1 (proj2 (proj2 (proj2 (ft_guard pchip (fun _ => 0) 1 (1 / 2))))))]. Qed.
Theorem C151_inverse_batschelet_refuted iv root pchip guess : exists xi kappa nu lam x q,
  ib_answer iv root pchip guess [] (CallPdf xi kappa nu lam x) = NaN /\
  (exists y, ib_answer iv root pchip guess [] (CallCdf xi kappa nu lam x) = Fin y) /\ (exists y, ib_answer iv root pchip guess [] (CallPpf xi kappa nu lam q) = Fin y).
Proof. exact (ib_guard_refuted iv root pchip guess). Qed.
Print Assumptions C151_inverse_batschelet_refuted.
Example C151_inverse_batschelet_ex iv root pchip guess : ib_answer iv root pchip guess [] (CallPdf 1 (- 5) 0 0 1) = NaN.
Proof. exact (proj1 (ib_guard iv root pchip guess)). Qed.

(** C152 The sampler accepts a proposal x of the von Mises envelope with probability proportional to the ratio of the densities. *)
Theorem C152_rejection iv mu kappa nu : is_iv iv -> ft_ok mu kappa nu = true -> / 10 ^ 9 < kappa ->
  exists c k f, 0 < c /\ 0 < k /\ (forall x, ft_public_pdf mu kappa nu x = Fin (f x)) /\
    (0 <= nu \/ / 10 ^ 6 <= kappa * (1 + nu) ^ 2 -> forall x, c * f x <= von_pdf iv mu k x) /\ (forall x, c * f x <= (1 + / 10 ^ 5) * von_pdf iv mu k x) /\
    forall stream, Forall (fun p => 0 < snd p) stream ->
      exists acc, (forall p, In p stream -> (acc p = true <-> snd p * von_pdf iv mu k (fst p) <= c * f (fst p))) /\
      forall uniforms total, ft_rvs iv mu kappa nu uniforms stream total =
        if Nat.leb total (length (filter acc stream)) then Some (map (fun p => pymod (fst p) (2 * PI)) (firstn total (filter acc stream))) else None.
Proof. exact (ft_rvs_law iv mu kappa nu). Qed.
Print Assumptions C152_rejection.
Example C152_ex : exists iv c k f, is_iv iv /\ 0 < c /\ (forall x, ft_public_pdf 1 2 (- (1 / 2)) x = Fin (f x)) /\ forall x, c * f x <= von_pdf iv 1 k x.
Proof.
  destruct ex_oracles as (iv & _ & _ & H1 & _). exists iv. destruct (C152_rejection iv _ _ _ H1 ex_ft_ok ltac:(lra)) as (c & k & f & c0 & _ & E & B & _). exists c, k, f. split; [exact H1|]. split; [exact c0|]. split; [exact E|].
  apply B. right. lra.
Qed.

(** C153 The objective of the fit is the negative log-likelihood of the public density. *)
Theorem C153_likelihood kl kh nl nh s mu kappa nu : 0 <= mu <= 2 * PI -> kl <= kappa <= kh -> nl <= nu <= nh -> ft_ok mu kappa nu = true ->
  exists f, (forall x, ft_public_pdf mu kappa nu x = Fin (f x)) /\ (forall x, 0 < f x) /\ ft_nll kl kh nl nh s mu kappa nu = Fin (- Rsum (map (fun p => snd p * ln (f (fst p))) s)).
Proof. exact (ft_nll_law kl kh nl nh s mu kappa nu). Qed.
Print Assumptions C153_likelihood.
Example C153_ex : exists v, ft_nll 0 1000 (- 1) 1 [(1, 2); (3, 1)] 1 2 (- (1 / 2)) = Fin v.
Proof. pose proof PI_gt3. destruct (C153_likelihood 0 1000 (- 1) 1 [(1, 2); (3, 1)] 1 2 (- (1 / 2)) ltac:(lra) ltac:(lra) ltac:(lra) ex_ft_ok) as (f & _ & _ & E). eexists. exact E. Qed.
Theorem C153_bounds kl kh nl nh s mu kappa nu : ~ (0 <= mu <= 2 * PI /\ kl <= kappa <= kh /\ nl <= nu <= nh) -> ft_nll kl kh nl nh s mu kappa nu = PInf.
Proof. exact (ft_nll_out kl kh nl nh s mu kappa nu). Qed.
Print Assumptions C153_bounds.
Example C153_bounds_ex : ft_nll 0 1000 (- 1) 1 [(1, 2)] 1 2000 0 = PInf.
Proof. apply C153_bounds. lra. Qed.
