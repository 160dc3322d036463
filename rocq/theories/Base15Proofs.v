From Verif Require Import Prelude NpModel NpProofs CircleSpec UtilsModel UtilsProofs DescModel DescProofs
  DescSpec DescApi DescApi2 Desc2Model Desc2Proofs Desc2Spec ArcProofs Desc3Proofs Desc4Proofs Desc6Proofs Desc7Proofs Desc2Ex HypModel HypProofs
  BaseModel BaseSpec BaseProofs Base2Proofs Base3Proofs Base4Proofs Base5Proofs Base10Proofs.
Open Scope string_scope.
Open Scope R_scope.

(** * C171 *)
Lemma mean_sq_pos {A} (f : A -> R) l : 0 <= mean (map (fun x => f x ^ 2) l).
Proof.
  unfold mean. rewrite map_length. destruct l as [|a l]; [cbn; unfold Rdiv; rewrite Rmult_0_l; lra|].
  apply Rmult_le_pos; [apply Rsum_map_nonneg; intros; apply pow2_ge_0|].
  apply Rlt_le, Rinv_0_lt_compat, lt_0_INR. cbn. lia.
Qed.
Lemma v0_root_diag alpha : alpha <> [] -> let m := moments_of alpha in
  mo_u12 m = 0 -> let '(a, b, c) := boot_v0 m in
  a * a + b * b = mo_u11 m /\ b * (a + c) = mo_u12 m /\ b * b + c * c = mo_u22 m /\ 0 <= a /\ 0 <= c.
Proof.
  intros _ m Hm. assert (H1 : 0 <= mo_u11 m) by (apply (mean_sq_pos (fun x => cos x - mo_z1 m))).
  assert (H2 : 0 <= mo_u22 m) by (apply (mean_sq_pos (fun x => sin x - mo_z2 m))).
  destruct m as [z1 z2 u11 u22 u12]. cbn [mo_u11 mo_u12 mo_u22] in *. subst u12. rewrite v0_diag by auto.
  rewrite !sqrt_sqrt by auto. pose proof (sqrt_pos u11). pose proof (sqrt_pos u22). repeat split; auto; ring.
Qed.
Lemma v0_root_fails : exists alpha, alpha <> [] /\ let m := moments_of alpha in let '(a, b, c) := boot_v0 m in
  b * (a + c) = 0 /\ mo_u12 m = -1/32.
Proof.
  exists (map (fun a => a + PI / 4) boot_sample). split; [discriminate|]. cbv zeta. rewrite boot_moments_turned, v0_turned. split; [ring|reflexivity].
Qed.
(** * C170: an interval with different ends. *)
Definition four_rows : list (list R) := [repeat (PI / 2) 8; repeat (PI / 2) 8; repeat (3 * PI / 2) 8; repeat (3 * PI / 2) 8].
Lemma four_rows_ok : exists samples lo up m,
  map_res (circ_mean_resample (moments_of boot_sample) (boot_v0 (moments_of boot_sample))) four_rows = Ok samples /\
  ci_bootstrap boot_sample four_rows (95/100) = Ok (lo, up) /\ circ_mean samples None = Fin m /\ ~ same_dir lo up.
Proof.
  pose proof K0_big as HK. pose proof PI_RGT_0 as P0.
  set (p := sqrt (3/16)). assert (P1 : 0 <= p) by apply sqrt_pos. assert (P2 : p * p = 3/16) by (apply sqrt_sqrt; lra).
  assert (P3 : 43/100 < p < 434/1000) by nra.
  assert (S4 : sqrt (1/4) = 1/2) by (replace (1/4) with (1/2 * (1/2)) by lra; apply sqrt_square; lra).
  assert (V : boot_v0 (moments_of boot_sample) = (p, 0, 1/2)) by (rewrite boot_moments, v0_diag, S4 by lra; reflexivity).
  pose proof (resample_diag (moments_of boot_sample) p (1/2) (PI / 2) 7) as D. rewrite boot_moments in D. cbn [mo_z1 mo_z2] in D. rewrite cos_PI2, sin_PI2 in D.
  cbv zeta in D. set (c1 := 3/4 + p * K0 * (0 - 3/4)) in *. set (s1 := 0 + 1/2 * K0 * (1 - 0)) in *.
  destruct D as (d & D1 & D2 & D3 & D4).
  { destruct (hypot_ge_abs c1 s1) as (_ & L). rewrite Rabs_pos_eq in L by (unfold s1; lra). unfold s1 in L at 1. lra. }
  assert (C3 : cos (3 * PI / 2) = 0 /\ sin (3 * PI / 2) = -1).
  { replace (3 * PI / 2) with (3 * (PI / 2)) by field. split; [apply cos_3PI2|apply sin_3PI2]. }
  pose proof (resample_diag (moments_of boot_sample) p (1/2) (3 * PI / 2) 7) as E. rewrite boot_moments in E. cbn [mo_z1 mo_z2] in E. rewrite (proj1 C3), (proj2 C3) in E.
  cbv zeta in E. set (s2 := 0 + 1/2 * K0 * (-1 - 0)) in *. fold c1 in E.
  assert (S12 : s2 = - s1) by (unfold s1, s2; ring).
  assert (Hh : hypot c1 s2 = hypot c1 s1) by (rewrite S12; unfold hypot; f_equal; ring).
  destruct E as (e & E1 & E2 & E3 & E4).
  { rewrite Hh. destruct (hypot_ge_abs c1 s1) as (_ & L). rewrite Rabs_pos_eq in L by (unfold s1; lra). unfold s1 in L at 1. lra. }
  rewrite Hh in *. set (H := hypot c1 s1) in *.
  assert (HS : s1 = K0 / 2) by (unfold s1; lra).
  assert (Hc : c1 <= - (1/5) * K0) by (unfold c1; nra).
  assert (Hc' : - K0 <= c1) by (unfold c1; nra).
  assert (Hp : 0 < H) by (destruct (hypot_ge_abs c1 s1) as (_ & L); fold H in L; rewrite Rabs_pos_eq in L; lra).
  assert (HH : H * H = c1 * c1 + s1 * s1) by (unfold H, hypot; rewrite sqrt_sqrt by nra; ring).
  assert (Hb : H <= 2 * K0) by nra.
  assert (Cd : cos d <= - (1/10)) by nra.
  assert (Sd : 1/4 <= sin d) by nra.
  assert (Ce : cos e = cos d) by nra. assert (Se : sin e = - sin d) by nra.
  assert (Ee : e = 2 * PI - d).
  { assert (Dp : 0 < d) by (destruct (Req_dec d 0) as [->|]; [rewrite sin_0 in Sd; lra|lra]).
    apply (same_dir_unique 0); [lra|lra|]. apply same_dir_iff. split.
    - replace (2 * PI - d) with (- d + 2 * PI * 1) by ring. rewrite NpProofs.cos_turns, cos_neg. exact Ce.
    - replace (2 * PI - d) with (- d + 2 * PI * 1) by ring. rewrite NpProofs.sin_turns, sin_neg. exact Se. }
  assert (Dr : PI / 2 < d < PI).
  { split.
    - apply Rnot_le_lt. intros L. assert (0 <= cos d) by (apply cos_ge_0; lra). lra.
    - apply Rnot_le_lt. intros L. assert (sin d <= 0) by (apply sin_le_0; lra). lra. }
  rewrite V. assert (MS : map_res (circ_mean_resample (moments_of boot_sample) (p, 0, 1/2)) four_rows = Ok [d; d; e; e]).
  { rewrite boot_moments. unfold four_rows. cbn [map_res]. rewrite D1, E1. reflexivity. }
  rewrite MS. clear D1 E1.
  assert (Q : exists m, circ_mean [d; d; e; e] None = Fin m).
  { unfold circ_mean. cbn [weights]. 
    destruct (circ_mean_s_cases (combine [d; d; e; e] (ones [d; d; e; e]))) as [(Q & _)|(_ & ->)]; [|eexists; reflexivity].
    exfalso. destruct (ones_sums [d; d; e; e]) as (O1 & O2 & O3). rewrite circ_r_s_eq in Q by (rewrite O3; cbn; lra).
    unfold Rlen in Q. rewrite O1, O2, O3 in Q. cbn [map length] in Q. repeat rewrite ?Rsum_cons, ?Rsum_nil in Q. rewrite Ce, Se in Q.
    replace (INR 4) with 4 in Q by (cbn; lra).
    match type of Q with sqrt ?z / _ <= _ => replace z with ((- 4 * cos d) * (- 4 * cos d)) in Q by ring end. rewrite sqrt_square in Q by lra. lra. }
  destruct Q as (m & Q).
  assert (HD : compute_hdi [d; d; e; e] (95/100) = Ok (d, e)).
  { unfold compute_hdi. destruct (Rltb_spec 0 (95/100)); [|lra]. destruct (Rltb_spec (95/100) 1); [|lra]. cbn [andb negb map].
    rewrite (angmod0_id d), (angmod0_id e) by lra. cbn [nsort insert].
    destruct (Rleb_spec e e); [|lra]. cbn [insert]. destruct (Rleb_spec d e); [|lra]. cbn [insert]. destruct (Rleb_spec d d); [|lra].
    cbv zeta. cbn [length]. replace (Rfloor (95/100 * INR 4)) with 3%Z by (symmetry; apply Rfloor_unique; cbn; lra).
    change (Z.to_nat 3) with 3%nat. cbn [Nat.max Nat.min seq fold_left app map]. unfold hdi_step.
    cbn [nth plus minus Nat.sub Nat.add fst snd].
    destruct (Rltb_spec (e - d) (e - d)); [exfalso; lra|]. cbn [fst snd].
    destruct (Rltb_spec (d + 2 * PI - e) (e - d)); [exfalso; lra|]. cbn [fst snd].
    destruct (Rltb_spec (d + 2 * PI - e) (e - d)); [exfalso; lra|]. cbn [fst snd]. rewrite (angmod0_id d), (angmod0_id e) by lra. reflexivity. }
  assert (N : ~ same_dir d e).
  { intros S. apply same_dir_sin in S. lra. }
  assert (CI : ci_bootstrap boot_sample four_rows (95/100) = Ok (d, e) \/ ci_bootstrap boot_sample four_rows (95/100) = Ok (e, d)).
  { pose proof boot_p as BP. rewrite <- V in MS. assert (BN : boot_sample <> []) by discriminate. clear - BP MS BN HD Q.
    revert BP MS BN. generalize boot_sample. intros al BP MS BN. unfold ci_bootstrap. destruct al as [|x t]; [congruence|]. set (al := x :: t) in *.
    destruct (Rltb_spec (5/100) (exp (- (INR (length al) * circ_r al None ^ 2)))); [lra|].
    cbv zeta. rewrite MS. cbn [bind]. rewrite HD. cbn [bind fst snd]. rewrite Q.
    destruct (is_within_circular_range m d e); [left|right]; reflexivity. }
  destruct CI as [CI|CI]; [exists [d; d; e; e], d, e, m|exists [d; d; e; e], e, d, m]; repeat split; auto.
  intros S. apply N. now apply same_dir_sym.
Qed.
