From Verif Require Import Prelude NpModel NpProofs CircleSpec UtilsModel UtilsProofs DescModel DescProofs
  DescSpec DescApi Desc2Model HypModel HypProofs Jp4Proofs BaseModel BaseSpec.
Open Scope string_scope.
Open Scope R_scope.

(** What a successful construction consists of. *)
Lemma circular_inv x g o k : circular x g = Ok (o, k) -> exists p alpha0,
  full_cycle_of (a_unit g) (a_cycle g) = Ok (o_cycle o) /\
  to_alpha (a_data g) (o_cycle o) (a_rotate g) = Ok alpha0 /\
  prepare alpha0 (a_w g) (a_bins g) = Ok p /\
  o_data o = a_data g /\ o_alpha o = p_alpha p /\ o_w o = p_w p /\ o_grouped o = p_grouped p /\
  o_bin_size o = p_bin p /\ o_bounds o = p_bounds p /\
  o_n o = trunc (Rsum (p_w p)) /\ o_mean o = fst (circ_mean_and_r (p_alpha p) (Some (p_w p))) /\
  o_r o = circ_r (p_alpha p) (Some (p_w p)) /\
  (0 < o_n o)%Z /\ 0 <= o_r o <= 1 /\ o_pval o = rayleigh_p (IZR (o_n o)) (o_r o) /\
  o_R o = IZR (o_n o) * o_r o /\
  (o_method o, o_level o, k) = choose_ci (a_mean_ci g) (o_pval o) (o_n o) /\
  (match o_method o with
   | Some m => if Rltb (o_pval o) (5/100)
               then mean_ci x (o_alpha o) (o_w o) (o_mean o) (o_r o) (IZR (o_n o)) m else Ok None
   | None => Ok None
   end) = Ok (o_mean_ci o) /\
  angular_std None None (Some (o_r o)) (Some (o_bin_size o)) = Ok (o_s o) /\
  circ_std None None (Some (o_r o)) (Some (o_bin_size o)) = Ok (o_s0 o) /\
  circ_median (o_alpha o) (Some (o_w o)) (km_method (a_median g)) (km_average (a_median g))
    (km_average_method (a_median g)) = Ok (o_median o) /\
  (if o_grouped o then Ok None
   else match o_median o with
        | MNaN => Ok None
        | MOne m => do c <- circ_median_ci (o_alpha o) m (x_z x); Ok (Some c)
        | MMany _ => Err ValueError
        end) = Ok (o_median_ci o).
Proof.
  unfold circular. destruct (full_cycle_of _ _) as [c|e] eqn:Ec; [|discriminate]. cbn [bind].
  destruct (to_alpha _ _ _) as [a0|e] eqn:Ea; [|discriminate]. cbn [bind].
  destruct (prepare _ _ _) as [p|e] eqn:Ep; [|discriminate]. cbn [bind].
  set (mr := circ_mean_and_r (p_alpha p) (Some (p_w p))) in *.
  assert (Er : snd mr = circ_r (p_alpha p) (Some (p_w p))).
  { unfold mr, circ_mean_and_r, circ_mean_and_r_s, circ_r. destruct (isclose12 _ _); reflexivity. }
  set (n := trunc (Rsum (p_w p))) in *.
  destruct (rayleigh_test _ _ _ _ _ _) as [ray|e] eqn:Ey; [|discriminate]. cbn [bind].
  assert (G : (0 < n)%Z /\ 0 <= snd mr <= 1 /\ ray_pval ray = rayleigh_p (IZR n) (snd mr)).
  { revert Ey. unfold rayleigh_test. cbn -[Z.leb Rleb]. change (Z.leb 1 0) with false. cbn [bind].
    destruct (Z.leb_spec n 0); [discriminate|]. destruct (Rleb_spec 0 (snd mr)); [|discriminate].
    destruct (Rleb_spec (snd mr) 1); [|discriminate]. cbn [andb negb]. intros E. injection E as <-.
    cbn. split; [lia|]. split; [lra|reflexivity]. }
  destruct G as (G1 & G2 & G3).
  destruct (match circ_kappa _ _ with Ok _ => _ | Err _ => _ end) as [kp|e]; [|discriminate]. cbn [bind].
  destruct (choose_ci _ _ _) as [[me le] af] eqn:Ek.
  destruct (match me with Some _ => _ | None => _ end) as [ci|e] eqn:Eci; [|discriminate]. cbn [bind].
  destruct (angular_std _ _ _ _) as [s|e] eqn:Es; [|discriminate]. cbn [bind].
  destruct (circ_std _ _ _ _) as [s0|e] eqn:Es0; [|discriminate]. cbn [bind].
  destruct (circ_median _ _ _ _ _) as [med|e] eqn:Em; [|discriminate]. cbn [bind].
  destruct (if p_grouped p then _ else _) as [mci|e] eqn:Emc; [|discriminate]. cbn [bind].
  intros E. injection E as <- <-. exists p, a0. cbn. rewrite <- Er.
  repeat (split; [first [reflexivity | assumption | now symmetry]|]). exact Emc.
Qed.

(** * Equally spaced directions have no resultant *)
Lemma equi_zero a L : (2 <= L)%nat ->
  Rsum (map (fun i => cos (a + INR i * (2 * PI / INR L))) (seq 0 L)) = 0.
Proof.
  intros HL. assert (P : 2 <= INR L) by (apply (le_INR 2); lia). pose proof PI_RGT_0.
  set (d := 2 * PI / INR L).
  assert (Hd : 0 < d / 2 < PI).
  { unfold d. replace (2 * PI / INR L / 2) with (PI * / INR L) by (field; lra). split.
    - apply Rmult_lt_0_compat; [lra|]. apply Rinv_0_lt_compat; lra.
    - rewrite <- (Rmult_1_r PI) at 2. apply Rmult_lt_compat_l; [lra|].
      rewrite <- Rinv_1. apply Rinv_lt_contravar; lra. }
  pose proof (sin_gt_0 (d / 2) (proj1 Hd) (proj2 Hd)) as S.
  pose proof (equi_sum a d L) as E.
  replace (a + (INR L - 1 / 2) * d) with (a - d / 2 + 2 * PI) in E by (unfold d; field; lra).
  rewrite sin_plus, sin_2PI, cos_2PI in E. 
  apply (Rmult_eq_reg_l (2 * sin (d / 2))); [|lra]. rewrite Rmult_0_r, E. ring.
Qed.
Lemma ones_sums alpha : Csum (combine alpha (ones alpha)) = Rsum (map cos alpha) /\
  Ssum (combine alpha (ones alpha)) = Rsum (map sin alpha) /\
  wtotal (combine alpha (ones alpha)) = INR (length alpha).
Proof.
  unfold Csum, Ssum, wtotal, ones. induction alpha as [|a t (I1 & I2 & I3)]; [cbn; auto|].
  cbn [map combine List.length]. rewrite !Rsum_cons, I1, I2, I3, S_INR. cbn [snd fst].
  repeat split; ring.
Qed.
Lemma equi_r0 l : equally_spaced l -> (2 <= length l)%nat -> circ_r l None = 0.
Proof.
  intros (a & E) HL. unfold circ_r. cbn [weights].
  destruct (ones_sums l) as (E1 & E2 & E3).
  assert (P : 0 < INR (length l)) by (apply lt_0_INR; lia).
  rewrite circ_r_s_eq by (rewrite E3; lra). unfold Rlen. rewrite E1, E2.
  set (L := length l) in *.
  assert (C : Rsum (map cos l) = 0) by (rewrite E, map_map; apply equi_zero; auto).
  assert (S : Rsum (map sin l) = 0).
  { rewrite E, map_map. rewrite <- (equi_zero (a - PI / 2) L HL) at 1.
    apply Rsum_map_ext. intros i _. rewrite <- (cos_shift (a + INR i * (2 * PI / INR L))).
    rewrite <- cos_neg. f_equal. ring. }
  rewrite C, S. rewrite Rmult_0_l, Rplus_0_l, sqrt_0. unfold Rdiv. apply Rmult_0_l.
Qed.
(** The bootstrap interval refuses equally spaced angles whatever is drawn. *)
Lemma boot_equi l draws ci : equally_spaced l -> (2 <= length l)%nat ->
  ci_bootstrap l draws ci = Err ValueError.
Proof.
  intros E HL. unfold ci_bootstrap. destruct l as [|x t]; [reflexivity|].
  rewrite (equi_r0 _ E HL). 
  replace (- (INR (length (x :: t)) * 0 ^ 2)) with 0 by ring. rewrite exp_0.
  destruct (Rltb_spec (5/100) 1); [reflexivity|lra].
Qed.

(** * Histograms over equal bins *)
Lemma centers_map (f : nat -> R) : forall n s, centers (map f (seq s (S n))) = map (fun i => / 2 * (f i + f (S i))) (seq s n).
Proof. induction n as [|n IH]; intros s; [reflexivity|]. cbn [seq map centers] in *. f_equal. rewrite IH. reflexivity. Qed.
Lemma even_centers k : (1 <= k)%nat -> centers (even_edges k) =
  map (fun i => PI / INR k + INR i * (2 * PI / INR k)) (seq 0 k).
Proof.
  intros Hk. unfold even_edges. rewrite centers_map. apply map_ext. intros i. rewrite S_INR. 
  assert (INR k <> 0) by (apply not_0_INR; lia). field; auto.
Qed.
Lemma even_centers_len k : length (centers (even_edges k)) = k.
Proof. unfold even_edges. rewrite centers_map, map_length, seq_length. reflexivity. Qed.
Lemma even_centers_equi k : (1 <= k)%nat -> equally_spaced (centers (even_edges k)).
Proof. intros Hk. exists (PI / INR k). rewrite even_centers_len. apply even_centers; auto. Qed.
Lemma diff_map (f : nat -> R) : forall n s, diff (map f (seq s (S n))) = map (fun i => f (S i) - f i) (seq s n).
Proof. induction n as [|n IH]; intros s; [reflexivity|]. cbn [seq map diff] in *. f_equal. rewrite IH. reflexivity. Qed.
Lemma Rlmin_const c n : Rlmin c (repeat c n) = c.
Proof. induction n as [|n IH]; cbn; [reflexivity|]. cbn in IH. try rewrite Rmin_left by lra. auto. Qed.
Lemma diff_even_centers k : (2 <= k)%nat -> list_min (diff (centers (even_edges k))) = Ok (2 * PI / INR k).
Proof.
  intros Hk. rewrite even_centers by lia. destruct k as [|[|k]]; [lia|lia|].
  rewrite diff_map. cbn [seq map list_min]. f_equal.
  rewrite (map_ext _ (fun _ => 2 * PI / INR (S (S k)))); [|intros i; rewrite (S_INR i); ring].
  replace (PI / INR (S (S k)) + INR 1 * (2 * PI / INR (S (S k))) - (PI / INR (S (S k)) + INR 0 * (2 * PI / INR (S (S k)))))
    with (2 * PI / INR (S (S k))) by (cbn [INR]; ring).
  set (c := 2 * PI / INR (S (S k))). generalize (seq 1 k). intros l.
  replace (map (fun _ => c) l) with (repeat c (length l)).
  - apply Rlmin_const.
  - induction l as [|y t IH]; cbn; [reflexivity|]. now rewrite IH.
Qed.
(** The preprocessing with `bins = k`. *)
Lemma prepare_count alpha w k p : prepare alpha w (Some (BCount k)) = Ok p ->
  (2 <= k)%Z /\ p_alpha p = centers (even_edges (Z.to_nat k)) /\ p_w p = hist_counts alpha (even_edges (Z.to_nat k)) /\
  p_grouped p = true /\ p_bin p = 2 * PI / IZR k /\ p_bounds p = combine (even_edges (Z.to_nat k)) (tl (even_edges (Z.to_nat k))).
Proof.
  unfold prepare. cbn [hist_edges]. destruct (Z.ltb_spec k 1); [discriminate|]. cbn [bind].
  destruct (Z.eq_dec k 1) as [->|N].
  { change (Z.to_nat 1) with 1%nat. unfold even_edges. rewrite centers_map. cbn. discriminate. }
  rewrite diff_even_centers by lia. cbn [bind]. intros E. injection E as <-. cbn.
  split; [lia|]. repeat (split; [reflexivity|]). split; [|reflexivity].
  rewrite INR_IZR_INZ, Z2Nat.id by lia. reflexivity.
Qed.

(** * C71 *)
(** Whatever succeeds before the interval, a significant grouped sample of 8 to 24
    observations ends in the ValueError of the bootstrap. *)
Lemma circular_grouped_fails x g a0 c p : full_cycle_of (a_unit g) (a_cycle g) = Ok c ->
  to_alpha (a_data g) c (a_rotate g) = Ok a0 -> prepare a0 (a_w g) (a_bins g) = Ok p ->
  valid_sample (p_alpha p) (Some (p_w p)) ->
  equally_spaced (p_alpha p) -> (2 <= length (p_alpha p))%nat ->
  (8 <= trunc (Rsum (p_w p)) < 25)%Z ->
  rayleigh_p (IZR (trunc (Rsum (p_w p)))) (circ_r (p_alpha p) (Some (p_w p))) < 5/100 ->
  (a_mean_ci g = None \/ exists d, a_mean_ci g = Some d /\ (kd_method d = None \/ kd_method d = Some (Some "bootstrap"))) ->
  circular x g = Err ValueError.
Proof.
  intros E1 E2 E3 Hv He Hl Hn Hp Hk. unfold circular. rewrite E1. cbn [bind]. rewrite E2. cbn [bind].
  rewrite E3. cbn [bind].
  set (n := trunc (Rsum (p_w p))) in *.
  assert (Er : snd (circ_mean_and_r (p_alpha p) (Some (p_w p))) = circ_r (p_alpha p) (Some (p_w p))).
  { unfold circ_mean_and_r, circ_mean_and_r_s, circ_r. destruct (isclose12 _ _); reflexivity. }
  rewrite !Er. set (r := circ_r _ _) in *.
  pose proof (circ_r_range _ _ Hv) as Rr. fold r in Rr.
  destruct (rayleigh_given r n 1 [] None None) as (t & -> & _ & _ & Pv); [lia|lia|exact Rr|]. cbn [bind].
  assert (K : exists v, match circ_kappa r (Some (IZR n)) with Err ZeroDivisionError => Ok 0 | other => other end = Ok v).
  { unfold circ_kappa. destruct (_ && _); [|eexists; reflexivity]. destruct (Rltb _ _); [|eexists; reflexivity].
    destruct (Reqb _ _); eexists; reflexivity. }
  destruct K as (v & ->). cbn [bind]. rewrite Pv.
  assert (M : fst (fst (choose_ci (a_mean_ci g) (rayleigh_p (IZR n) r) n)) = Some "bootstrap").
  { unfold choose_ci. destruct Hk as [->|(d & -> & Hd)].
    - destruct (Rltb_spec (rayleigh_p (IZR n) r) (5/100)); [|lra].
      destruct (Z.leb_spec 8 n); [|lia]. destruct (Z.ltb_spec n 25); [|lia]. reflexivity.
    - cbn. destruct Hd as [->| ->]; reflexivity. }
  destruct (choose_ci _ _ _) as [[me le] af]. cbn in M. subst me.
  destruct (Rltb_spec (rayleigh_p (IZR n) r) (5/100)); [|lra].
  unfold mean_ci. cbn -[ci_bootstrap]. rewrite boot_equi by assumption. reflexivity.
Qed.
