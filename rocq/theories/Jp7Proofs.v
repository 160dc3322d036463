(** Jones-Pewsey family: quantile functions, sampling, the moment fit, and where the claims fail. *)
From Verif Require Import Prelude NpModel NpProofs UtilsModel DescModel DescProofs Desc2Model Desc2Proofs CircleSpec IntSpec IntProofs Desc6Proofs DistModel DistSpec DistProofs Dist2Proofs Dist4Proofs Dist5Proofs
  Dist6Proofs Dist7Proofs Dist8Proofs KjProofs Kj2Proofs Kj3Proofs VonModel VonSpec VonProofs Von2Proofs Von3Proofs Von4Proofs Von5Proofs Von6Proofs GaussProofs Ws2Proofs Ws3Proofs WnProofs Wn3Proofs Wn6Proofs
  JpModel JpSpec JpProofs Jp2Proofs Jp3Proofs Jp4Proofs Jp5Proofs Jp6Proofs.

(** ** A sharp peak is lost between the grid points of jonespewsey_asym *)
Lemma as_kernel_0 kappa psi phi : as_kernel kappa psi 0 phi = jp_kernel kappa psi phi.
Proof. unfold as_kernel. f_equal. ring. Qed.
Lemma as_sharp_c quad : quad_exact quad (fun x => as_kernel 14 (- 1) 0 (x - PI)) (- PI) PI -> as_c quad PI 14 (- 1) 0 = 1 / (2 * PI).
Proof.
  intros HQ. pose proof PI_gt3. unfold as_c. rewrite (proj2 (Rltb_false _ _)) by (unfold jp_ktol; lra).
  unfold quad_exact in HQ.
  pose proof (quad_mass (as_kernel 14 (- 1) 0) PI _ ltac:(lra) (as_kernel_cont 14 (- 1) 0) (as_kernel_turns 14 (- 1) 0) HQ) as I.
  pose proof (mass_mone 14 ltac:(lra)) as J.
  assert (J' : integral (as_kernel 14 (- 1) 0) 0 (2 * PI) (2 * PI)).
  { refine (integral_ext _ _ _ _ _ _ _ J); [lra|]. intros t _. symmetry. apply as_kernel_0. }
  rewrite (integral_unique _ _ _ _ _ I J'). reflexivity.
Qed.
Lemma as_sharp_lo quad s : quad_exact quad (fun x => as_kernel 14 (- 1) 0 (x - PI)) (- PI) PI -> 0 <= s <= / exp 14 ->
  4 / 5 * exp 14 / (2 * PI) <= as_pdf quad PI 14 (- 1) 0 (PI + s).
Proof.
  intros HQ Hs. pose proof PI_gt3 as P3. pose proof exp14 as E14. destruct exp14_facts as (S1 & CS & H14).
  unfold as_pdf. rewrite (proj2 (Rltb_false _ _)) by (rewrite Rabs_pos_eq by lra; unfold jp_ktol; lra).
  rewrite as_sharp_c by exact HQ. rewrite as_kernel_0. replace (PI + s - PI) with s by ring.
  destruct (jp_kernel_mone 14 s ltac:(lra)) as [E D]. rewrite E.
  assert (S2 : sinh 14 <= exp 14 / 2).
  { unfold sinh. pose proof (exp_pos (- (14))). lra. }
  pose proof (cos_ge s) as C. assert (P : 0 < / exp 14) by (apply Rinv_0_lt_compat; lra).
  assert (PE : exp 14 * / exp 14 = 1) by (apply Rinv_r; lra).
  set (h := / exp 14) in *.
  assert (B : cosh 14 - sinh 14 * cos s <= 5 / 4 * h).
  { assert (Q1 : sinh 14 * (1 - cos s) <= exp 14 / 2 * (h ^ 2 / 2)).
    { apply Rmult_le_compat; [lra|pose proof (COS_bound s); lra|lra|]. assert (s ^ 2 <= h ^ 2) by (apply pow_incr; lra). lra. }
    replace (exp 14 / 2 * (h ^ 2 / 2)) with (exp 14 * h * h / 4) in Q1 by field. rewrite PE in Q1. nra. }
  unfold Rdiv. rewrite Rmult_1_l. rewrite (Rmult_comm (/ (2 * PI))). apply Rmult_le_compat_r; [left; apply Rinv_0_lt_compat; lra|].
  replace (4 * / 5 * exp 14) with (/ (5 / 4 * h)).
  - apply Rinv_le_contravar; assumption.
  - unfold h. field. lra.
Qed.
Lemma as_sharp iv num lpmv quad : quad_exact quad (fun x => as_kernel 14 (- 1) 0 (x - PI)) (- PI) PI ->
  exists x y u v w, 0 < x /\ x < y /\ y < 2 * PI /\
    public_cdf (as_ok PI 14 (- 1) 0) (as_cdf iv num lpmv quad PI 14 (- 1) 0) x = Fin u /\
    public_cdf (as_ok PI 14 (- 1) 0) (as_cdf iv num lpmv quad PI 14 (- 1) 0) y = Fin v /\
    integral (as_pdf quad PI 14 (- 1) 0) x y w /\ v - u <= / 400 /\ / 9 <= w.
Proof.
  intros HQ. pose proof PI_gt3 as P3. pose proof pi_hi as Ph. pose proof exp14 as E14. destruct exp14_facts as (S1 & CS & H14).
  assert (Hok : as_ok PI 14 (- 1) 0 = true) by (apply as_ok_spec; lra).
  destruct (as_cdf_function iv num lpmv quad PI 14 (- 1) 0 Hok HQ) as (F & HF & _ & _ & HL).
  assert (P : 0 < / exp 14) by (apply Rinv_0_lt_compat; lra). assert (P' : / 372529 < / 100) by lra.
  set (h := / exp 14) in *.
  assert (Hc : forall x, PI <= x <= PI + h -> continuity_pt (as_pdf quad PI 14 (- 1) 0) x).
  { intros x _. apply (cont_ext (fun x => as_c quad PI 14 (- 1) 0 * as_kernel 14 (- 1) 0 (x - PI))).
    - intros t. unfold as_pdf. rewrite (proj2 (Rltb_false _ _)) by (rewrite Rabs_pos_eq by lra; unfold jp_ktol; lra). reflexivity.
    - apply cont_mult; [apply cont_const|]. apply (cont_comp (as_kernel 14 (- 1) 0) (fun x => x - PI)); [|apply as_kernel_cont].
      apply derivable_continuous_pt. reg. }
  destruct (continuous_integral (as_pdf quad PI 14 (- 1) 0) PI (PI + h) ltac:(lra) Hc) as [w W].
  exists PI, (PI + h), (F PI), (F (PI + h)), w. split; [lra|]. split; [lra|]. split; [lra|]. split; [apply HF|]. split; [apply HF|]. split; [exact W|]. split.
  - pose proof (HL PI (PI + h) ltac:(lra) ltac:(lra) ltac:(lra)) as [_ B].
    assert (4096 / (2 * PI) <= 700) by (apply Rmult_le_reg_r with (2 * PI); [lra|]; unfold Rdiv; rewrite Rmult_assoc, Rinv_l by lra; lra).
    replace (PI + h - PI) with h in B by ring. assert (4096 / (2 * PI) * h <= 700 * / 372529) by (apply Rmult_le_compat; try lra; apply Rlt_le, Rdiv_lt_0_compat; lra). lra.
  - pose proof (integral_const PI (PI + h) (4 / 5 * exp 14 / (2 * PI))) as K.
    assert (B : 4 / 5 * exp 14 / (2 * PI) * (PI + h - PI) <= w).
    { refine (integral_le _ _ _ _ _ _ _ _ K W); [lra|]. intros x Hx. replace x with (PI + (x - PI)) by ring. apply as_sharp_lo; [exact HQ|]. unfold h in *. lra. }
    replace (4 / 5 * exp 14 / (2 * PI) * (PI + h - PI)) with (2 / (5 * PI)) in B by (unfold h; field; lra).
    assert (/ 9 <= 2 / (5 * PI)); [|lra]. apply Rmult_le_reg_r with (5 * PI); [lra|]. unfold Rdiv. rewrite Rmult_assoc, Rinv_l by lra. lra.
Qed.

(** ** The sine-skewed member with kappa below 1e-3 *)
Lemma ss_flat_value iv num lpmv quad xi psi lam x phi (z : Z) : 0 <= phi < 2 * PI -> x - xi = phi + 2 * PI * IZR z ->
  ss_cdf iv num lpmv quad xi 0 psi lam x = clip (phi / (2 * PI) + lam * ((1 - cos phi) / (2 * PI))) 0 1.
Proof.
  intros Hp E. pose proof PI_gt3. unfold ss_cdf. rewrite (proj2 (Rltb_true _ _)) by (unfold jp_ktol; lra).
  rewrite E, pymod_add by lra. rewrite pymod_small by lra. reflexivity.
Qed.
Lemma ss_flat_decreases iv num lpmv quad psi :
  public_cdf (ss_ok PI 0 psi 0) (ss_cdf iv num lpmv quad PI 0 psi 0) (PI / 2) = Fin (3 / 4) /\
  public_cdf (ss_ok PI 0 psi 0) (ss_cdf iv num lpmv quad PI 0 psi 0) (3 * (PI / 2)) = Fin (1 / 4).
Proof.
  pose proof PI_gt3. assert (Hok : ss_ok PI 0 psi 0 = true) by (apply ss_ok_spec; lra). rewrite Hok. rewrite !at_angle_pub, !at_angle_in by lra. split; f_equal.
  - rewrite (ss_flat_value _ _ _ _ _ _ _ _ (3 * (PI / 2)) (-1)%Z) by (try (simpl; lra)).
    replace (3 * (PI / 2) / (2 * PI) + 0 * ((1 - cos (3 * (PI / 2))) / (2 * PI))) with (3 / 4) by (field; lra). apply clip_in. lra.
  - rewrite (ss_flat_value _ _ _ _ _ _ _ _ (PI / 2) 0%Z) by (try (simpl; lra)).
    replace (PI / 2 / (2 * PI) + 0 * ((1 - cos (PI / 2)) / (2 * PI))) with (1 / 4) by (field; lra). apply clip_in. lra.
Qed.
Lemma ss_flat_ppf iv num ndtri lpmv quad psi :
  public_ppf (ss_ok 0 0 psi 1) (ss_ppf iv num ndtri lpmv quad 0 0 psi 1) (1 / 2) = Fin PI /\
  ~ inverts (public_cdf (ss_ok 0 0 psi 1) (ss_cdf iv num lpmv quad 0 0 psi 1)) (1 / 2) PI (/ 20) (1 / 2).
Proof.
  pose proof PI_gt3 as P3. pose proof pi_hi as Ph. assert (Hok : ss_ok 0 0 psi 1 = true) by (apply ss_ok_spec; lra). rewrite Hok. split.
  - unfold public_ppf. simpl negb. cbv iota. rewrite !(proj2 (Rltb_true _ _)) by lra. simpl. f_equal. unfold ss_ppf.
    rewrite (proj2 (Rltb_true 0 jp_ktol)) by (unfold jp_ktol; lra). rewrite clip_in by lra. field.
  - assert (V : forall t, 0 < t <= PI -> at_angle (ss_cdf iv num lpmv quad 0 0 psi 1) t = clip (t / (2 * PI) + 1 * ((1 - cos t) / (2 * PI))) 0 1).
    { intros t Ht. rewrite at_angle_in by lra. apply (ss_flat_value _ _ _ _ _ _ _ _ t 0%Z); [lra|simpl; ring]. }
    assert (V' : forall t, PI - 1 / 2 <= t <= PI -> 11 / 20 < at_angle (ss_cdf iv num lpmv quad 0 0 psi 1) t).
    { intros t Ht. rewrite V by lra. assert (C : cos t <= 0) by (apply cos_le_0; lra).
      assert (B : 0 < t / (2 * PI) + 1 * ((1 - cos t) / (2 * PI)) - 11 / 20).
      { replace (t / (2 * PI) + 1 * ((1 - cos t) / (2 * PI)) - 11 / 20) with ((t + 1 - cos t - 11 / 10 * PI) / (2 * PI)) by (field; lra).
        apply Rdiv_lt_0_compat; lra. }
      unfold clip, Rmin, Rmax. repeat destruct (Rle_dec _ _); lra. }
    intros [_ [(v & Fv & B)|(lo & hi & vl & vh & L1 & L2 & L3 & L4 & Fl & Fh & Bl & Bh)]].
    + rewrite at_angle_pub in Fv. injection Fv as <-. pose proof (V' PI ltac:(lra)) as K. apply abs_le_inv in B. lra.
    + rewrite at_angle_pub in Fl. injection Fl as <-. pose proof (V' lo ltac:(lra)) as K. lra.
Qed.

(** ** Quantile functions *)
Lemma clip_twice q : 0 < q < 1 -> let c := clip q (/ 10 ^ 15) (1 - / 10 ^ 15) in clip c (/ 10 ^ 15) (1 - / 10 ^ 15) = c.
Proof. intros H c. apply clip_in. unfold c. apply clip_range. lra. Qed.
Lemma at_angle_F iv num mu k x : at_angle (von_F iv num mu k) x = von_F iv num mu k x.
Proof.
  pose proof PI_gt3. unfold at_angle. cbv zeta. unfold von_F at 2. cbv zeta. destruct (Rleb_spec (2 * PI) (wrap_angles x)); [reflexivity|].
  destruct (Rltb_spec 0 (wrap_angles x)); [|reflexivity]. apply von_F_in. lra.
Qed.
Lemma inverts_near F qc q th e w : inverts F qc th e w -> Rabs (qc - q) <= / 10 ^ 12 -> inverts F q th (e + / 10 ^ 12) w.
Proof.
  intros [H [(v & Hv & B)|(lo & hi & vl & vh & L1 & L2 & L3 & L4 & Fl & Fh & Bl & Bh)]] Q; split; try exact H.
  - left. exists v. split; [exact Hv|]. replace (v - q) with ((v - qc) + (qc - q)) by ring. eapply Rle_trans; [apply Rabs_triang|]. lra.
  - apply abs_le_inv in Q. right. exists lo, hi, vl, vh. repeat split; try assumption; lra.
Qed.
Lemma ppf_public ok ppf q : ok = true -> 0 < q < 1 -> public_ppf ok ppf q = Fin (ppf q).
Proof. intros -> H. unfold public_ppf. simpl negb. cbv iota. rewrite !(proj2 (Rltb_true _ _)) by lra. reflexivity. Qed.
Lemma flat_inverts F q : (forall x, 0 < x < 2 * PI -> F x = x / (2 * PI)) -> 0 < q < 1 ->
  inverts (public_cdf true F) q (2 * PI * clip q (/ 10 ^ 15) (1 - / 10 ^ 15)) (2 / 10 ^ 12) (8 / 10 ^ 9).
Proof.
  intros HF Hq. pose proof PI_gt3. destruct (qc_near q Hq) as [N B]. set (qc := clip q (/ 10 ^ 15) (1 - / 10 ^ 15)) in *.
  assert (R : 0 < 2 * PI * qc < 2 * PI) by nra. split; [lra|]. left. exists qc. split; [|lra].
  rewrite at_angle_pub, at_angle_in by exact R. rewrite HF by exact R. f_equal. field. lra.
Qed.
Lemma jp_inverts iv num ndtri lpmv quad mu kappa psi q : jp_ok mu kappa psi = true -> 0 < q < 1 -> jp_ptol <= Rabs psi \/ mu < 2 * PI ->
  exists th, public_ppf (jp_ok mu kappa psi) (jp_ppf iv num ndtri lpmv quad mu kappa psi) q = Fin th /\
    inverts (public_cdf (jp_ok mu kappa psi) (jp_cdf iv num lpmv quad mu kappa psi)) q th (2 / 10 ^ 12) (8 / 10 ^ 9).
Proof.
  intros Hok Hq Hm. eexists. split; [apply ppf_public; assumption|]. pose proof (proj1 (jp_ok_spec _ _ _) Hok) as [Hmu Hk]. rewrite Hok. pose proof PI_gt3 as P3.
  unfold jp_ppf. cbv zeta. destruct (Rltb_spec kappa jp_ktol) as [K|K].
  - apply flat_inverts; [|exact Hq]. intros x Hx. unfold jp_cdf. rewrite (proj2 (Rltb_true _ _)) by exact K. rewrite pymod_small by lra. reflexivity.
  - destruct (Rltb_spec (Rabs psi) jp_ptol) as [P|P]; [|apply solve_inverts; exact Hq].
    assert (Hm' : mu < 2 * PI) by (destruct Hm; [exfalso; lra|assumption]).
    destruct (qc_near q Hq) as [N B]. pose proof (clip_twice q Hq) as CT. cbv zeta in CT. set (qc := clip q (/ 10 ^ 15) (1 - / 10 ^ 15)) in *.
    assert (K' : / 10 ^ 9 < kappa) by (unfold jp_ktol in K; lra).
    pose proof (von_ppf_spec iv num ndtri mu kappa qc K' B) as [T S]. rewrite CT in S. rewrite (pymod_small mu) in S by lra.
    assert (EF : forall x, public_cdf true (jp_cdf iv num lpmv quad mu kappa psi) x = Fin (von_F iv num mu kappa x)).
    { intros x. rewrite at_angle_pub. f_equal. rewrite <- at_angle_F. unfold at_angle. cbv zeta. unfold jp_cdf.
      rewrite (proj2 (Rltb_false kappa jp_ktol)) by lra. rewrite (proj2 (Rltb_true (Rabs psi) jp_ptol)) by exact P. reflexivity. }
    assert (I : inverts (public_cdf true (jp_cdf iv num lpmv quad mu kappa psi)) qc (von_ppf iv num ndtri mu kappa qc) (/ 10 ^ 12) (8 / 10 ^ 9)).
    { split; [lra|]. destruct S as [S|(L & H & S1 & S2 & S3 & S4 & S5)].
      - left. eexists. split; [apply EF|exact S].
      - right. exists L, H, (von_F iv num mu kappa L), (von_F iv num mu kappa H). repeat split; try assumption; try apply EF; lra. }
    replace (2 / 10 ^ 12) with (/ 10 ^ 12 + / 10 ^ 12) by field. apply (inverts_near _ qc); [exact I|]. lra.
Qed.
Lemma pymod_xi xi : 0 <= xi <= 2 * PI -> pymod xi (2 * PI) = xi \/ (xi = 2 * PI /\ pymod xi (2 * PI) = 0).
Proof.
  intros H. pose proof PI_gt3. destruct (Req_dec xi (2 * PI)) as [E|E]; [right|left; apply pymod_small; lra].
  split; [exact E|]. rewrite E. replace (2 * PI) with (0 + 2 * PI * IZR 1) at 1 by (simpl; ring). rewrite pymod_add by lra. apply pymod_small. lra.
Qed.
Lemma pymod_2pi y : pymod (y - 2 * PI) (2 * PI) = pymod (y - 0) (2 * PI).
Proof. pose proof PI_gt3. replace (y - 2 * PI) with (y - 0 + 2 * PI * IZR (-1)) by (simpl; ring). apply pymod_add. lra. Qed.
Lemma pymod_m2pi : pymod (- (2 * PI)) (2 * PI) = pymod (- 0) (2 * PI).
Proof. pose proof PI_gt3. replace (- (2 * PI)) with (- 0 + 2 * PI * IZR (-1)) by (simpl; ring). apply pymod_add. lra. Qed.
Lemma ss_cdf_xi iv num lpmv quad kappa psi lam x : jp_ptol <= Rabs psi \/ / 10 ^ 12 <= Rabs lam ->
  ss_cdf iv num lpmv quad (2 * PI) kappa psi lam x = ss_cdf iv num lpmv quad 0 kappa psi lam x.
Proof.
  intros H. unfold ss_cdf. rewrite pymod_2pi, pymod_m2pi.
  replace (Rltb (Rabs psi) jp_ptol && Rltb (Rabs lam) (/ 10 ^ 12)) with false; [reflexivity|].
  destruct H as [H|H]; [rewrite (proj2 (Rltb_false (Rabs psi) _)) by lra; reflexivity|].
  rewrite (proj2 (Rltb_false (Rabs lam) _)) by lra. symmetry. apply Bool.andb_false_r.
Qed.
Lemma at_angle_ext F G x : (forall y, F y = G y) -> at_angle F x = at_angle G x.
Proof. intros H. unfold at_angle. cbv zeta. rewrite H. reflexivity. Qed.
Lemma inverts_ext F G q th e w : (forall x, F x = G x) -> inverts F q th e w -> inverts G q th e w.
Proof.
  intros E [H [(v & Hv & B)|(lo & hi & vl & vh & L1 & L2 & L3 & L4 & Fl & Fh & Bl & Bh)]]; split; try exact H.
  - left. exists v. rewrite <- E. auto.
  - right. exists lo, hi, vl, vh. rewrite <- !E. repeat split; tauto.
Qed.
Lemma ss_inverts iv num ndtri lpmv quad xi kappa psi lam q : ss_ok xi kappa psi lam = true -> 0 < q < 1 -> jp_ktol <= kappa -> / 10 ^ 12 <= Rabs lam ->
  exists th, public_ppf (ss_ok xi kappa psi lam) (ss_ppf iv num ndtri lpmv quad xi kappa psi lam) q = Fin th /\
    inverts (public_cdf (ss_ok xi kappa psi lam) (ss_cdf iv num lpmv quad xi kappa psi lam)) q th (2 / 10 ^ 12) (8 / 10 ^ 9).
Proof.
  intros Hok Hq Hk Hl. eexists. split; [apply ppf_public; assumption|]. pose proof (proj1 (ss_ok_spec _ _ _ _) Hok) as (Hx & _ & Hlam). rewrite Hok.
  unfold ss_ppf. cbv zeta. rewrite (proj2 (Rltb_false kappa _)) by lra. rewrite (proj2 (Rltb_false (Rabs lam) _)) by lra.
  destruct (pymod_xi xi Hx) as [E|[E E']].
  - rewrite E. apply solve_inverts. exact Hq.
  - rewrite E'. apply (inverts_ext (public_cdf true (ss_cdf iv num lpmv quad 0 kappa psi lam))); [|apply solve_inverts; exact Hq].
    intros x. rewrite !at_angle_pub. f_equal. apply at_angle_ext. intros y. rewrite E. symmetry. apply ss_cdf_xi. right; exact Hl.
Qed.
Lemma ss_sym_cdf iv num lpmv quad xi kappa psi x : jp_ktol <= kappa -> jp_ptol <= Rabs psi -> ss_cdf iv num lpmv quad xi kappa psi 0 x = jp_cdf iv num lpmv quad xi kappa psi x.
Proof.
  intros Hk Hp. unfold ss_cdf, jp_cdf. rewrite !(proj2 (Rltb_false kappa _)) by lra. rewrite !(proj2 (Rltb_false (Rabs psi) _)) by lra. simpl andb. cbv iota zeta.
  rewrite Rabs_R0, (proj2 (Rltb_false 0 0)) by lra. cbv iota. rewrite Rmult_0_l, Rplus_0_r. destruct (Rleb _ _); reflexivity.
Qed.
Lemma jp_cdf_xi iv num lpmv quad kappa psi x : jp_ptol <= Rabs psi -> jp_cdf iv num lpmv quad (2 * PI) kappa psi x = jp_cdf iv num lpmv quad 0 kappa psi x.
Proof. intros H. unfold jp_cdf. rewrite pymod_2pi, pymod_m2pi. rewrite (proj2 (Rltb_false (Rabs psi) _)) by lra. reflexivity. Qed.
Lemma ss_sym_inverts iv num ndtri lpmv quad xi kappa psi q : ss_ok xi kappa psi 0 = true -> 0 < q < 1 -> jp_ktol <= kappa -> jp_ptol <= Rabs psi ->
  exists th, public_ppf (ss_ok xi kappa psi 0) (ss_ppf iv num ndtri lpmv quad xi kappa psi 0) q = Fin th /\
    inverts (public_cdf (ss_ok xi kappa psi 0) (ss_cdf iv num lpmv quad xi kappa psi 0)) q th (2 / 10 ^ 12) (8 / 10 ^ 9).
Proof.
  intros Hok Hq Hk Hp. eexists. split; [apply ppf_public; assumption|]. pose proof (proj1 (ss_ok_spec _ _ _ _) Hok) as (Hx & Hk0 & _). rewrite Hok. pose proof PI_gt3.
  unfold ss_ppf. cbv zeta. rewrite (proj2 (Rltb_false kappa _)) by lra. rewrite Rabs_R0, (proj2 (Rltb_true 0 _)) by lra.
  unfold jp_ppf. rewrite clip_twice by exact Hq. cbv zeta. rewrite (proj2 (Rltb_false kappa _)), (proj2 (Rltb_false (Rabs psi) _)) by lra.
  apply (inverts_ext (public_cdf true (jp_cdf iv num lpmv quad (pymod xi (2 * PI)) kappa psi))); [|apply solve_inverts; exact Hq].
  intros x. rewrite !at_angle_pub. f_equal. apply at_angle_ext. intros y. rewrite ss_sym_cdf by assumption.
  destruct (pymod_xi xi Hx) as [E|[E E']]; [rewrite E; reflexivity|]. rewrite E', E. symmetry. apply jp_cdf_xi. exact Hp.
Qed.
