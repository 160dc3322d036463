From Verif Require Import Prelude NpModel NpProofs CircleSpec UtilsModel UtilsProofs DescModel DescProofs
  DescSpec DescApi Desc2Model ArcProofs Desc8Proofs HypModel HypProofs JpEx BaseModel BaseSpec BaseProofs Base2Proofs.
Open Scope string_scope.
Open Scope R_scope.

Lemma proj_le s t : Rsum (map (fun x => snd x * cos (fst x - t)) s) <= Rlen s.
Proof.
  rewrite <- proj_eq. destruct (Rlen_polar s) as [E1 E2]. set (u := arctan2 (Ssum s) (Csum s)) in *.
  rewrite E1, E2. replace (Rlen s * cos u * cos t + Rlen s * sin u * sin t) with (Rlen s * cos (u - t)) by (rewrite cos_minus; ring).
  pose proof (Rlen_nonneg s). pose proof (COS_bound (u - t)). nra.
Qed.
Lemma hsum_near (g : R -> R) k alpha : (1 <= k)%nat -> (forall x y, Rabs (g x - g y) <= Rabs (x - y)) ->
  Forall (fun a => 0 <= a <= 2 * PI) alpha ->
  Rabs (hsum g alpha (even_edges k) - Rsum (map g alpha)) <= INR (length alpha) * (PI / INR k).
Proof.
  intros Hk Hg. assert (P : 0 < INR k) by (apply lt_0_INR; lia). pose proof PI_RGT_0.
  induction alpha as [|a t IH]; intros F.
  - rewrite hsum_nil. cbn. rewrite Rminus_0_r, Rabs_R0. lra.
  - inversion F as [|? ? Fa Ft]; subst. specialize (IH Ft). rewrite hsum_cons. cbn [map]. rewrite Rsum_cons.
    destruct (hsum_inside a (even_edges k)) as (lo & hi & I1 & B1 & F1).
    { apply even_inc; auto. } { rewrite even_len; lia. } { rewrite even_hd, even_last by auto. lra. }
    rewrite F1. replace (INR (length (a :: t))) with (INR (length t) + 1) by (symmetry; apply S_INR).
    assert (W : hi - lo = 2 * PI / INR k).
    { rewrite even_pairs in I1. apply in_map_iff in I1. destruct I1 as (i & E & _).
      pose proof (f_equal fst E) as X1. pose proof (f_equal snd E) as X2. cbn [fst snd] in X1, X2. rewrite <- X1, <- X2, S_INR. ring. }
    assert (D : Rabs (g (/ 2 * (lo + hi)) - g a) <= PI / INR k).
    { eapply Rle_trans; [apply Hg|]. replace (PI / INR k) with ((hi - lo) / 2) by (rewrite W; field; lra).
      unfold Rabs. destruct (Rcase_abs _); lra. }
    replace (g (/ 2 * (lo + hi)) + hsum g t (even_edges k) - (g a + Rsum (map g t)))
      with ((g (/ 2 * (lo + hi)) - g a) + (hsum g t (even_edges k) - Rsum (map g t))) by ring.
    eapply Rle_trans; [apply Rabs_triang|]. lra.
Qed.
Lemma count_all {A} (p : A -> bool) l : (forall x, In x l -> p x = true) -> count_if p l = length l.
Proof.
  unfold count_if. induction l as [|x t IH]; intros H; [reflexivity|]. cbn [filter]. rewrite (H x (or_introl eq_refl)).
  cbn [List.length]. rewrite IH; [reflexivity|]. intros y Hy. apply H. now right.
Qed.
Lemma even_total_all k alpha : (1 <= k)%nat -> Forall (fun a => 0 <= a <= 2 * PI) alpha ->
  Rsum (hist_counts alpha (even_edges k)) = INR (length alpha).
Proof.
  intros Hk F. rewrite even_total by auto. f_equal. apply count_all. intros a Ha. rewrite Forall_forall in F.
  specialize (F a Ha). destruct (Rleb_spec 0 a); [|lra]. destruct (Rleb_spec a (2 * PI)); [|lra]. reflexivity.
Qed.
Lemma combine_snd : forall (l m : list R), length l = length m -> map snd (combine l m) = m.
Proof. induction l as [|x t IH]; intros [|y u]; cbn; try discriminate; [reflexivity|]. intros E. rewrite IH by lia. reflexivity. Qed.
(** Grouping into k equal bins changes the resultant length by at most pi / k. *)
Lemma binned_r k alpha : (1 <= k)%nat -> alpha <> [] -> Forall (fun a => 0 <= a <= 2 * PI) alpha ->
  Rabs (circ_r (centers (even_edges k)) (Some (hist_counts alpha (even_edges k))) - circ_r alpha None) <= PI / INR k.
Proof.
  intros Hk Hn F. set (e := even_edges k). set (s' := combine (centers e) (hist_counts alpha e)).
  set (s := combine alpha (ones alpha)).
  assert (N : 0 < INR (length alpha)) by (destruct alpha; [congruence|apply lt_0_INR; cbn; lia]).
  destruct (ones_sums alpha) as (O1 & O2 & O3).
  assert (T' : wtotal s' = INR (length alpha)).
  { unfold wtotal, s'. rewrite combine_snd by (symmetry; apply hist_len). apply even_total_all; auto. }
  assert (T : wtotal s = INR (length alpha)) by exact O3.
  unfold circ_r. cbn [weights]. fold s s'. rewrite !circ_r_s_eq by (rewrite ?T, ?T'; lra). rewrite T, T'.
  assert (L : forall t x y, Rabs (cos (x - t) - cos (y - t)) <= Rabs (x - y)).
  { intros t x y. eapply Rle_trans; [apply cos_lip|]. replace (x - t - (y - t)) with (x - y) by ring. lra. }
  assert (PR : forall t, Rsum (map (fun x => snd x * cos (fst x - t)) s) = Rsum (map (fun a => cos (a - t)) alpha)).
  { intros t. unfold s, ones. clear. induction alpha as [|a u IH]; [reflexivity|]. cbn [map combine]. rewrite !Rsum_cons, IH. cbn. ring. }
  assert (B : Rabs (Rlen s' - Rlen s) <= INR (length alpha) * (PI / INR k)).
  { apply Rabs_le. split.
    - rewrite (Rlen_proj s). set (u := arctan2 (Ssum s) (Csum s)). pose proof (proj_le s' u) as Q.
      pose proof (hsum_near (fun a => cos (a - u)) k alpha Hk (L u) F) as H. rewrite PR.
      change (Rsum (map (fun x => snd x * cos (fst x - u)) s')) with (hsum (fun a => cos (a - u)) alpha e) in Q.
      fold e in H. unfold Rabs in H. destruct (Rcase_abs _); lra.
    - rewrite (Rlen_proj s'). set (u := arctan2 (Ssum s') (Csum s')). pose proof (proj_le s u) as Q.
      pose proof (hsum_near (fun a => cos (a - u)) k alpha Hk (L u) F) as H. rewrite PR in Q.
      change (Rsum (map (fun x => snd x * cos (fst x - u)) s')) with (hsum (fun a => cos (a - u)) alpha e).
      fold e in H. unfold Rabs in H. destruct (Rcase_abs _); lra. }
  replace (Rlen s' / INR (length alpha) - Rlen s / INR (length alpha)) with ((Rlen s' - Rlen s) / INR (length alpha)) by (field; lra).
  unfold Rdiv. rewrite Rabs_mult, (Rabs_pos_eq (/ INR (length alpha))) by (left; apply Rinv_0_lt_compat; lra).
  apply (Rmult_le_reg_r (INR (length alpha))); [lra|]. rewrite Rmult_assoc, Rinv_l, Rmult_1_r by lra. 
  unfold Rdiv in B. lra.
Qed.
Lemma trunc_INR n : trunc (INR n) = Z.of_nat n.
Proof.
  unfold trunc. pose proof (pos_INR n). destruct (Rltb_spec (INR n) 0); [lra|]. rewrite INR_IZR_INZ. apply Rfloor_IZR.
Qed.
Lemma trunc_IZR n : (0 <= n)%Z -> trunc (IZR n) = n.
Proof. intros H. unfold trunc. apply IZR_le in H. destruct (Rltb_spec (IZR n) 0); [lra|]. apply Rfloor_IZR. Qed.
Lemma trunc_le x : 0 <= x -> IZR (trunc x) <= x.
Proof. intros H. unfold trunc. destruct (Rltb_spec x 0); [lra|]. apply Rfloor_spec. Qed.

(** * The dispersion interval always exists for a significant sample of 25 or more *)
Lemma rayleigh_big n r : 25 <= n -> 0 <= r <= 1 -> rayleigh_p n r < 5/100 -> 248/100 <= n * r ^ 2.
Proof.
  intros Hn Hr Hp. unfold rayleigh_p in Hp.
  set (A := 1 + 2 * n) in *. set (q := sqrt (1 + 4 * n + 4 * (n ^ 2 - (n * r) ^ 2))) in *.
  assert (Q0 : 0 <= q) by apply sqrt_pos.
  assert (r ^ 2 <= 1) by nra. 
  assert (Qq : q * q = A * A - 4 * (n * n) * r ^ 2).
  { unfold q. rewrite sqrt_sqrt; [unfold A; ring|]. replace (n ^ 2 - (n * r) ^ 2) with (n * n * (1 - r ^ 2)) by ring.
    assert (0 <= n * n * (1 - r ^ 2)) by (apply Rmult_le_pos; nra). lra. }
  assert (X : 5/2 < A - q).
  { destruct (Rlt_le_dec (5/2) (A - q)) as [|Nx]; auto. exfalso.
    assert (exp (- (5/2)) <= exp (q - A)) by (destruct (Req_dec (- (5/2)) (q - A)) as [->|]; [lra|left; apply exp_increasing; lra]).
    assert (E2 : exp (5/2) <= 16).
    { pose proof exp_le_3 as E3. assert (E5 : exp (5/2) * exp (5/2) = exp 1 * exp 1 * exp 1 * exp 1 * exp 1).
      { rewrite <- !exp_plus. f_equal. lra. }
      pose proof (exp_pos 1). pose proof (exp_pos (5/2)).
      assert (exp 1 * exp 1 <= 9) by nra. assert (exp 1 * exp 1 * exp 1 <= 27) by nra.
      assert (exp 1 * exp 1 * exp 1 * exp 1 <= 81) by nra. assert (exp 1 * exp 1 * exp 1 * exp 1 * exp 1 <= 243) by nra.
      nra. }
    rewrite exp_Ropp in H0. assert (/ 16 <= / exp (5/2)) by (apply Rinv_le_contravar; [apply exp_pos|lra]). lra. }
  (* 4 n (n r^2) = x (2 A - x) with x = A - q *)
  assert (E : 4 * n * (n * r ^ 2) = (A - q) * (2 * A - (A - q))) by nra.
  assert (A - q <= A) by lra.
  assert (5/2 * (2 * A - 5/2) <= (A - q) * (2 * A - (A - q))).
  { set (x := A - q) in *. assert (0 <= (x - 5/2) * (2 * A - x - 5/2)) by (apply Rmult_le_pos; [lra|unfold A in *; lra]). nra. }
  assert (F : 5/2 * (4 * n - 1/2) <= 4 * n * (n * r ^ 2)) by (unfold A in *; nra).
  assert (G : 0 <= n * r ^ 2) by (apply Rmult_le_pos; nra). nra.
Qed.
Lemma dispersion_ok alpha w m z n : valid_sample alpha (Some w) -> 0 < z <= 2 -> 25 <= n <= Rsum w ->
  rayleigh_p n (circ_r alpha (Some w)) < 5/100 ->
  exists lb ub, ci_dispersion (combine alpha w) m z = Ok (Some (lb, ub)).
Proof.
  intros Hv Hz Hn Hp. pose proof (circ_r_range _ _ Hv) as Rr. pose proof (rayleigh_big _ _ (proj1 Hn) Rr Hp) as Z.
  set (s := combine alpha w). assert (Er : circ_r alpha (Some w) = circ_r_s s) by reflexivity. rewrite Er in *.
  pose proof Hv as Hv0. destruct Hv as (Ha & Hl & Hw & Ht).
  assert (W : wtotal s = Rsum w) by (unfold wtotal, s; rewrite combine_snd by (symmetry; exact Hl); reflexivity).
  unfold ci_dispersion. rewrite W. destruct (Rltb_spec (Rsum w) 25); [lra|].
  set (r := circ_r_s s) in *.
  assert (r <> 0) by (intros E; rewrite E in Z; replace (n * 0 ^ 2) with 0 in Z by ring; lra).
  destruct (Reqb_spec r 0); [contradiction|].
  assert (Hr0 : 0 < r) by lra.
  assert (Dn : 0 <= circ_dispersion s <= 1 / (2 * r ^ 2)).
  { destruct (dispersion_api alpha (Some w) Hv0 Hr0) as (E1 & E2). change (smp alpha (Some w)) with s in *. split; [exact E2|].
    rewrite E1, Er. pose proof (circ_r_range _ _ (valid_map (fun a => 2 * a) _ _ Hv0)) as D.
    assert (I : 0 < / (2 * r ^ 2)) by (apply Rinv_0_lt_compat; nra). unfold Rdiv. fold r. nra. }
  set (D := circ_dispersion s) in *.
  assert (Q : 0 <= D / Rsum w <= 202/1000).
  { split; [apply Rmult_le_pos; [lra|left; apply Rinv_0_lt_compat; lra]|].
    apply (Rmult_le_reg_r (Rsum w)); [lra|]. unfold Rdiv at 1. rewrite Rmult_assoc, Rinv_l, Rmult_1_r by lra.
    assert (1 / (2 * r ^ 2) <= 202/1000 * n).
    { apply (Rmult_le_reg_r (2 * r ^ 2)); [nra|]. unfold Rdiv at 1. rewrite Rmult_assoc, Rinv_l, Rmult_1_r by nra. nra. }
    nra. }
  destruct (Rltb_spec (D / Rsum w) 0); [lra|].
  assert (S : 0 <= sqrt (D / Rsum w) <= 45/100).
  { split; [apply sqrt_pos|]. rewrite <- (sqrt_square (45/100)) by lra. apply sqrt_le_1_alt. lra. }
  set (q := sqrt (D / Rsum w)) in *. assert (0 <= q * z <= 9/10) by nra.
  destruct (Rleb_spec 1 (q * z)); [lra|]. destruct (Rltb_spec (q * z) (-1)); [lra|].
  destruct (orient _ _ _) as [lb ub]. eauto.
Qed.
