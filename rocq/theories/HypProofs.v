(** Lemmas about the one-sample tests of hypothesis.py. *)
From Verif Require Import Prelude NpModel NpProofs CircleSpec UtilsModel UtilsProofs
  DescModel DescProofs DescSpec DescApi DescApi2 Desc2Model Desc2Spec ArcProofs Desc3Proofs Desc6Proofs
  HypModel HypSpec.

(** ** Counting *)
Lemma counts_count_if {A} (P : A -> Prop) p l : (forall x, In x l -> (p x = true <-> P x)) -> counts P l (count_if p l).
Proof.
  intros H. exists (filter p l), (filter (fun x => negb (p x)) l). split; [|split; [|split]].
  - clear H. induction l as [|x l IH]; [constructor|]. simpl. destruct (p x); simpl.
    + constructor. exact IH.
    + rewrite IH at 1. apply Permutation_middle.
  - apply Forall_forall. intros x Hx. apply filter_In in Hx. apply H; tauto.
  - apply Forall_forall. intros x Hx. apply filter_In in Hx. destruct Hx as [Hx Hp].
    rewrite <- H by exact Hx. destruct (p x); [discriminate|congruence].
  - reflexivity.
Qed.
Lemma counts_inv {A} (P : A -> Prop) p l k : (forall x, In x l -> (p x = true <-> P x)) -> counts P l k -> k = count_if p l.
Proof.
  intros H (yes & no & HP & Hy & Hn & <-).
  rewrite (count_if_perm p _ _ HP), count_if_app.
  rewrite Forall_forall in Hy, Hn.
  assert (E1 : count_if p yes = length yes).
  { unfold count_if. f_equal. assert (Hy' : forall x, In x yes -> p x = true).
    { intros x Hx. apply H; auto. apply (Permutation_in _ (Permutation_sym HP)), in_or_app. auto. }
    clear - Hy'. induction yes as [|x l IH]; [reflexivity|]. simpl. rewrite Hy' by (left; auto).
    f_equal. apply IH. intros; apply Hy'; right; auto. }
  assert (E2 : count_if p no = 0%nat).
  { unfold count_if. assert (Hn' : forall x, In x no -> p x = false).
    { intros x Hx. destruct (p x) eqn:E; [|reflexivity]. exfalso. apply (Hn x Hx). apply H; auto.
      apply (Permutation_in _ (Permutation_sym HP)), in_or_app. auto. }
    clear - Hn'. induction no as [|x l IH]; [reflexivity|]. simpl. rewrite Hn' by (left; auto).
    apply IH. intros; apply Hn'; right; auto. }
  lia.
Qed.
Lemma count_if_neg {A} (p : A -> bool) l : (count_if p l + count_if (fun x => negb (p x)) l = length l)%nat.
Proof. unfold count_if. induction l as [|x l IH]; [reflexivity|]. simpl. destruct (p x); simpl; lia. Qed.
Lemma count_compl {A} (p : A -> bool) l : (length l - count_if p l = count_if (fun x => negb (p x)) l)%nat.
Proof. pose proof (count_if_neg p l). lia. Qed.

(** ** Rayleigh *)
Lemma sq_pos_arg n r : 0 <= n -> 0 <= r <= 1 -> 0 <= 1 + 4 * n + 4 * (n ^ 2 - (n * r) ^ 2).
Proof. intros. assert (0 <= n ^ 2 * (1 - r ^ 2)) by (apply Rmult_le_pos; nra). nra. Qed.
Lemma rayleigh_root n r : 0 < n -> 0 <= r <= 1 ->
  sqrt (1 + 4 * n + 4 * (n ^ 2 - (n * r) ^ 2)) <= 1 + 2 * n.
Proof.
  intros Hn Hr. rewrite <- (sqrt_square (1 + 2 * n)) by lra. apply sqrt_le_1; [apply sq_pos_arg; lra|nra|].
  assert (0 <= (n * r) ^ 2) by apply pow2_ge_0. nra.
Qed.
Lemma rayleigh_p_range n r : 0 < n -> 0 <= r <= 1 -> 0 < rayleigh_p n r <= 1.
Proof.
  intros Hn Hr. unfold rayleigh_p. split; [apply exp_pos|]. apply Rle_trans with (exp 0); [|rewrite exp_0; lra].
  pose proof (rayleigh_root n r Hn Hr).
  assert (E : sqrt (1 + 4 * n + 4 * (n ^ 2 - (n * r) ^ 2)) - (1 + 2 * n) <= 0) by lra.
  destruct E as [E|E]; [left; apply exp_increasing, E|right; now rewrite E].
Qed.
Lemma rayleigh_p_decr n r r' : 0 < n -> 0 <= r -> r < r' -> r' <= 1 -> rayleigh_p n r' < rayleigh_p n r.
Proof.
  intros Hn Hr Hlt Hr'. unfold rayleigh_p. apply exp_increasing. apply Rplus_lt_compat_r.
  apply sqrt_lt_1; [apply sq_pos_arg; lra|apply sq_pos_arg; lra|].
  assert ((n * r) ^ 2 < (n * r') ^ 2).
  { rewrite !Rpow_mult_distr. apply Rmult_lt_compat_l; [nra|nra]. } lra.
Qed.
Lemma rayleigh_p_0 n : 0 < n -> rayleigh_p n 0 = 1.
Proof.
  intros Hn. unfold rayleigh_p. replace (1 + 4 * n + 4 * (n ^ 2 - (n * 0) ^ 2)) with ((1 + 2 * n) * (1 + 2 * n)) by ring.
  rewrite sqrt_square by lra. rewrite Rminus_diag_eq by reflexivity. apply exp_0.
Qed.
Lemma rayleigh_p_1 n r : 0 < n -> 0 <= r <= 1 -> (rayleigh_p n r = 1 <-> r = 0).
Proof.
  intros Hn Hr. split; [|intros ->; apply rayleigh_p_0, Hn]. intros H.
  destruct (Req_dec r 0) as [E|E]; [exact E|]. exfalso.
  pose proof (rayleigh_p_decr n 0 r Hn ltac:(lra) ltac:(lra) ltac:(lra)).
  rewrite rayleigh_p_0 in H0 by exact Hn. lra.
Qed.
Lemma rayleigh_p_n n n' r : 0 < n -> n <= n' -> 0 <= r <= 1 -> rayleigh_p n' r <= rayleigh_p n r.
Proof.
  intros Hn Hle Hr. unfold rayleigh_p.
  assert (E : sqrt (1 + 4 * n' + 4 * (n' ^ 2 - (n' * r) ^ 2)) - (1 + 2 * n')
              <= sqrt (1 + 4 * n + 4 * (n ^ 2 - (n * r) ^ 2)) - (1 + 2 * n)).
  { set (a := sqrt (1 + 4 * n + 4 * (n ^ 2 - (n * r) ^ 2))).
    assert (Ha : 0 <= a) by apply sqrt_pos.
    assert (Ha2 : a * a = 1 + 4 * n + 4 * (n ^ 2 - (n * r) ^ 2)).
    { apply sqrt_sqrt, sq_pos_arg; lra. }
    assert (sqrt (1 + 4 * n' + 4 * (n' ^ 2 - (n' * r) ^ 2)) <= a + 2 * (n' - n)); [|lra].
    rewrite <- (sqrt_square (a + 2 * (n' - n))) by lra.
    apply sqrt_le_1; [apply sq_pos_arg; lra|nra|].
    (* a >= 1 + 2 n (1 - r^2) *)
    assert (Hs : 0 <= 1 - r ^ 2 <= 1) by nra.
    assert (Hb : 1 + 2 * n * (1 - r ^ 2) <= a).
    { apply Rsqr_incr_0; [|nra|exact Ha]. unfold Rsqr. rewrite Ha2.
      assert (0 <= n * (1 - r ^ 2)) by nra. assert (0 <= n * r ^ 2) by nra.
      assert (0 <= n ^ 2 * (1 - r ^ 2) * r ^ 2) by (apply Rmult_le_pos; [apply Rmult_le_pos; nra|nra]). nra. }
    set (d := n' - n) in *. assert (Hd : 0 <= d) by (unfold d; lra).
    replace n' with (n + d) by (unfold d; ring).
    assert (0 <= d * (a - (1 + 2 * n * (1 - r ^ 2)))) by (apply Rmult_le_pos; lra).
    assert (0 <= d ^ 2 * r ^ 2) by (apply Rmult_le_pos; nra).
    nra. }
  destruct E as [E|E]; [left; apply exp_increasing, E|right; now rewrite E].
Qed.

Lemma rayleigh_given r n B draws alpha w : (0 < B)%Z -> (0 < n)%Z -> 0 <= r <= 1 ->
  exists t, rayleigh_test alpha w (Some r) (Some n) B draws = Ok t /\
    ray_r t = r /\ ray_z t = IZR n * r ^ 2 /\ ray_pval t = rayleigh_p (IZR n) r.
Proof.
  intros HB Hn Hr. unfold rayleigh_test.
  destruct (Z.leb_spec B 0); [lia|]. cbn [bind snd fst].
  destruct (Z.leb_spec n 0); [lia|].
  destruct (Rleb_spec 0 r); [|lra]. destruct (Rleb_spec r 1); [|lra]. cbn [andb negb].
  eexists. split; [reflexivity|]. cbn. auto.
Qed.
Lemma rayleigh_valid n r B draws : (0 < n)%Z -> 0 <= r <= 1 -> (0 < B)%Z ->
  exists t, rayleigh_test None None (Some r) (Some n) B draws = Ok t /\
    ray_r t = r /\ ray_z t = IZR n * r ^ 2 /\ 0 < ray_pval t <= 1 /\ (ray_pval t = 1 <-> r = 0).
Proof.
  intros Hn Hr HB. destruct (rayleigh_given r n B draws None None HB Hn Hr) as (t & E & E1 & E2 & E3).
  apply IZR_lt in Hn. exists t. rewrite E3. repeat split; auto; try apply rayleigh_p_range; auto;
    apply rayleigh_p_1; auto.
Qed.
Lemma rayleigh_monotone n n' r r' B draws draws' t t' : (0 < n)%Z -> (n <= n')%Z -> 0 <= r -> r <= r' -> r' <= 1 ->
  rayleigh_test None None (Some r) (Some n) B draws = Ok t ->
  rayleigh_test None None (Some r') (Some n') B draws' = Ok t' ->
  ray_pval t' <= ray_pval t /\ (r < r' -> ray_pval t' < ray_pval t).
Proof.
  intros Hn Hn' Hr Hrr Hr' E E'.
  assert (HB : (0 < B)%Z).
  { destruct (Z.leb_spec B 0); [|lia]. unfold rayleigh_test in E. rewrite (proj2 (Z.leb_le B 0)) in E by lia. discriminate. }
  destruct (rayleigh_given r n B draws None None HB Hn ltac:(lra)) as (u & F & _ & _ & Fp).
  destruct (rayleigh_given r' n' B draws' None None HB ltac:(lia) ltac:(lra)) as (u' & F' & _ & _ & Fp').
  rewrite E in F. injection F as ->. rewrite E' in F'. injection F' as ->. rewrite Fp, Fp'.
  apply IZR_lt in Hn. apply IZR_le in Hn'.
  assert (H1 : rayleigh_p (IZR n') r' <= rayleigh_p (IZR n) r') by (apply rayleigh_p_n; lra).
  split.
  - destruct (Req_dec r r') as [->|Hne]; [exact H1|].
    pose proof (rayleigh_p_decr (IZR n) r r' Hn Hr ltac:(lra) Hr'). lra.
  - intros Hlt. pose proof (rayleigh_p_decr (IZR n) r r' Hn Hr Hlt Hr'). lra.
Qed.
Lemma rayleigh_errors alpha w r n B draws :
  ((B <= 0)%Z \/ (match n with None => True | Some k => (k <= 0)%Z end) \/ ~ 0 <= r <= 1)
  <-> rayleigh_test alpha w (Some r) n B draws = Err ValueError.
Proof.
  unfold rayleigh_test. destruct (Z.leb_spec B 0) as [HB|HB]; [tauto|].
  cbn [bind snd fst]. destruct n as [n|]; [|tauto].
  destruct (Z.leb_spec n 0) as [Hn|Hn]; [tauto|].
  destruct (Rleb_spec 0 r); destruct (Rleb_spec r 1); cbn [andb negb].
  - split; [|discriminate]. intros [?|[?|?]]; [lia|lia|lra].
  - split; auto. intros _. right; right; lra.
  - split; auto. intros _. right; right; lra.
  - split; auto. intros _. right; right; lra.
Qed.

(** Called with a sample of frequencies. *)
Lemma rint_IZR k : rint (IZR k) = k.
Proof.
  unfold rint. rewrite Rfloor_IZR. destruct (Rltb_spec (IZR k - IZR k) (1/2)); [reflexivity|lra].
Qed.
Lemma isclose_refl x : isclose x x = true.
Proof.
  unfold isclose, isclose_tol. apply Rleb_true. rewrite Rminus_diag_eq, Rabs_R0 by reflexivity.
  pose proof (Rabs_pos x). lra.
Qed.
Lemma sample_args_ok alpha w : valid_sample alpha w ->
  sample_args (Some alpha) w = Ok (alpha, eff_weights alpha w).
Proof.
  intros H. unfold sample_args. destruct H as [H0 H1].
  destruct (Nat.eqb_spec (length alpha) 0) as [E|_]; [destruct alpha; [congruence|discriminate]|].
  rewrite weights_eff. rewrite (eff_length alpha w (conj H0 H1)). rewrite Nat.eqb_refl. reflexivity.
Qed.
Lemma circ_r_eff alpha w : circ_r alpha (Some (eff_weights alpha w)) = circ_r alpha w.
Proof. unfold circ_r. cbn [weights]. now rewrite weights_eff. Qed.
Lemma circ_mean_and_r_eff alpha w : circ_mean_and_r alpha (Some (eff_weights alpha w)) = circ_mean_and_r alpha w.
Proof. unfold circ_mean_and_r. cbn [weights]. now rewrite weights_eff. Qed.
Lemma sample_size_Rsum alpha w : valid_sample alpha w -> sample_size alpha w = Rsum (eff_weights alpha w).
Proof. intros H. rewrite sample_size_eq. apply wtotal_smp, eff_length, H. Qed.

Lemma rayleigh_sample alpha w k n B draws : valid_sample alpha w -> sample_size alpha w = IZR k ->
  rayleigh_test (Some alpha) w None n B draws =
  rayleigh_test None None (Some (circ_r alpha w)) (Some k) B draws.
Proof.
  intros Hv Hk. unfold rayleigh_test. rewrite (sample_args_ok _ _ Hv). cbn [bind fst snd].
  pose proof (eff_total _ _ Hv) as Hp. rewrite <- (sample_size_Rsum _ _ Hv), Hk in *.
  destruct (Rleb_spec (IZR k) 0); [lra|]. rewrite rint_IZR, isclose_refl, circ_r_eff. reflexivity.
Qed.
Lemma rayleigh_sample_z alpha w k n B draws : valid_sample alpha w -> sample_size alpha w = IZR k -> (0 < B)%Z ->
  exists t, rayleigh_test (Some alpha) w None n B draws = Ok t /\ ray_r t = circ_r alpha w /\
    ray_z t = (sample_sum cos alpha w ^ 2 + sample_sum sin alpha w ^ 2) / sample_size alpha w.
Proof.
  intros Hv Hk HB. rewrite (rayleigh_sample alpha w k n B draws Hv Hk).
  pose proof (eff_total _ _ Hv) as Hp. rewrite <- (sample_size_Rsum _ _ Hv), Hk in Hp.
  destruct (rayleigh_given (circ_r alpha w) k B draws None None HB (lt_IZR 0 k Hp) (circ_r_range _ _ Hv))
    as (t & E & E1 & E2 & E3).
  exists t. split; [exact E|]. split; [exact E1|]. rewrite E2.
  unfold circ_r. fold (smp alpha w). rewrite circ_r_s_eq by (apply smp_pos, Hv).
  rewrite <- sample_size_eq, Hk. rewrite !sample_sum_eq. fold (Csum (smp alpha w)) (Ssum (smp alpha w)).
  pose proof (Rlen_sqr (smp alpha w)) as HR.
  replace (IZR k * (Rlen (smp alpha w) / IZR k) ^ 2) with ((Rlen (smp alpha w) * Rlen (smp alpha w)) / IZR k)
    by (field; lra).
  rewrite HR. field. lra.
Qed.
Lemma rayleigh_sample_fraction alpha w n B draws : valid_sample alpha w -> (0 < B)%Z ->
  (forall k : Z, / 100000 * Rabs (IZR k) + / 100000000 < Rabs (sample_size alpha w - IZR k)) ->
  rayleigh_test (Some alpha) w None n B draws = Err ValueError.
Proof.
  intros Hv HB Hk. unfold rayleigh_test. destruct (Z.leb_spec B 0); [lia|].
  rewrite (sample_args_ok _ _ Hv). cbn [bind fst snd].
  rewrite <- (sample_size_Rsum _ _ Hv).
  destruct (Rleb_spec (sample_size alpha w) 0); [reflexivity|].
  assert (E : isclose (sample_size alpha w) (IZR (rint (sample_size alpha w))) = false).
  { unfold isclose, isclose_tol. apply Rleb_false. specialize (Hk (rint (sample_size alpha w))). lra. }
  rewrite E. reflexivity.
Qed.
