(** The caches of the inverse Batschelet distribution: what history changes and what it does not. *)
From Verif Require Import Prelude NpModel NpProofs CircleSpec IntSpec IntProofs DistModel DistSpec DistProofs Dist2Proofs Dist4Proofs Dist5Proofs
  Dist6Proofs Dist7Proofs KjProofs Kj2Proofs VonModel VonSpec VonProofs Von3Proofs Von4Proofs JpProofs Jp3Proofs Wn3Proofs Wn6Proofs Ws3Proofs GaussProofs Von6Proofs Jp5Proofs
  FtModel FtSpec FtProofs Ft2Proofs Ft3Proofs Ft4Proofs Ft5Proofs Ft7Proofs Ft8Proofs IbModel IbProofs Ib2Proofs Ib3Proofs Ib4Proofs.

(** ** Dictionaries *)
Lemma key_eqb_true a : forall b, key_eqb a b = true <-> a = b.
Proof.
  induction a as [|x a IH]; intros [|y b]; cbn; try (split; [discriminate|congruence]); [tauto|].
  rewrite Bool.andb_true_iff, IH. unfold Reqb. destruct (Req_EM_T x y) as [E|E]; split; try (intros [? ?]); try (intros E2; injection E2); intros; subst; try tauto; try discriminate; try congruence.
Qed.
Lemma key_eqb_refl a : key_eqb a a = true. Proof. apply key_eqb_true. reflexivity. Qed.
Lemma key_eqb_false a b : a <> b -> key_eqb a b = false.
Proof. intros N. destruct (key_eqb a b) eqn:E; [|reflexivity]. apply key_eqb_true in E. contradiction. Qed.
Lemma get_hit {V} k (v : V) d : dict_get k ((k, v) :: d) = Some v.
Proof. unfold dict_get. cbn. rewrite key_eqb_refl. reflexivity. Qed.
Lemma get_miss {V} k k' (v : V) d : k <> k' -> dict_get k ((k', v) :: d) = dict_get k d.
Proof. intros N. unfold dict_get. cbn. rewrite key_eqb_false by congruence. reflexivity. Qed.
Lemma cache_key_inj p q k : cache_key p = Some k -> cache_key q = Some k -> p = q.
Proof.
  revert q k. induction p as [|x p IH]; intros q k Hp Hq; cbn in Hp.
  - injection Hp as <-. destruct q as [|[|a [|b r]] q]; cbn in Hq; try discriminate; [reflexivity|]. destruct (cache_key q); discriminate.
  - destruct x as [|a [|b r]]; try discriminate. destruct (cache_key p) as [kp|] eqn:Ep; [|discriminate]. injection Hp as <-.
    destruct q as [|[|a' [|b' r']] q]; cbn in Hq; try discriminate. destruct (cache_key q) as [kq|] eqn:Eq; [|discriminate]. injection Hq as <- ->.
    rewrite (IH q kp eq_refl Eq). reflexivity.
Qed.
(** A cache filled through [get_cached] only. *)
Lemma cached_right {V} (f : list (list R) -> V) (ps : list (list (list R))) p :
  fst (get_cached (fun _ => f p) p (fold_left (fun d q => snd (get_cached (fun _ => f q) q d)) ps [])) = f p.
Proof.
  assert (G : forall ps d, (forall q k v, cache_key q = Some k -> dict_get k d = Some v -> v = f q) ->
    forall q k v, cache_key q = Some k -> dict_get k (fold_left (fun d q => snd (get_cached (fun _ => f q) q d)) ps d) = Some v -> v = f q).
  { clear. induction ps as [|q0 ps IH]; intros d Hd; [exact Hd|]. cbn [fold_left]. apply IH. intros q k v Hq. unfold get_cached.
    destruct (cache_key q0) as [k0|] eqn:E0; cbn [snd]; [|apply Hd; exact Hq]. destruct (dict_get k0 d) as [w|] eqn:E1; cbn [snd]; [apply Hd; exact Hq|].
    destruct (list_eq_dec Req_EM_T k k0) as [->|N].
    - rewrite get_hit. intros X. injection X as <-. rewrite (cache_key_inj _ _ _ Hq E0). reflexivity.
    - rewrite get_miss by exact N. apply Hd, Hq. }
  specialize (G ps [] ltac:(intros q k v _ X; discriminate X)). unfold get_cached at 1. destruct (cache_key p) as [k|] eqn:E; [|reflexivity].
  destruct (dict_get k _) as [v|] eqn:E1; [|reflexivity]. exact (G p k v E E1).
Qed.

(** ** Histories that leave a constant alone *)
(** The cache holds nothing or the computed constant for (k, lam). *)
Definition key_right iv k lam (st : ib_state) : Prop := forall c, dict_get [k; lam] (norms st) = Some c -> c = ib_c iv k lam.
Lemma cached_key_right iv k lam k' lam' st : key_right iv k lam st ->
  key_right iv k lam {| norms := snd (get_cached (fun _ => ib_c iv k' lam') [[k']; [lam']] (norms st)); tables := tables st |}.
Proof.
  intros H c. cbn [norms]. unfold get_cached. cbn [cache_key]. destruct (dict_get [k'; lam'] (norms st)) eqn:E; cbn [snd]; [apply H|].
  destruct (list_eq_dec Req_EM_T [k; lam] [k'; lam']) as [X|N].
  - injection X as -> ->. rewrite get_hit. intros Y. injection Y as <-. reflexivity.
  - rewrite get_miss by exact N. apply H.
Qed.
Lemma norm_key_right iv k lam k' lam' st : key_right iv k lam st -> key_right iv k lam (snd (ib_norm iv k' lam' st)).
Proof.
  intros H. unfold ib_norm. pose proof (cached_key_right iv k lam k' lam' st H) as X. destruct (get_cached _ _ _) as [c d]. exact X.
Qed.
Lemma pdf_key_right iv root k lam xi' k' nu' lam' x' st : key_right iv k lam st -> key_right iv k lam (snd (ib_public_pdf iv root xi' k' nu' lam' x' st)).
Proof.
  intros H. unfold ib_public_pdf. destruct (ib_ok xi' k' nu' lam'); [|exact H]. unfold ib_pdf. cbv zeta. destruct (Rleb (clip k' 0 ib_kmax) ib_ktol); [exact H|].
  pose proof (norm_key_right iv k lam (clip k' 0 ib_kmax) lam' st H) as X. destruct (ib_norm _ _ _ _) as [[c| | |] st']; exact X.
Qed.
Lemma set_key_right iv k lam k' lam' c st : [k'; lam'] <> [k; lam] -> key_right iv k lam st -> key_right iv k lam (ib_set_norm k' lam' c st).
Proof. intros N H c'. unfold ib_set_norm. cbn [norms]. rewrite get_miss by congruence. apply H. Qed.
Lemma table_key_right iv root k lam k' nu' lam' st : [k'; lam'] <> [k; lam] -> key_right iv k lam st -> key_right iv k lam (snd (ib_get_table iv root k' nu' lam' st)).
Proof.
  intros N H. unfold ib_get_table. destruct (dict_get [k'; nu'; lam'] (tables st)); [exact H|].
  assert (B : key_right iv k lam (snd (ib_build iv root k' nu' lam' st))).
  { unfold ib_build. cbv zeta. assert (T : key_right iv k lam (snd (ib_table_norm iv k' lam' st))).
    { unfold ib_table_norm. pose proof (cached_key_right iv k lam k' lam' st H) as X. destruct (get_cached _ _ _) as [c d]. cbn [snd] in X. destruct (usable c); [exact X|]. apply set_key_right; assumption. }
    destruct (ib_table_norm iv k' lam' st) as [[c| | |] st']; cbn [snd] in *; try exact T.
    destruct (Rleb _ 0); [exact T|]. destruct (Rltb _ _); [apply set_key_right; assumption|exact T]. }
  destruct (ib_build iv root k' nu' lam' st) as [[t|] st']; exact B.
Qed.
Lemma clip_twice k : clip (clip k 0 ib_kmax) 0 ib_kmax = clip k 0 ib_kmax.
Proof. assert (0 <= ib_kmax) by (unfold ib_kmax; lra). apply clip_in. apply clip_range; assumption. Qed.
(** A call does not build a table for the pair (k, lam). *)
Definition spares (k lam : R) (c : ib_call) : Prop :=
  match c with CallPdf _ _ _ _ _ => True | CallCdf _ k' _ lam' _ | CallPpf _ k' _ lam' _ => [clip k' 0 ib_kmax; lam'] <> [k; lam] end.
Lemma run_key_right iv root pchip guess k lam c st : spares k lam c -> key_right iv k lam st -> key_right iv k lam (snd (ib_run iv root pchip guess c st)).
Proof.
  intros S H. destruct c as [xi k' nu lam' x|xi k' nu lam' x|xi k' nu lam' q]; cbn [ib_run spares] in *.
  - apply pdf_key_right, H.
  - unfold ib_public_cdf. cbv zeta. destruct (ib_ok _ _ _ _); [cbn [negb]|exact H]. destruct (Rleb _ _); [exact H|]. destruct (Rltb _ _); [|exact H].
    unfold ib_cdf. rewrite clip_twice. cbv zeta. pose proof (table_key_right iv root k lam (clip k' 0 ib_kmax) nu lam' st S H) as X.
    destruct (Rleb (clip k' 0 ib_kmax) ib_ktol); [exact H|]. destruct (ib_get_table _ _ _ _ _ _) as [[t|] st']; exact X.
  - unfold ib_public_ppf. cbv zeta. destruct (ib_ok _ _ _ _); [cbn [negb]|exact H]. destruct (_ && _)%bool; [|exact H].
    unfold ib_ppf. rewrite clip_twice. cbv zeta. pose proof (table_key_right iv root k lam (clip k' 0 ib_kmax) nu lam' st S H) as X.
    destruct (Rleb (clip k' 0 ib_kmax) ib_ktol); [exact H|]. destruct (ib_get_table _ _ _ _ _ _) as [[t|] st']; exact X.
Qed.
Lemma after_key_right iv root pchip guess k lam cs : Forall (spares k lam) cs -> key_right iv k lam (ib_after iv root pchip guess cs).
Proof.
  unfold ib_after. assert (G : forall cs st, Forall (spares k lam) cs -> key_right iv k lam st -> key_right iv k lam (fold_left (fun st c => snd (ib_run iv root pchip guess c st)) cs st)).
  { clear. induction cs as [|c cs IH]; intros st F H; [exact H|]. inversion F; subst. cbn [fold_left]. apply IH; [assumption|]. apply run_key_right; assumption. }
  intros F. apply G; [exact F|]. intros c X. discriminate X.
Qed.
Lemma pdf_same iv root xi kappa nu lam x st1 st2 : key_right iv (clip kappa 0 ib_kmax) lam st1 -> key_right iv (clip kappa 0 ib_kmax) lam st2 ->
  fst (ib_public_pdf iv root xi kappa nu lam x st1) = fst (ib_public_pdf iv root xi kappa nu lam x st2).
Proof.
  intros H1 H2. unfold ib_public_pdf. destruct (ib_ok xi kappa nu lam); [|reflexivity]. unfold ib_pdf. cbv zeta. set (k := clip kappa 0 ib_kmax) in *.
  destruct (Rleb k ib_ktol); [reflexivity|].
  assert (E : forall st, key_right iv k lam st -> fst (ib_norm iv k lam st) = (if usable (ib_c iv k lam) then ib_c iv k lam else ib_c_numeric iv k lam ib_grid)).
  { intros st H. unfold ib_norm, get_cached. cbn [cache_key]. destruct (dict_get [k; lam] (norms st)) as [v|] eqn:E; cbn [fst]; [rewrite (H v E)|]; reflexivity. }
  pose proof (E st1 H1) as E1. pose proof (E st2 H2) as E2. destruct (ib_norm iv k lam st1) as [c1 s1]. destruct (ib_norm iv k lam st2) as [c2 s2]. cbn [fst] in E1, E2.
  rewrite E1, E2. destruct (if usable _ then _ else _); reflexivity.
Qed.
Lemma ib_history iv root pchip guess cs xi kappa nu lam x : Forall (spares (clip kappa 0 ib_kmax) lam) cs ->
  ib_answer iv root pchip guess cs (CallPdf xi kappa nu lam x) = ib_answer iv root pchip guess [] (CallPdf xi kappa nu lam x).
Proof. intros F. unfold ib_answer. cbn [ib_run]. apply pdf_same; [apply after_key_right, F|intros c X; discriminate X]. Qed.

(** ** A history that does change it *)
Lemma ib_size_400 : ib_size 400 0 1 = 512%nat.
Proof.
  assert (S : sqrt (400 + 1) <= 21) by (assert (sqrt (400 + 1) <= sqrt (21 * 21)) by (apply sqrt_le_1_alt; lra); rewrite sqrt_square in * by lra; assumption).
  assert (S' : sqrt (400 + 1) <= 2003 / 100) by (assert (sqrt (400 + 1) <= sqrt (2003 / 100 * (2003 / 100))) as Q by (apply sqrt_le_1_alt; lra); rewrite sqrt_square in Q by lra; exact Q).
  unfold ib_size. cbv zeta. rewrite Rabs_R0, Rabs_R1. replace (clip (64 + 12 * ((1 + 3 / 4 * 1) * (1 + 0) * sqrt (400 + 1))) 512 8192) with 512.
  - rewrite ceil_log2_512. change (2 ^ 9)%nat with 512%nat. rewrite Nat.max_l by (change (Z.to_nat 512) with 512%nat; lia). apply Nat.min_l. change 512%nat with (Z.to_nat 512). apply Z2Nat.inj_le; lia.
  - symmetry. unfold clip. rewrite Rmax_right by lra. apply Rmin_left. lra.
Qed.
Lemma xexp_max k w : 0 < k -> 0 <= w -> w * exp (- (k * w)) <= / (exp 1 * k).
Proof.
  intros Hk Hw. pose proof (exp_ge1 (k * w - 1)) as E. replace (1 + (k * w - 1)) with (k * w) in E by ring. unfold Rminus in E. rewrite exp_plus in E.
  pose proof (exp_pos (k * w)) as P. pose proof (exp_pos 1) as P1. rewrite exp_Ropp in E. rewrite exp_Ropp. rewrite Rinv_mult.
  apply Rmult_le_reg_r with (exp (k * w) * k); [apply Rmult_lt_0_compat; lra|]. replace (w * / exp (k * w) * (exp (k * w) * k)) with (k * w) by (field; lra).
  replace (/ exp 1 * / k * (exp (k * w) * k)) with (exp (k * w) * / exp 1) by (field; lra). exact E.
Qed.
Lemma ib_J_400 J : integral (fun u => ft_shape 400 (- (1 / 2 * (1 - 1))) u * (1 - 1 / 2 * (1 + 1) * cos u)) (- PI) PI J -> J <= 2 * PI * (exp 400 / (exp 1 * 400)).
Proof.
  intros HJ. pose proof PI_gt3. pose proof (integral_const (- PI) PI (exp 400 / (exp 1 * 400))) as C. 
  assert (L : J <= exp 400 / (exp 1 * 400) * (PI - - PI)).
  { refine (integral_le _ _ _ _ _ _ _ _ HJ C); [lra|]. intros u _. unfold ft_shape, ft_log. replace (u + - (1 / 2 * (1 - 1)) * sin u) with u by field.
    replace (1 - 1 / 2 * (1 + 1) * cos u) with (1 - cos u) by field. pose proof (COS_bound u) as B. pose proof (xexp_max 400 (1 - cos u) ltac:(lra) ltac:(lra)) as X.
    replace (400 * cos u) with (400 + - (400 * (1 - cos u))) by ring. rewrite exp_plus. pose proof (exp_pos 400) as P. unfold Rdiv.
    replace (exp 400 * exp (- (400 * (1 - cos u))) * (1 - cos u)) with (exp 400 * ((1 - cos u) * exp (- (400 * (1 - cos u))))) by ring. apply Rmult_le_compat_l; lra. }
  lra.
Qed.
Lemma trap_one N p i : (0 < i < N)%nat -> (forall k, 0 <= p k) -> p i * (2 * PI / INR N) <= trap_cum N p N.
Proof.
  intros Hi Hp. assert (HN : (0 < N)%nat) by lia. eapply Rle_trans; [|apply (trap_cum_mono N p (S i) N HN Hp); lia]. destruct i as [|i]; [lia|].
  rewrite !trap_cum_S. pose proof (trap_nonneg N p i HN Hp). pose proof (step_pos N HN). pose proof (Hp i). pose proof (Hp (S (S i))). nra.
Qed.
(** After a call of the cdf the density of the same parameters is less than 3/5 of what it was. *)
Lemma ib_falls iv root pchip guess : is_iv iv -> is_root root ->
  exists c m, 0 < c /\ 19 / 10 <= m /\ forall x,
    ib_answer iv root pchip guess [] (CallPdf 0 400 0 1 x) = Fin (c * ib_G root 400 0 1 (x - 0)) /\
    ib_answer iv root pchip guess [CallCdf 0 400 0 1 1] (CallPdf 0 400 0 1 x) = Fin (c / m * ib_G root 400 0 1 (x - 0)).
Proof.
  intros Hiv Hr. pose proof PI_gt3. pose proof Wn6Proofs.pi_hi as P4. assert (Hk : ib_ktol < 400 <= ib_kmax) by (unfold ib_ktol, ib_kmax; lra).
  assert (Hok : ib_ok 0 400 0 1 = true) by (apply ib_ok_spec; lra). destruct (ib_J_ex 400 1) as [J HJ].
  destruct (ib_c_good iv 400 1 J Hiv Hk (or_introl eq_refl) HJ) as (c & Ec & c0 & J0 & C0 & _). specialize (C0 (or_intror eq_refl)).
  pose proof (ib_J_400 J HJ) as JB. pose proof exp1_lo as E1.
  set (p i := exp (clip (ln c + ib_log root (isclose12 1 (- 1)) 400 1 (ib_tnu root 0 0 (node 512 i))) (- 745) 700)).
  destruct end_close as (M1 & M2 & M3 & M4 & M5 & M6).
  (* the node at the centre *)
  assert (P256 : exp 1 * 400 / (2 * PI) <= p 256%nat).
  { unfold p. rewrite node_256. pose proof (ib_G_eq root (isclose12 1 (- 1)) 400 0 1 0 0 Hr ltac:(lra) ltac:(lra)) as G. rewrite M5 in G |- *. specialize (G ltac:(discriminate) ltac:(intros _; reflexivity)).
    pose proof (ib_G_at root 400 0 1 0 Hr ltac:(lra) ltac:(left; reflexivity) ltac:(lra)) as A. cbv zeta in A. rewrite sin_0 in A. replace (0 - 1 / 2 * (1 + 1) * 0) with 0 in A by field. replace (0 - 0 * (1 + cos 0)) with 0 in A by ring.
    rewrite Rminus_0_r, A in G. replace (0 - 1 / 2 * (1 - 1) * 0) with 0 in G by field. rewrite cos_0, Rmult_1_r in G. apply exp_inv in G. rewrite G. 
    assert (LC : exp 1 * 400 / (2 * PI) <= exp (ln c + 400)).
    { rewrite exp_plus, exp_ln by exact c0. replace c with (1 / J) by (apply Rmult_eq_reg_r with J; [rewrite C0; field; lra|lra]). apply Rmult_le_reg_r with J; [exact J0|].
      replace (1 / J * exp 400 * J) with (exp 400) by (field; lra). apply Rle_trans with (exp 1 * 400 / (2 * PI) * (2 * PI * (exp 400 / (exp 1 * 400)))); [|right; field; lra].
      apply Rmult_le_compat_l; [|exact JB]. apply Rlt_le, Rdiv_lt_0_compat; lra. }
    assert (Up : exp 1 * 400 / (2 * PI) <= exp 700).
    { apply Rle_trans with 400; [|pose proof (exp_ge1 700); lra]. apply Rmult_le_reg_r with (2 * PI); [lra|]. unfold Rdiv. rewrite Rmult_assoc, Rinv_l, Rmult_1_r by lra. pose proof exp_le_3. nra. }
    assert (CL : clip (ln c + 400) (- 745) 700 = 700 \/ ln c + 400 <= clip (ln c + 400) (- 745) 700).
    { unfold clip. unfold Rmax, Rmin. repeat destruct (Rle_dec _ _); lra. }
    destruct CL as [->|CL]; [exact Up|]. apply Rle_trans with (1 := LC). apply expm_le, CL. }
  set (m := trap_cum 512 p 512).
  assert (Hm : 19 / 10 <= m).
  { assert (Pp : forall k, 0 <= p k) by (intros k; unfold p; left; apply exp_pos). pose proof (trap_one 512 p 256 ltac:(lia) Pp) as T. fold m in T. rewrite INR_512 in T.
    eapply Rle_trans; [|exact T]. apply Rle_trans with (exp 1 * 400 / (2 * PI) * (2 * PI / 512)); [|apply Rmult_le_compat_r; [apply Rlt_le, Rdiv_lt_0_compat; lra|exact P256]].
    replace (exp 1 * 400 / (2 * PI) * (2 * PI / 512)) with (exp 1 * 400 / 512) by (field; lra). lra. }
  exists c, m. split; [exact c0|]. split; [exact Hm|]. intros x.
  assert (VAL : forall st v, 0 < v -> fst (ib_norm iv 400 1 st) = Fin v -> fst (ib_public_pdf iv root 0 400 0 1 x st) = Fin (v * ib_G root 400 0 1 (x - 0))).
  { intros st v Pv Ev. unfold ib_public_pdf. rewrite Hok. unfold ib_pdf. rewrite (clip_in 400 0 ib_kmax) by (unfold ib_kmax; lra). cbv zeta. rewrite (proj2 (Rleb_false 400 ib_ktol)) by lra.
    destruct (ib_norm iv 400 1 st) as [w d]. cbn [fst] in Ev. rewrite Ev. cbn [fst]. f_equal. destruct (wrap_same x) as [z Ez].
    rewrite (ib_G_eq root _ 400 0 1 0 (wrap_angles x) Hr ltac:(lra) ltac:(lra)); [|intros T; congruence|intros _; exact M5].
    rewrite Ez. replace (x + 2 * PI * IZR z - 0) with (x - 0 + 2 * PI * IZR z) by ring. rewrite ib_G_turns by (try assumption; lra).
    apply Rmax_left. apply Rmult_le_pos; [lra|left; apply ib_G_pos]. }
  split.
  - unfold ib_answer. cbn [ib_run ib_after fold_left]. apply VAL; [exact c0|]. unfold ib_norm, get_cached. cbn. rewrite Ec, usable_fin by exact c0. reflexivity.
  - unfold ib_answer. cbn [ib_run ib_after fold_left]. 
    assert (ST : dict_get [400; 1] (norms (snd (ib_public_cdf iv root pchip 0 400 0 1 1 ib_fresh))) = Some (Fin (c / m))).
    { unfold ib_public_cdf. rewrite (clip_in 400 0 ib_kmax) by (unfold ib_kmax; lra). cbv zeta. rewrite Hok. cbn [negb].
      assert (W : wrap_angles 1 = 1) by (apply wrap_in; lra). rewrite W, (proj2 (Rleb_false (2 * PI) 1)), (proj2 (Rltb_true 0 1)) by lra.
      unfold ib_cdf. rewrite (clip_in 400 0 ib_kmax) by (unfold ib_kmax; lra). cbv zeta. rewrite (proj2 (Rleb_false 400 ib_ktol)) by lra.
      unfold ib_get_table. cbn [dict_get find tables ib_fresh]. unfold ib_build. rewrite ib_size_400. cbv zeta. unfold ib_table_norm, get_cached. cbn [cache_key dict_get find norms ib_fresh].
      rewrite Ec, usable_fin by exact c0. fold p. fold m. rewrite (proj2 (Rleb_false m 0)) by lra. rewrite (proj2 (Rltb_true (5 / 10 ^ 10) (Rabs (m - 1)))) by (rewrite Rabs_pos_eq by lra; lra).
      cbn [snd norms ib_set_norm]. rewrite get_hit. do 2 f_equal. rewrite exp_plus, exp_ln, exp_ln by (try apply Rdiv_lt_0_compat; lra). field. lra. }
    apply VAL; [apply Rdiv_lt_0_compat; lra|]. unfold ib_norm, get_cached. cbn [cache_key]. rewrite ST. cbn [fst]. rewrite usable_fin by (apply Rdiv_lt_0_compat; lra). reflexivity.
Qed.
