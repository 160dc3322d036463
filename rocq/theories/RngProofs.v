(** Random states. *)
From Verif Require Import Prelude RngModel RngSpec.
Open Scope Z_scope.

Lemma seed_only {G L A} f (np : numpy G L) z : 0 <= z < 2 ^ 32 -> exists g, forall w (d : G -> A * G), rvs f np w (SSeed z) d = Ok (fst (d g), w).
Proof.
  intros [H1 H2]. destruct f; unfold rvs, rng_of, scipy_rng, init_rng.
  - exists (default_rng np z). intros w d. replace (z <? 0) with false by (symmetry; apply Z.ltb_ge; lia). reflexivity.
  - exists (default_rng np (fst (randint np (seeded np z)))). intros w d. replace (z <? 0) with false by (symmetry; apply Z.ltb_ge; lia).
    replace (2 ^ 32 <=? z) with false by (symmetry; apply Z.leb_gt; lia). reflexivity.
Qed.
Lemma out_cons {A} s s' (r : res A) out : answers_with s ((s', r) :: out) = if source_eqb s' s then r :: answers_with s out else answers_with s out.
Proof. unfold answers_with. cbn [filter fst]. destruct (source_eqb s' s); reflexivity. Qed.
Lemma run_rvs {G L A} f (np : numpy G L) w s (d : G -> A * G) h : run f np w (Rvs s d :: h) =
  match rvs f np w s d with
  | Ok (x, w') => ((s, Ok x) :: fst (run f np w' h), snd (run f np w' h))
  | Err e => ((s, Err e) :: fst (run f np w h), snd (run f np w h))
  end.
Proof. cbn [run]. destruct (rvs f np w s d) as [[x w']|e]; [destruct (run f np w' h)|destruct (run f np w h)]; reflexivity. Qed.
(** The caller's generator [i] is read and advanced by the calls that get it, and by no other. *)
Lemma gen_kept {G L A} f (np : numpy G L) w s (d : G -> A * G) x w' i : rvs f np w s d = Ok (x, w') -> source_eqb s (SGen i) = false -> w_gens w' i = w_gens w i.
Proof.
  intros E N. unfold rvs in E. destruct f, s as [|j|j|z|]; cbn [rng_of scipy_rng init_rng] in E; try discriminate;
    repeat match type of E with context [match ?e with _ => _ end] => destruct e; cbn [bind] in E; try discriminate end; cbn [bind fst snd] in E;
    try (assert (W : w' = set_gen w j (snd (d (w_gens w j)))) by congruence; rewrite W; cbn [w_gens set_gen]; unfold upd; cbn [source_eqb] in N; rewrite Nat.eqb_sym, N; reflexivity);
    injection E as _ <-; reflexivity.
Qed.
Lemma gen_stream {G L A} f (np : numpy G L) i (h : list (op G A)) : forall w,
  answers_with (SGen i) (fst (run f np w h)) = map Ok (stream (draws_with (SGen i) h) (w_gens w i)).
Proof.
  induction h as [|[z|s d] h IH]; intros w; [reflexivity| |].
  - cbn [run draws_with]. rewrite IH. destruct ((z <? 0) || (2 ^ 32 <=? z)); reflexivity.
  - rewrite run_rvs. cbn [draws_with]. destruct (source_eqb s (SGen i)) eqn:E.
    + assert (S : s = SGen i) by (destruct s; try discriminate; cbn in E; apply Nat.eqb_eq in E; congruence). subst s.
      assert (R : rvs f np w (SGen i) d = Ok (fst (d (w_gens w i)), set_gen w i (snd (d (w_gens w i))))) by (destruct f; reflexivity).
      rewrite R. cbn [fst]. rewrite out_cons, E, IH. cbn [stream map w_gens set_gen]. unfold upd. rewrite Nat.eqb_refl. reflexivity.
    + destruct (rvs f np w s d) as [[x w']|e] eqn:R; cbn [fst]; rewrite out_cons, E, IH; [rewrite (gen_kept f np w s d x w' i R E)|]; reflexivity.
Qed.
(** The caller's RandomState. *)
Lemma legacy_kept {G L A} f (np : numpy G L) w s (d : G -> A * G) x w' i : rvs f np w s d = Ok (x, w') -> source_eqb s (SLegacy i) = false -> w_legacy w' i = w_legacy w i.
Proof.
  intros E N. unfold rvs in E. destruct f, s as [|j|j|z|]; cbn [rng_of scipy_rng init_rng] in E; try discriminate;
    repeat match type of E with context [match ?e with _ => _ end] => destruct e; cbn [bind] in E; try discriminate end; cbn [bind fst snd] in E;
    injection E as _ <-; try reflexivity; cbn [w_legacy set_legacy]; unfold upd; cbn [source_eqb] in N; rewrite Nat.eqb_sym, N; reflexivity.
Qed.
Lemma legacy_stream {G L A} f (np : numpy G L) i (h : list (op G A)) : forall w,
  answers_with (SLegacy i) (fst (run f np w h)) = map Ok (reseeded np (draws_with (SLegacy i) h) (w_legacy w i)).
Proof.
  induction h as [|[z|s d] h IH]; intros w; [reflexivity| |].
  - cbn [run draws_with]. rewrite IH. destruct ((z <? 0) || (2 ^ 32 <=? z)); reflexivity.
  - rewrite run_rvs. cbn [draws_with]. destruct (source_eqb s (SLegacy i)) eqn:E.
    + assert (S : s = SLegacy i) by (destruct s; try discriminate; cbn in E; apply Nat.eqb_eq in E; congruence). subst s.
      assert (R : rvs f np w (SLegacy i) d = Ok (fst (d (default_rng np (fst (randint np (w_legacy w i))))), set_legacy w i (snd (randint np (w_legacy w i)))))
        by (unfold rvs; destruct f; cbn [rng_of scipy_rng init_rng]; destruct (randint np (w_legacy w i)); reflexivity).
      rewrite R. cbn [fst]. rewrite out_cons, E, IH. cbn [reseeded map w_legacy set_legacy]. unfold upd. rewrite Nat.eqb_refl. reflexivity.
    + destruct (rvs f np w s d) as [[x w']|e] eqn:R; cbn [fst]; rewrite out_cons, E, IH; [rewrite (legacy_kept f np w s d x w' i R E)|]; reflexivity.
Qed.
(** A generator held by the distribution. *)
Lemma own_kept {G L A} f (np : numpy G L) w s (d : G -> A * G) x w' : rvs f np w s d = Ok (x, w') -> s <> SNone -> w_own w' = w_own w.
Proof.
  intros E N. unfold rvs in E. destruct f, s as [|j|j|z|]; cbn [rng_of scipy_rng init_rng] in E; try discriminate; try congruence;
    repeat match type of E with context [match ?e with _ => _ end] => destruct e; cbn [bind] in E; try discriminate end; cbn [bind fst snd] in E; injection E as _ <-; reflexivity.
Qed.
Lemma own_stream {G L A} f (np : numpy G L) (h : list (op G A)) : forall w g, w_own w = OwnGen g ->
  answers_with SNone (fst (run f np w h)) = map Ok (stream (draws_with SNone h) g).
Proof.
  induction h as [|[z|s d] h IH]; intros w g O; [reflexivity| |].
  - cbn [run draws_with]. apply IH. destruct ((z <? 0) || (2 ^ 32 <=? z)); exact O.
  - rewrite run_rvs. cbn [draws_with]. destruct (source_eqb s SNone) eqn:E.
    + assert (S : s = SNone) by (destruct s; discriminate || reflexivity). subst s.
      assert (R : rvs f np w SNone d = Ok (fst (d g), set_own w (OwnGen (snd (d g))))) by (unfold rvs; destruct f; cbn [rng_of scipy_rng init_rng]; rewrite O; reflexivity).
      rewrite R. cbn [fst]. rewrite out_cons. cbn [source_eqb]. rewrite (IH (set_own w (OwnGen (snd (d g)))) (snd (d g)) eq_refl). reflexivity.
    + assert (N : s <> SNone) by (intros ->; discriminate).
      destruct (rvs f np w s d) as [[x w']|e] eqn:R; cbn [fst]; rewrite out_cons, E; apply IH; [rewrite (own_kept f np w s d x w' R N)|]; exact O.
Qed.
(** A RandomState held by a distribution of the scipy family. *)
Lemma own_legacy_stream {G L A} (np : numpy G L) (h : list (op G A)) : forall w l, w_own w = OwnLegacy l ->
  answers_with SNone (fst (run Scipy np w h)) = map Ok (reseeded np (draws_with SNone h) l).
Proof.
  induction h as [|[z|s d] h IH]; intros w l O; [reflexivity| |].
  - cbn [run draws_with]. apply IH. destruct ((z <? 0) || (2 ^ 32 <=? z)); exact O.
  - rewrite run_rvs. cbn [draws_with]. destruct (source_eqb s SNone) eqn:E.
    + assert (S : s = SNone) by (destruct s; discriminate || reflexivity). subst s.
      assert (R : rvs Scipy np w SNone d = Ok (fst (d (default_rng np (fst (randint np l)))), set_own w (OwnLegacy (snd (randint np l)))))
        by (unfold rvs; cbn [rng_of scipy_rng]; rewrite O; destruct (randint np l); reflexivity).
      rewrite R. cbn [fst]. rewrite out_cons. cbn [source_eqb]. rewrite (IH (set_own w (OwnLegacy (snd (randint np l)))) (snd (randint np l)) eq_refl). reflexivity.
    + assert (N : s <> SNone) by (intros ->; discriminate).
      destruct (rvs Scipy np w s d) as [[x w']|e] eqn:R; cbn [fst]; rewrite out_cons, E; apply IH; [rewrite (own_kept Scipy np w s d x w' R N)|]; exact O.
Qed.
(** The first call without random_state of the direct family makes one. *)
Lemma direct_holds {G L A} (np : numpy G L) w (d : G -> A * G) : exists x g w', rvs Direct np w SNone d = Ok (x, w') /\ w_own w' = OwnGen g.
Proof.
  unfold rvs, rng_of, init_rng. destruct (w_own w) as [| |l0|g]; [|destruct (randint np (w_global w)) as [n l]|destruct (randint np l0) as [n l]|]; cbn [bind fst snd]; do 3 eexists; (split; [reflexivity|]); reflexivity.
Qed.
(** Seeding numpy's global state. *)
Lemma scipy_own {G L A} (np : numpy G L) w s (d : G -> A * G) x w' : w_own w = OwnGlobal -> rvs Scipy np w s d = Ok (x, w') -> w_own w' = OwnGlobal.
Proof.
  intros O E. destruct s as [|j|j|z|]; try (rewrite (own_kept Scipy np w _ d x w' E ltac:(discriminate)); exact O).
  unfold rvs in E. cbn [rng_of scipy_rng] in E. rewrite O in E. destruct (randint np _) as [n l]. cbn [bind fst snd] in E. injection E as _ <-. exact O.
Qed.
Lemma scipy_own_run {G L A} (np : numpy G L) (h : list (op G A)) : forall w, w_own w = OwnGlobal -> w_own (snd (run Scipy np w h)) = OwnGlobal.
Proof.
  induction h as [|[z|s d] h IH]; intros w O; [exact O| |].
  - cbn [run]. apply IH. destruct ((z <? 0) || (2 ^ 32 <=? z)); exact O.
  - rewrite run_rvs. destruct (rvs Scipy np w s d) as [[x w']|e] eqn:R; cbn [snd]; apply IH; [exact (scipy_own np w s d x w' O R)|exact O].
Qed.
Lemma reseed_scipy {G L A} (np : numpy G L) z (d : G -> A * G) : 0 <= z < 2 ^ 32 -> exists x, forall (h : list (op G A)) w, w_own w = OwnGlobal ->
  fst (run Scipy np (snd (run Scipy np w h)) [Reseed z; Rvs SNone d]) = [(SNone, Ok x)].
Proof.
  intros [H1 H2]. exists (fst (d (default_rng np (fst (randint np (seeded np z)))))). intros h w O. pose proof (scipy_own_run np h w O) as O'. set (v := snd (run Scipy np w h)) in *.
  cbn [run]. replace (z <? 0) with false by (symmetry; apply Z.ltb_ge; lia). replace (2 ^ 32 <=? z) with false by (symmetry; apply Z.leb_gt; lia). cbn [orb].
  unfold rvs. cbn [rng_of scipy_rng set_global w_own w_global]. rewrite O'. destruct (randint np (seeded np z)) as [n l]. reflexivity.
Qed.
(** Counters. *)
Definition counters : numpy Z Z := {| default_rng := fun z => z; seeded := fun z => z; randint := fun l => (l, l + 1); fresh := fun n => Z.of_nat n |}.
Definition started : world Z Z := {| w_global := 5; w_own := OwnGlobal; w_gens := fun i => Z.of_nat i; w_legacy := fun i => Z.of_nat i; w_fresh := 0%nat |}.
Definition next : Z -> Z * Z := fun g => (g, g + 1).
Lemma reseed_ignored : fst (run Direct counters started [Reseed 7; Rvs SNone next; Reseed 7; Rvs SNone next]) = [(SNone, Ok 7); (SNone, Ok 8)].
Proof. reflexivity. Qed.
