(** C229: random_state and reproducible samples. *)
From Verif Require Import Prelude RngModel RngSpec RngProofs.
Open Scope Z_scope.

(** An integer seed determines the sample, whatever happened before, and changes nothing. *)
Theorem C229_seed : forall G L A f (np : numpy G L) z, 0 <= z < 2 ^ 32 -> exists g, forall w (d : G -> A * G), rvs f np w (SSeed z) d = Ok (fst (d g), w).
Proof. intros G L A f np z. exact (seed_only f np z). Qed.
Print Assumptions C229_seed.
(** Calls with one Generator draw consecutively from it; other calls and np.random.seed do not touch it. *)
Theorem C229_generator : forall G L A f (np : numpy G L) i (h : list (op G A)) w,
  answers_with (SGen i) (fst (run f np w h)) = map Ok (stream (draws_with (SGen i) h) (w_gens w i)).
Proof. intros G L A f np i h w. exact (gen_stream f np i h w). Qed.
Print Assumptions C229_generator.
(** Calls with one RandomState draw from generators seeded by its successive numbers; so do, in the
    distributions that go through scipy's rvs, calls without random_state when the distribution holds one. *)
Theorem C229_legacy : forall G L A (np : numpy G L) (h : list (op G A)) w,
  (forall f i, answers_with (SLegacy i) (fst (run f np w h)) = map Ok (reseeded np (draws_with (SLegacy i) h) (w_legacy w i))) /\
  (forall l, w_own w = OwnLegacy l -> answers_with SNone (fst (run Scipy np w h)) = map Ok (reseeded np (draws_with SNone h) l)).
Proof. intros G L A np h w. exact (conj (fun f i => legacy_stream f np i h w) (own_legacy_stream np h w)). Qed.
Print Assumptions C229_legacy.
(** The same for calls without random_state once the distribution holds a Generator ... *)
Theorem C229_held : forall G L A f (np : numpy G L) (h : list (op G A)) w g, w_own w = OwnGen g ->
  answers_with SNone (fst (run f np w h)) = map Ok (stream (draws_with SNone h) g).
Proof. intros G L A f np h w g. exact (own_stream f np h w g). Qed.
Print Assumptions C229_held.
(** ... which for the distributions that do not go through scipy's rvs is so after the first such call. *)
Theorem C229_first : forall G L A (np : numpy G L) w (d : G -> A * G), exists x g w', rvs Direct np w SNone d = Ok (x, w') /\ w_own w' = OwnGen g.
Proof. intros G L A np w d. exact (direct_holds np w d). Qed.
Print Assumptions C229_first.
(** Full statement: after np.random.seed(z) a call without random_state returns the same sample again, as
    for scipy's own distributions.  True of the distributions that go through scipy's rvs. *)
Theorem C229_reseed_partial : forall G L A (np : numpy G L) z (d : G -> A * G), 0 <= z < 2 ^ 32 -> exists x, forall (h : list (op G A)) w, w_own w = OwnGlobal ->
  fst (run Scipy np (snd (run Scipy np w h)) [Reseed z; Rvs SNone d]) = [(SNone, Ok x)].
Proof. intros G L A np z d. exact (reseed_scipy np z d). Qed.
Print Assumptions C229_reseed_partial.
(** False of the others. *)
Theorem C229_reseed_refuted : exists (np : numpy Z Z) w z (d : Z -> Z * Z) a b, 0 <= z < 2 ^ 32 /\ w_own w = OwnGlobal /\
  fst (run Direct np w [Reseed z; Rvs SNone d; Reseed z; Rvs SNone d]) = [(SNone, Ok a); (SNone, Ok b)] /\ a <> b.
Proof. exists counters, started, 7, next, 7, 8. split; [lia|]. split; [reflexivity|]. split; [exact reseed_ignored|lia]. Qed.
Print Assumptions C229_reseed_refuted.
Example C229_example : fst (run Direct counters started [Rvs (SGen 3) next; Rvs SNone next; Reseed 9; Rvs (SSeed 9) next; Rvs (SGen 3) next; Rvs SNone next; Rvs SOther next]) =
  [(SGen 3, Ok 3); (SNone, Ok 5); (SSeed 9, Ok 9); (SGen 3, Ok 4); (SNone, Ok 6); (SOther, Err TypeError)].
Proof. reflexivity. Qed.
Example C229_scipy_example : fst (run Scipy counters started [Rvs SNone next; Rvs SNone next; Reseed 2; Rvs SNone next; Rvs (SLegacy 4) next; Rvs (SLegacy 4) next]) =
  [(SNone, Ok 5); (SNone, Ok 6); (SNone, Ok 2); (SLegacy 4, Ok 4); (SLegacy 4, Ok 5)].
Proof. reflexivity. Qed.
Example C229_held_example : w_own (snd (run Direct counters started [Rvs SNone next])) = OwnGen 6.
Proof. reflexivity. Qed.
Example C229_legacy_example : fst (run Scipy counters (set_own started (OwnLegacy 40)) [Rvs SNone next; Reseed 2; Rvs (SLegacy 4) next; Rvs SNone next; Rvs (SLegacy 4) next]) =
  [(SNone, Ok 40); (SLegacy 4, Ok 4); (SNone, Ok 41); (SLegacy 4, Ok 5)].
Proof. reflexivity. Qed.
