(** Specification vocabulary for the mixture estimators; independent of the model. *)
From Verif Require Import Prelude CircleSpec DescSpec.

(** Positive numbers that add up to 1 / an array of NaN. *)
Definition shares (l : list fl) : Prop :=
  exists qs, l = map Fin qs /\ Forall (fun q => 0 < q) qs /\ Rsum qs = 1.
Definition undefined (l : list fl) : Prop := Forall (fun x => x = NaN) l.
(** Bayes' rule: the entries are in the proportions of the given positive numbers. *)
Definition bayes (ws : list R) (l : list fl) : Prop :=
  exists qs, l = map Fin qs /\ Forall2 (fun w q => q * Rsum ws = w) ws qs.
(** l is the first position of a largest entry. *)
Definition largest (col : list fl) (l : nat) : Prop :=
  exists v, nth_error col l = Some (Fin v) /\ (forall u, In (Fin u) col -> u <= v) /\
    forall j u, (j < l)%nat -> nth_error col j = Some (Fin u) -> u < v.

(** Iterating: [passes step s vs s']: one step per entry of vs, from s to s'. *)
Inductive passes {St} (step : St -> St -> fl -> Prop) : St -> list fl -> St -> Prop :=
| ps_none s : passes step s [] s
| ps_more s v s1 vs s' : step s s1 v -> passes step s1 vs s' -> passes step s (v :: vs) s'.
(** Two values that are numbers less than thr apart. *)
Definition close (thr : R) (u v : fl) : Prop := exists a b, u = Fin a /\ v = Fin b /\ Rabs (b - a) < thr.
(** Entry j may stop the iteration: it comes after more than burnin entries and is close to
    the one before. *)
Definition may_stop (burnin : nat) (thr : R) (hist : list fl) (j : nat) : Prop :=
  (burnin < j)%nat /\ exists u v, nth_error hist (j - 1) = Some u /\ nth_error hist j = Some v /\ close thr u v.
(** What the history must look like: at most n entries; no entry but the last may stop the
    iteration; if convergence is declared after k iterations, there are k entries and the
    last may stop it; otherwise there are n entries and the last may not. *)
Definition stop_rule (burnin : nat) (thr : R) (n : nat) (hist : list fl) (conv : option nat) : Prop :=
  (length hist <= n)%nat /\
  (forall j, (S j < length hist)%nat -> ~ may_stop burnin thr hist j) /\
  match conv with
  | Some k => length hist = k /\ (1 <= k)%nat /\ may_stop burnin thr hist (k - 1)
  | None => length hist = n /\ forall j, ~ may_stop burnin thr hist j
  end.

(** The von Mises density; the Kato-Jones parameter space. *)
Definition vm_density (I0 : R -> R) (mu kappa x : R) : R := exp (kappa * cos (x - mu)) / (2 * PI * I0 kappa).
Definition kj_space (mu gamma rho lam : R) : Prop :=
  0 <= mu < 2 * PI /\ 0 <= gamma < 1 /\ 0 <= rho < 1 /\ 0 <= lam < 2 * PI /\
  (rho * cos lam - gamma) ^ 2 + (rho * sin lam) ^ 2 <= (1 - gamma) ^ 2.
(** The angles k/n of a turn, k = 0, ..., n - 1. *)
Definition full_turn (n : nat) (l : list R) : Prop :=
  length l = n /\ forall k x, nth_error l k = Some x -> x * INR n = 2 * PI * INR k.
(** The first terms of the Bessel function on small arguments. *)
Definition i0_like (I0 : R -> R) : Prop :=
  forall k, 0 <= k <= 1 -> 1 + k ^ 2 / 4 <= I0 k <= 1 + k ^ 2 / 4 + k ^ 4 / 32.

(** ** One textbook pass of the EM algorithm *)
(** The terms w_c f_c(x) of a mixture of components cs with weights ws. *)
Definition terms {P} (dens : P -> R -> R) (ws : list R) (cs : list P) (x : R) : list R :=
  map (fun m => fst m * dens (snd m) x) (combine ws cs).
(** The posterior probabilities G of the components for each observation. *)
Definition posterior {P} (dens : P -> R -> R) (ws : list R) (cs : list P) (alpha : list R) (G : list (list R)) : Prop :=
  Forall2 (fun x g => Forall2 (fun w q => q * Rsum (terms dens ws cs x) = w) (terms dens ws cs x) g) alpha G.
(** Minus the log likelihood. *)
Definition neg_loglik {P} (dens : P -> R -> R) (ws : list R) (cs : list P) (alpha : list R) : R :=
  - Rsum (map (fun x => ln (Rsum (terms dens ws cs x))) alpha).
(** The posterior probabilities of component c. *)
Definition of_comp (G : list (list R)) (c : nat) : list R := map (fun g => nth c g 0) G.
(** The new weights: average posterior probabilities. *)
Definition new_weights (G : list (list R)) (qs : list R) : Prop :=
  forall c q, nth_error qs c = Some q -> q * INR (length G) = Rsum (of_comp G c).
(** A weighted von Mises update: mean direction, and the concentration [kap] of the mean
    resultant length, but at least 1/1000; the mean direction is NaN if the resultant is
    at most 1e-12.  A component with total posterior at most 1e-8 keeps its mean. *)
Definition vm_refit (kap : R -> R) (alpha w : list R) (old new : fl * fl) : Prop :=
  let W := Rsum w in let C := wsum cos alpha w in let S := wsum sin alpha w in
  (W <= / 10 ^ 8 /\ new = (fst old, Fin (Rmax (kap 0) (/ 1000)))) \/
  (/ 10 ^ 8 < W /\ exists r, 0 <= r /\ r ^ 2 * W ^ 2 = C ^ 2 + S ^ 2 /\ snd new = Fin (Rmax (kap r) (/ 1000)) /\
     ((r <= / 10 ^ 12 /\ fst new = NaN) \/
      (/ 10 ^ 12 < r /\ exists mu, fst new = Fin mu /\ 0 <= mu < 2 * PI /\ r * W * cos mu = C /\ r * W * sin mu = S))).
(** A pass of MovM on (weights, (mean, concentration) pairs): textbook EM with 1e-32 added
    to each weight, when the parameters are numbers; otherwise everything is NaN. *)
Definition vm_pass (I0 kap : R -> R) (alpha : list R) (s s' : list fl * list (fl * fl)) (v : fl) : Prop :=
  (exists ps cs qs G,
     s = (map Fin ps, map (fun c => (Fin (fst c), Fin (snd c))) cs) /\
     let ws := map (fun p => p + / 10 ^ 32) ps in
     let dens c x := vm_density I0 (fst c) (snd c) x in
     posterior dens ws cs alpha G /\
     fst s' = map Fin qs /\ new_weights G qs /\ Forall (fun q => 0 < q) qs /\ Rsum qs = 1 /\
     length (snd s') = length cs /\
     (forall c old new, nth_error (snd s) c = Some old -> nth_error (snd s') c = Some new -> vm_refit kap alpha (of_comp G c) old new) /\
     v = Fin (neg_loglik dens ws cs alpha)) \/
  ((In NaN (fst s) \/ exists c, In c (snd s) /\ fst c = NaN) /\
   length (fst s') = length (snd s) /\ length (snd s') = length (snd s) /\
   undefined (fst s') /\ Forall (fun c => c = (NaN, NaN)) (snd s') /\ v = NaN).

(** ** A whole fit *)
(** From start to final: the passes, the stopping rule; nLL keeps the entries that are not
    NaN; the flags are set when convergence is declared and keep their old value otherwise. *)
Definition em_run {St} (pass : St -> St -> fl -> Prop) (burnin : nat) (thr : R) (n : nat) (start final : St)
    (nLL : list fl) (old new : bool * option nat) : Prop :=
  exists hist conv, passes pass start hist final /\ stop_rule burnin thr n hist conv /\
    nLL = filter (fun v => match v with NaN => false | _ => true end) hist /\
    new = match conv with Some k => (true, Some k) | None => old end.
(** Responsibilities and labels under final parameters [cs] and weights [p]: posterior
    probabilities and a most probable component; or NaN and component 0. *)
Definition responsibilities {P} (dens : P -> R -> R) (wt : R -> R) (p : list fl) (cs : list P) (alpha : list R)
    (gamma : list (list fl)) (labels : list nat) : Prop :=
  exists ps G, p = map Fin ps /\ gamma = map (map Fin) G /\ posterior dens (map wt ps) cs alpha G /\
    Forall (fun g => length g = length cs /\ Forall (fun q => 0 < q) g /\ Rsum g = 1) G /\ Forall2 largest gamma labels.
Definition no_responsibilities (K : nat) (alpha : list R) (gamma : list (list fl)) (labels : list nat) : Prop :=
  length gamma = length alpha /\ Forall (fun col => length col = K /\ undefined col) gamma /\ labels = repeat 0%nat (length alpha).
(** The angles labelled c. *)
Definition labelled (alpha : list R) (labels : list nat) (c : nat) : list R :=
  map fst (filter (fun p => Nat.eqb (snd p) c) (combine alpha labels)).
(** The start of MovM: equal weights, and each component fitted to the angles with its label. *)
Definition vm_begin (kap : R -> R) (K : nat) (alpha : list R) (labels : list nat) (s : list fl * list (fl * fl)) : Prop :=
  (forall c, (c < K)%nat -> In c labels) /\
  fst s = repeat (Fin (1 / INR K)) K /\ length (snd s) = K /\
  forall c new, nth_error (snd s) c = Some new ->
    vm_refit kap (labelled alpha labels c) (repeat 1 (length (labelled alpha labels c))) new new.

(** ** MoKJ and MoCD *)
(** Kato-Jones parameters (mu, gamma, rho, lambda) and density, at least [tiny]. *)
Definition quad := (R * R * R * R)%type.
Definition in_space (c : quad) : Prop := let '(mu, gamma, rho, lam) := c in kj_space mu gamma rho lam.
Definition kj_density (c : quad) (x : R) : R :=
  let '(mu, gamma, rho, lam) := c in
  (1 + 2 * gamma * (cos (x - mu) - rho * cos lam) / (1 + rho ^ 2 - 2 * rho * cos (x - mu - lam))) / (2 * PI).
Definition kj_dens (tiny : R) (c : quad) (x : R) : R := Rmax (kj_density c x) tiny.
(** New weights: in the proportions of the posterior sums, none below [floor]. *)
Definition floored_weights (floor : R) (G : list (list R)) (K : nat) (qs : list R) : Prop :=
  let T := map (fun c => Rmax (Rsum (of_comp G c)) floor) (seq 0 K) in
  Forall2 (fun t q => q * Rsum T = t) T qs.
(** The component refit of MoKJ.  [reg] regularises, [bad] rejects; the moment estimate is
    used when the component is small or both likelihood fits fail or are rejected. *)
Definition kj_refit {P} (reg : P -> P) (bad : P -> bool) (moments : list R -> list fl -> res P) (mle : list R -> list fl -> P -> res P)
    (floor : R) (alpha w : list R) (old new : P) : Prop :=
  exists m0, moments alpha (map Fin w) = Ok m0 /\ let rejected start := forall e, mle alpha (map Fin w) start = Ok e -> bad (reg e) = true in
    let accepted start := exists e, mle alpha (map Fin w) start = Ok e /\ bad (reg e) = false /\ new = reg e in
    ((Rsum w <= floor * INR (length alpha) /\ new = reg m0) \/
     (floor * INR (length alpha) < Rsum w /\
        (accepted (reg old) \/ (rejected (reg old) /\ (accepted (reg m0) \/ (rejected (reg m0) /\ new = reg m0)))))).
Definition kj_pass {P} (quad_of : P -> quad) (reg : P -> P) (bad : P -> bool) (moments : list R -> list fl -> res P)
    (mle : list R -> list fl -> P -> res P) (tiny floor : R) (alpha : list R) (s s' : list fl * list P) (v : fl) : Prop :=
  exists ps qs G, fst s = map Fin ps /\ fst s' = map Fin qs /\
    let wt q := Rmax q (/ 10 ^ 300) in
    posterior (kj_dens tiny) (map wt ps) (map quad_of (snd s)) alpha G /\
    floored_weights floor G (length (snd s)) qs /\ Forall (fun q => 0 < q) qs /\ Rsum qs = 1 /\
    length (snd s') = length (snd s) /\
    (forall c old new, nth_error (snd s) c = Some old -> nth_error (snd s') c = Some new ->
       kj_refit reg bad moments mle floor alpha (of_comp G c) old new) /\
    v = Fin (neg_loglik (kj_dens tiny) (map wt qs) (map quad_of (snd s')) alpha).
(** The component refit of MoCD: the first method that works; a component with total
    posterior at most 1e-8 is kept. *)
Inductive first_method {M P} (fit : M -> res P) : list M -> P -> Prop :=
| fm_here m ms c : fit m = Ok c -> first_method fit (m :: ms) c
| fm_next m ms e c : fit m = Err e -> first_method fit ms c -> first_method fit (m :: ms) c.
Definition cd_refit {M P} (dfit : M -> list R -> list fl -> res P) (methods : list M) (alpha w : list R) (old new : P) : Prop :=
  (Rsum w <= / 10 ^ 8 /\ new = old) \/
  (/ 10 ^ 8 < Rsum w /\ first_method (fun m => dfit m alpha (map Fin w)) methods new).
Definition cd_pass {M P} (dens : P -> R -> R) (dfit : M -> list R -> list fl -> res P) (methods : list M)
    (alpha : list R) (s s' : list fl * list P) (v : fl) : Prop :=
  exists ps qs G, fst s = map Fin ps /\ fst s' = map Fin qs /\
    let wt q := q + / 10 ^ 32 in
    posterior dens (map wt ps) (snd s) alpha G /\
    new_weights G qs /\ Forall (fun q => 0 < q) qs /\ Rsum qs = 1 /\
    length (snd s') = length (snd s) /\
    (forall c old new, nth_error (snd s) c = Some old -> nth_error (snd s') c = Some new -> cd_refit dfit methods alpha (of_comp G c) old new) /\
    v = Fin (neg_loglik dens (map wt ps) (snd s) alpha).
(** The Bayesian information criterion for n observations and k free parameters. *)
Definition bic_value (v : R) (n k : nat) : R := 2 * v + ln (INR n) * INR k.
