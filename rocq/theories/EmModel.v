(** Model of the mixture estimators of pycircstat2/clustering.py: MovM (22-442),
    MoKJ (445-883), MoCD (886-1264).  A float is [fl]; log densities are finite or NaN
    (a density that is exactly 0, with log density -inf, is not modelled). *)
From Verif Require Import Prelude NpModel UtilsModel DescModel Desc2Model HypMultiModel HypMulti2Model ClusModel.

Definition flmap (f : R -> R) (x : fl) : fl := match x with Fin a => Fin (f a) | _ => NaN end.
Definition is_fin (x : fl) : bool := match x with Fin _ => true | _ => false end.

(** ** The E-step, shared by the three classes *)

(** One column of _log_gamma (298-311, 681-685, 1110-1122): log of the weight plus the log
    density of the observation under each component.  [wt] is p + 1e-32 (MovM, MoCD) or
    clip(p, 1e-300, None) (MoKJ). *)
Definition log_col {P} (wt : R -> R) (ld : P -> R -> fl) (p : list fl) (cs : list P) (x : R) : list fl :=
  map2 (fun q c => fadd (flmap (fun q => ln (wt q)) q) (ld c x)) p cs.
(** np.logaddexp.reduce / logsumexp over the components. *)
Definition lse (col : list fl) : fl :=
  match first_nan 0 col with Some _ => NaN | None => Fin (ln (Rsum (map exp (map fval col)))) end.
(** exp(log_gamma - log_norm). *)
Definition resp (col : list fl) : list fl :=
  let nrm := lse col in map (fun l => flmap exp (fsub l nrm)) col.
(** The responsibilities, one column per observation. *)
Definition gammas {P} (wt : R -> R) (ld : P -> R -> fl) (p : list fl) (cs : list P) (alpha : list R) : list (list fl) :=
  map (fun x => resp (log_col wt ld p cs x)) alpha.
(** -np.sum(log_norm). *)
Definition nll {P} (wt : R -> R) (ld : P -> R -> fl) (p : list fl) (cs : list P) (alpha : list R) : fl :=
  fneg (fsum (map (fun x => lse (log_col wt ld p cs x)) alpha)).
(** gamma[c] and gamma.sum(axis=1). *)
Definition row (g : list (list fl)) (c : nat) : list fl := map (fun col => nth c col NaN) g.
Definition row_sums (K : nat) (g : list (list fl)) : list fl := map (fun c => fsum (row g c)) (seq 0 K).
(** p /= p.sum(). *)
Definition normalised (p : list fl) : list fl := map (fun x => fdiv x (fsum p)) p.
(** gamma.argmax(axis=0); a NaN column has argmax 0. *)
Definition argmax_labels (g : list (list fl)) : list nat := map fargmax g.

(** ** The iteration, shared by the three classes (214-259, 722-796, 1146-1181) *)

(** [step] is one pass: the new state and the value stored in the nLL history.  The test
    is made when iteration > burnin, so the previous entry exists; MoKJ keeps it in
    last_nll (793).  The result: the state, the history, and the number of iterations at
    which convergence was declared. *)
Fixpoint em_loop {St} (step : St -> res (St * fl)) (burnin : nat) (threshold : R) (left it : nat)
    (st : St) (hist : list fl) : res (St * list fl * option nat) :=
  match left with
  | O => Ok (st, hist, None)
  | S k =>
      do r <- step st;
      let (st', v) := r : St * fl in
      let hist' := hist ++ [v] in
      if Nat.ltb burnin it && fllt (flabs (fsub v (last hist NaN))) (Fin threshold)
      then Ok (st', hist', Some (S it))
      else em_loop step burnin threshold k (S it) st' hist'
  end.
(** The attributes converged and converged_iters: set by a fit that converges, and left
    alone otherwise (110-111, 250-251; 551-552, 788-789; 998-999, 1174-1175). *)
Definition flags := (bool * option nat)%type.
Definition set_flags (old : flags) (conv : option nat) : flags :=
  match conv with Some k => (true, Some k) | None => old end.
(** nLL_history[~np.isnan(nLL_history)] (261, 799, 1183); the tail that was never written
    is NaN as well. *)
Definition drop_nan (hist : list fl) : list fl := filter (fun v => negb (is_nan v)) hist.

(** What a fit leaves behind: p_, the components, gamma_ (gamma_resp_), labels_, nLL, the
    flags and the stored angles. *)
Record mix (P : Type) := { mx_p : list fl; mx_cs : list P; mx_gamma : list (list fl); mx_labels : list nat;
  mx_nll : list fl; mx_flags : flags; mx_alpha : list R }.
Arguments mx_p {P}. Arguments mx_cs {P}. Arguments mx_gamma {P}. Arguments mx_labels {P}.
Arguments mx_nll {P}. Arguments mx_flags {P}. Arguments mx_alpha {P}.
(** 261-274, 798-815, 1183-1192. *)
Definition finish {P} (wt : R -> R) (ld : P -> R -> fl) (alpha : list R) (old : flags)
    (out : list fl * list P * list fl * option nat) : mix P :=
  let '(p, cs, hist, conv) := out in
  let g := gammas wt ld p cs alpha in
  {| mx_p := p; mx_cs := cs; mx_gamma := g; mx_labels := argmax_labels g; mx_nll := drop_nan hist;
     mx_flags := set_flags old conv; mx_alpha := alpha |}.

(** Random initial labels (155-160, 598-604, 1093-1098): the first candidate drawn by the
    generator in which every cluster occurs; [cands] are the 100 (MoCD: 128) candidates. *)
Definition covers (K : nat) (labels : list nat) : bool :=
  forallb (fun c => existsb (Nat.eqb c) labels) (seq 0 K).
Definition pick (K : nat) (cands : list (list nat)) : res (list nat) :=
  match find (covers K) cands with Some l => Ok l | None => Err RuntimeError end.
(** x[labels == c]. *)
Definition subset (alpha : list R) (labels : list nat) (c : nat) : list R :=
  map fst (filter (fun p => Nat.eqb (snd p) c) (combine alpha labels)).
(** np.full(K, 1.0 / K). *)
Definition even_weights (K : nat) : list fl := repeat (Fin (1 / INR K)) K.

(** The settings checked by the constructors (91-100, 523-532, 931-940). *)
Record em_cfg := { c_burnin : nat; c_K : nat; c_iters : nat; c_threshold : R; c_radian : bool; c_cycle : R }.
Definition cfg_ok (c : em_cfg) : Prop :=
  (1 <= c_K c)%nat /\ (1 <= c_iters c)%nat /\ 0 < c_threshold c.

(** ** MovM *)
Record vm := { vm_mu : fl; vm_r : fl; vm_kappa : fl }.
(** p[i] + 1e-32 (307, 1118). *)
Definition wt32 (q : R) : R := q + / 10 ^ 32.
(** vonmises.logpdf (distributions.py:3317-3326, 3355-3377): NaN unless 0 <= mu <= 2 pi and
    kappa > 0.  [I0] is scipy.special.i0.  The argument is wrapped first, which does not
    change the cosine. *)
Definition vm_ld (I0 : R -> R) (c : vm) (x : R) : fl :=
  match vm_mu c, vm_kappa c with
  | Fin mu, Fin kappa =>
      if Rleb 0 mu && Rleb mu (2 * PI) && Rltb 0 kappa
      then Fin (kappa * cos (x - mu) - ln (2 * PI * I0 kappa)) else NaN
  | _, _ => NaN
  end.
(** clustering.py:166-174: circ_kappa(r) without n is kappa0 r, always finite. *)
Definition vm_start (g : list R) : vm :=
  let (m, r) := circ_mean_and_r g None in
  {| vm_mu := m; vm_r := Fin r; vm_kappa := Fin (Rmax (kappa0 r) (/ 1000)) |}.
(** clustering.py:225-237 for one component.  NaN weights make the mean, r, circ_kappa(r)
    and max(nan, 1e-3) NaN. *)
Definition vm_update (alpha : list R) (c : vm) (w : list fl) : vm :=
  match fsum w with
  | Fin s =>
      if isclose s 0 then {| vm_mu := vm_mu c; vm_r := Fin 0; vm_kappa := Fin (Rmax (kappa0 0) (/ 1000)) |}
      else let (m, r) := circ_mean_and_r alpha (Some (map fval w)) in
           {| vm_mu := m; vm_r := Fin r; vm_kappa := Fin (Rmax (kappa0 r) (/ 1000)) |}
  | _ => {| vm_mu := NaN; vm_r := NaN; vm_kappa := NaN |}
  end.
(** One iteration (215-240): nLL is that of the parameters before the update. *)
Definition movm_step (I0 : R -> R) (K : nat) (alpha : list R) (st : list fl * list vm) : res ((list fl * list vm) * fl) :=
  let (p, cs) := st in
  let g := gammas wt32 (vm_ld I0) p cs alpha in
  let p' := normalised (row_sums K g) in
  let cs' := map (fun c : nat * vm => vm_update alpha (snd c) (row g (fst c))) (combine (seq 0 (length cs)) cs) in
  Ok ((p', cs'), nll wt32 (vm_ld I0) p cs alpha).
(** clustering.py:126-275 [MovM.fit]. *)
Definition movm_fit (I0 : R -> R) (cfg : em_cfg) (old : flags) (cands : list (list nat)) (X : list R) : res (mix vm) :=
  match X with
  | [] => Err ValueError
  | _ =>
      let alpha := to_rad (c_radian cfg) (c_cycle cfg) X in
      let K := c_K cfg in
      if Nat.ltb (length alpha) K then Err ValueError
      else
        do labels <- pick K cands;
        let cs := map (fun c => vm_start (subset alpha labels c)) (seq 0 K) in
        do out <- em_loop (movm_step I0 K alpha) (c_burnin cfg) (c_threshold cfg) (c_iters cfg) 0 (even_weights K, cs) [];
        Ok (finish wt32 (vm_ld I0) alpha old out)
  end.
(** clustering.py:401-442 [predict_proba], [predict]: the unit and full_cycle may be given. *)
Definition movm_proba (I0 : R -> R) (is_radian : bool) (full_cycle : R) (model : option (mix vm)) (X : list R) : res (list (list fl)) :=
  match model with
  | None => Err ValueError
  | Some m => Ok (gammas wt32 (vm_ld I0) (mx_p m) (mx_cs m) (to_rad is_radian full_cycle X))
  end.
Definition movm_predict (I0 : R -> R) (is_radian : bool) (full_cycle : R) (model : option (mix vm)) (X : list R) : res (list nat) :=
  do g <- movm_proba I0 is_radian full_cycle model X; Ok (argmax_labels g).
(** clustering.py:313-341 [compute_nLL], 343-358 [compute_BIC]. *)
Definition movm_bic (I0 : R -> R) (K : nat) (model : option (mix vm)) : res fl :=
  match model with
  | None => Err ValueError
  | Some m =>
      Ok (fadd (fmul (Fin 2) (nll wt32 (vm_ld I0) (mx_p m) (mx_cs m) (mx_alpha m)))
               (Fin (ln (INR (length (mx_alpha m))) * (INR K * 3 - 1))))
  end.
(** The default grid of predict_density (386-391, 873-878, 1236-1242): [n] points of one
    turn in radians, turned into degrees (np.rad2deg) unless the unit is radian, and then
    into radians by data2rad with full_cycle. *)
Definition density_grid (n : nat) (is_radian : bool) (full_cycle : R) : list R :=
  let x := map (fun k => 2 * PI * INR k / INR n) (seq 0 n) in
  let x := if is_radian then x else map (fun v => v * 180 / PI) x in
  to_rad is_radian full_cycle x.
(** clustering.py:393-399: the mixture density at an angle in radians.  vonmises.pdf is NaN
    under the same condition as logpdf. *)
Definition vm_pdf (I0 : R -> R) (c : vm) (x : R) : fl :=
  match vm_mu c, vm_kappa c with
  | Fin mu, Fin kappa =>
      if Rleb 0 mu && Rleb mu (2 * PI) && Rltb 0 kappa
      then Fin (exp (kappa * cos (x - mu)) / (2 * PI * I0 kappa)) else NaN
  | _, _ => NaN
  end.
Definition density {P} (pdf : P -> R -> fl) (m : mix P) (x : R) : fl :=
  fsum (map2 (fun q c => fmul q (pdf c x)) (mx_p m) (mx_cs m)).

(** ** MoKJ *)
Record kj := { kj_mu : R; kj_gamma : R; kj_rho : R; kj_lam : R }.
Definition clip (x lo hi : R) : R := Rmin (Rmax x lo) hi.
Definition mod2pi (x : R) : R := pymod x (2 * PI).
(** distributions.py:8140-8162 [katojones._argcheck]. *)
Definition kj_constraint (gamma rho lam : R) : R := (rho * cos lam - gamma) ^ 2 + (rho * sin lam) ^ 2.
Definition kj_argcheck (c : kj) : bool :=
  Rleb 0 (kj_mu c) && Rltb (kj_mu c) (2 * PI) && Rleb 0 (kj_gamma c) && Rltb (kj_gamma c) 1 &&
  Rleb 0 (kj_rho c) && Rltb (kj_rho c) 1 && Rleb 0 (kj_lam c) && Rltb (kj_lam c) (2 * PI) &&
  Rleb (kj_constraint (kj_gamma c) (kj_rho c) (kj_lam c)) ((1 - kj_gamma c) ^ 2 + / 10 ^ 12).
(** distributions.py:8164-8174 [_pdf], 8266-8268 [_logpdf]; [tiny] is np.finfo(float).tiny. *)
Definition kj_pdf (c : kj) (x : R) : R :=
  let delta := x - kj_mu c in
  let denom := Rmax (1 + kj_rho c ^ 2 - 2 * kj_rho c * cos (delta - kj_lam c)) (/ 10 ^ 15) in
  Rmax ((1 + 2 * kj_gamma c * (cos delta - kj_rho c * cos (kj_lam c)) / denom) / (2 * PI)) 0.
Definition kj_ld (tiny : R) (c : kj) (x : R) : fl :=
  if kj_argcheck c then Fin (ln (Rmax (kj_pdf c x) tiny)) else NaN.
(** distributions.py:8611-8630 [_aux_from_rho_lam]; _moment_tolerance is 1e-12. *)
Definition aux_from_rho_lam (gamma rho lam : R) : R * R :=
  let gamma := clip gamma 0 (1 - / 10 ^ 12) in
  let rho := clip rho 0 (1 - / 10 ^ 12) in
  let lam := mod2pi lam in
  if Rleb (1 - / 10 ^ 12) gamma then (0, 0)
  else
    let denom := Rmax (/ 10 ^ 12) (1 - gamma) in
    let dc := rho * cos lam - gamma in
    let ds := rho * sin lam in
    let s := clip (hypot dc ds / denom) 0 (1 - / 10 ^ 9) in
    (s, if Rltb s (/ 10 ^ 12) then 0 else mod2pi (arctan2 ds dc)).
(** distributions.py:8632-8646 [_rho_lam_from_aux]. *)
Definition rho_lam_from_aux (gamma s phi : R) : R * R :=
  let gamma := clip gamma 0 (1 - / 10 ^ 9) in
  let s := clip s 0 (1 - / 10 ^ 9) in
  let phi := mod2pi phi in
  let rc := gamma + (1 - gamma) * s * cos phi in
  let rs := (1 - gamma) * s * sin phi in
  (clip (hypot rc rs) 0 (1 - / 10 ^ 9), mod2pi (arctan2 rs rc)).
(** clustering.py:545-549. *)
Definition gamma_floor : R := / 10 ^ 4.
Definition gamma_margin : R := 5 / 10 ^ 4.
Definition rho_margin : R := 5 / 10 ^ 4.
Definition constraint_margin : R := 5 / 10 ^ 4.
Definition s_shrink : R := 5 / 10 ^ 3.
(** clustering.py:627-648 [_regularise_params]. *)
Definition regularise (q : kj) : kj :=
  let mu := mod2pi (kj_mu q) in
  let gamma := clip (kj_gamma q) gamma_floor (1 - gamma_margin) in
  let rho := clip (kj_rho q) 0 (1 - rho_margin) in
  let lam := mod2pi (kj_lam q) in
  let limit := (1 - gamma) ^ 2 in
  let gamma := if Rleb limit 0 then 1 - gamma_margin else gamma in
  let limit := if Rleb limit 0 then (1 - gamma) ^ 2 else limit in
  if Rleb (limit - constraint_margin) (kj_constraint gamma rho lam) then
    let (s, phi) := aux_from_rho_lam gamma rho lam in
    let s := clip s 0 (1 - s_shrink) * (1 - s_shrink) in
    let (rho, lam) := rho_lam_from_aux gamma s phi in
    {| kj_mu := mu; kj_gamma := gamma; kj_rho := clip rho 0 (1 - rho_margin); kj_lam := mod2pi lam |}
  else {| kj_mu := mu; kj_gamma := gamma; kj_rho := rho; kj_lam := lam |}.
(** clustering.py:650-659 [_violates_or_degenerate] for finite parameters. *)
Definition degenerate (q : kj) : bool :=
  Rleb (kj_gamma q) gamma_floor || Rleb (1 - rho_margin) (kj_rho q) || Rleb ((1 - kj_gamma q) ^ 2) 0 ||
  Rleb ((1 - kj_gamma q) ^ 2 - constraint_margin / 2) (kj_constraint (kj_gamma q) (kj_rho q) (kj_lam q)).
(** np.clip(p, 1e-300, None) (683). *)
Definition wt300 (q : R) : R := Rmax q (/ 10 ^ 300).
(** clustering.py:739-776 for one component.  [moments] and [mle] are katojones.fit with
    method "moments" / "mle" (finite estimates or an exception); an exception of "mle" is
    caught (770). *)
Definition kj_update (moments : list R -> list fl -> res kj) (mle : list R -> list fl -> kj -> res kj)
    (min_w : R) (alpha : list R) (c : kj) (w : list fl) : res kj :=
  do est <- moments alpha w;
  let moment_est := regularise est in
  let try_ start rest :=
    match mle alpha w start with
    | Ok e => let e := regularise e in if degenerate e then rest else e
    | Err _ => rest
    end in
  match fsum w with
  | Fin ws => if Rleb ws (min_w * INR (length alpha)) then Ok moment_est
              else Ok (try_ (regularise c) (try_ moment_est moment_est))
  | _ => Ok moment_est
  end.
(** One iteration (723-782): nLL is that of the parameters after the update. *)
Definition mokj_step (moments : list R -> list fl -> res kj) (mle : list R -> list fl -> kj -> res kj)
    (tiny min_w : R) (K : nat) (alpha : list R) (st : list fl * list kj) : res ((list fl * list kj) * fl) :=
  let (p, cs) := st in
  let g := gammas wt300 (kj_ld tiny) p cs alpha in
  let p' := normalised (map (flmap (fun x => Rmax x min_w)) (row_sums K g)) in
  do cs' <- rmap (fun c : nat * kj => kj_update moments mle min_w alpha (snd c) (row g (fst c)))
                 (combine (seq 0 (length cs)) cs);
  Ok ((p', cs'), nll wt300 (kj_ld tiny) p' cs' alpha).
(** clustering.py:569-618 [_initialize]: labels of CircKMeans (metric "center", defaults
    max_iter=100, tol=1e-6, start [kseed]) if every cluster occurs, else random ones. *)
Definition mokj_labels (K : nat) (kseed : list nat) (cands : list (list nat)) (alpha : list R) : res (list nat) :=
  match km_fit Center true 360 K 100 (/ 1000000) kseed alpha with
  | Ok k => if covers K (km_labels k) then Ok (km_labels k) else pick K cands
  | Err _ => pick K cands
  end.
(** clustering.py:694-816 [MoKJ.fit]. *)
Definition mokj_fit (moments : list R -> list fl -> res kj) (mle : list R -> list fl -> kj -> res kj)
    (tiny min_w : R) (cfg : em_cfg) (old : flags) (kseed : list nat) (cands : list (list nat)) (X : list R) : res (mix kj) :=
  match X with
  | [] => Err ValueError
  | _ =>
      let alpha := to_rad (c_radian cfg) (c_cycle cfg) X in
      let K := c_K cfg in
      if Nat.ltb (length alpha) K then Err ValueError
      else
        do labels <- mokj_labels K kseed cands alpha;
        do cs <- rmap (fun c => let g := subset alpha labels c in
                                do e <- moments g (map (fun _ => Fin 1) g); Ok (regularise e)) (seq 0 K);
        do out <- em_loop (mokj_step moments mle tiny min_w K alpha) (c_burnin cfg) (c_threshold cfg) (c_iters cfg) 0
                          (even_weights K, cs) [];
        Ok (finish wt300 (kj_ld tiny) alpha old out)
  end.
(** clustering.py:820-857. *)
Definition mokj_bic (tiny : R) (K : nat) (model : option (mix kj)) : res fl :=
  match model with
  | None => Err ValueError
  | Some m =>
      Ok (fadd (fmul (Fin 2) (nll wt300 (kj_ld tiny) (mx_p m) (mx_cs m) (mx_alpha m)))
               (Fin (ln (INR (length (mx_alpha m))) * (5 * INR K - 1))))
  end.
Definition mokj_proba (tiny : R) (is_radian : bool) (full_cycle : R) (model : option (mix kj)) (X : list R) : res (list (list fl)) :=
  match model with
  | None => Err ValueError
  | Some m => Ok (gammas wt300 (kj_ld tiny) (mx_p m) (mx_cs m) (to_rad is_radian full_cycle X))
  end.
Definition mokj_predict (tiny : R) (is_radian : bool) (full_cycle : R) (model : option (mix kj)) (X : list R) : res (list nat) :=
  do g <- mokj_proba tiny is_radian full_cycle model X; Ok (argmax_labels g).

(** ** MoCD *)
(** clustering.py:1043-1086 [_fit_component]: the first fitting method that does not raise.
    [dfit] is distribution.fit with the given method followed by _array_to_params. *)
Fixpoint first_fit {P} (dfit : option string -> list R -> list fl -> res P) (methods : list (option string))
    (alpha : list R) (w : list fl) : res P :=
  match methods with
  | [] => Err RuntimeError
  | m :: t => match dfit m alpha w with Ok c => Ok c | Err _ => first_fit dfit t alpha w end
  end.
Definition fit_component {P} (dfit : option string -> list R -> list fl -> res P) (methods : list (option string))
    (alpha : list R) (w : list fl) (current : option P) : res P :=
  let small := match fsum w with Fin t => Rleb t (/ 10 ^ 12) | _ => true end in
  match small, current with
  | true, Some c => Ok c
  | true, None => first_fit dfit methods alpha (map (fun _ => Fin 1) w)
  | false, _ => first_fit dfit methods alpha w
  end.
(** clustering.py:1146-1164. *)
Definition mocd_step {P} (ld : P -> R -> fl) (dfit : option string -> list R -> list fl -> res P)
    (methods : list (option string)) (K : nat) (alpha : list R) (st : list fl * list P) : res ((list fl * list P) * fl) :=
  let (p, cs) := st in
  let g := gammas wt32 ld p cs alpha in
  let p' := normalised (row_sums K g) in
  do cs' <- rmap (fun c : nat * P =>
                    let w := row g (fst c) in
                    match fsum w with
                    | Fin s => if isclose s 0 then Ok (snd c) else fit_component dfit methods alpha w (Some (snd c))
                    | _ => fit_component dfit methods alpha w (Some (snd c))
                    end)
                 (combine (seq 0 (length cs)) cs);
  Ok ((p', cs'), nll wt32 ld p cs alpha).
(** clustering.py:1127-1193 [MoCD.fit]. *)
Definition mocd_fit {P} (ld : P -> R -> fl) (dfit : option string -> list R -> list fl -> res P)
    (methods : list (option string)) (cfg : em_cfg) (old : flags) (cands : list (list nat)) (X : list R) : res (mix P) :=
  match X with
  | [] => Err ValueError
  | _ =>
      let alpha := to_rad (c_radian cfg) (c_cycle cfg) X in
      let K := c_K cfg in
      if Nat.ltb (length alpha) K then Err ValueError
      else
        do labels <- pick K cands;
        do cs <- rmap (fun c => let g := subset alpha labels c in
                                fit_component dfit methods g (map (fun _ => Fin 1) g) None) (seq 0 K);
        do out <- em_loop (mocd_step ld dfit methods K alpha) (c_burnin cfg) (c_threshold cfg) (c_iters cfg) 0
                          (even_weights K, cs) [];
        Ok (finish wt32 ld alpha old out)
  end.
(** clustering.py:1195-1221. *)
Definition mocd_proba {P} (ld : P -> R -> fl) (cfg : em_cfg) (model : option (mix P)) (X : list R) : res (list (list fl)) :=
  match model with
  | None => Err ValueError
  | Some m => Ok (gammas wt32 ld (mx_p m) (mx_cs m) (to_rad (c_radian cfg) (c_cycle cfg) X))
  end.
Definition mocd_predict {P} (ld : P -> R -> fl) (cfg : em_cfg) (model : option (mix P)) (X : list R) : res (list nat) :=
  do g <- mocd_proba ld cfg model X; Ok (argmax_labels g).
Definition mocd_scores {P} (ld : P -> R -> fl) (cfg : em_cfg) (model : option (mix P)) (X : list R) : res (list fl) :=
  match model with
  | None => Err ValueError
  | Some m => Ok (map (fun x => lse (log_col wt32 ld (mx_p m) (mx_cs m) x)) (to_rad (c_radian cfg) (c_cycle cfg) X))
  end.
(** clustering.py:1250-1257 [bic]: score_samples is called with self.alpha, which is in
    radians already.  [n_params] is len(self.param_names). *)
Definition mocd_bic {P} (ld : P -> R -> fl) (cfg : em_cfg) (n_params : nat) (model : option (mix P)) : res fl :=
  match model with
  | None => Err ValueError
  | Some m =>
      do ll <- mocd_scores ld cfg model (mx_alpha m);
      Ok (fadd (fmul (Fin 2) (fneg (fsum ll)))
               (Fin (ln (INR (length (mx_alpha m))) * INR (c_K cfg * n_params + (c_K cfg - 1)))))
  end.
