(** Model of the base class CircularContinuous (distributions.py:106-717): keyword handling,
    numeric cdf, normaliser cache and descriptive statistics. *)
From Coq Require Import String.
From Verif Require Import Prelude NpModel DistModel.
Open Scope string_scope.

(** ** Keywords *)
(** A keyword value: numbers (an array flattened, a scalar has one entry) or an object that
    np.allclose cannot compare (TypeError). *)
Inductive kwval : Type := KNum (l : list R) | KOther.
Definition kwargs : Type := list (string * kwval).
Definition kw_get (k : string) (kw : kwargs) : option kwval :=
  match find (fun p => String.eqb (fst p) k) kw with Some p => Some (snd p) | None => None end.
Definition kw_has (k : string) (kw : kwargs) : bool := existsb (fun p => String.eqb (fst p) k) kw.
Definition kw_pop (k : string) (kw : kwargs) : kwargs := filter (fun p => negb (String.eqb (fst p) k)) kw.

(** distributions.py:346-356 [_is_default_value]. *)
Definition is_default_value (v : kwval) (default : R) : bool :=
  match v with
  | KNum [] => true
  | KNum l => forallb (fun x => isclose x default) l
  | KOther => false
  end.
(** distributions.py:308-344 [_clean_loc_scale_kwargs]. *)
Definition clean_kwargs (kw : kwargs) : res kwargs :=
  do kw1 <- match kw_get "loc" kw with
            | Some v => if is_default_value v 0 then Ok (kw_pop "loc" kw) else Err TypeError
            | None => Ok kw
            end;
  do kw2 <- match kw_get "scale" kw with
            | Some v => if is_default_value v 1 then Ok (kw_pop "scale" kw1) else Err TypeError
            | None => Ok kw1
            end;
  if existsb (fun a => kw_has a kw) ["floc"; "fscale"; "fix_loc"; "fix_scale"] then Err TypeError else Ok kw2.
(** distributions.py:441-472 [_sanitize_fit_kwargs]. *)
Definition default_or_type_error (k : string) (d : R) (kw : kwargs) : res kwargs :=
  match kw_get k kw with
  | Some v => if is_default_value v d then Ok (kw_pop k kw) else Err TypeError
  | None => Ok kw
  end.
Definition sanitize_fit (kw : kwargs) : res kwargs :=
  do kw <- default_or_type_error "loc" 0 kw;
  do kw <- default_or_type_error "scale" 1 kw;
  if kw_has "fix_loc" kw || kw_has "fix_scale" kw then Err TypeError
  else
    do kw <- default_or_type_error "floc" 0 kw;
    do kw <- default_or_type_error "fscale" 1 kw;
    Ok (("floc", KNum [0]) :: ("fscale", KNum [1]) :: kw).

(** scipy's generated [_parse_args(self, <shapes>, loc=0, scale=1)]: Python's binding of positional
    and keyword arguments; every name gets a value or the call raises TypeError. *)
Definition kw_scalar (v : kwval) : res R := match v with KNum [x] => Ok x | _ => Err TypeError end.
Fixpoint bind_args (names : list (string * option R)) (args : list R) (kw : kwargs) : res (list R) :=
  match names with
  | [] => match args with [] => Ok [] | _ => Err TypeError end
  | (n, d) :: names' =>
      match args with
      | a :: args' => if kw_has n kw then Err TypeError else (do r <- bind_args names' args' kw; Ok (a :: r))
      | [] =>
          do v <- match kw_get n kw, d with
                  | Some v, _ => kw_scalar v
                  | None, Some d => Ok d
                  | None, None => Err TypeError
                  end;
          do r <- bind_args names' [] kw; Ok (v :: r)
      end
  end.
Definition parse_args (shapes : list string) (args : list R) (kw : kwargs) : res (list R * R * R) :=
  let names := (map (fun n => (n, None)) shapes ++ [("loc", Some 0); ("scale", Some 1)])%list in
  if existsb (fun p => negb (existsb (fun n => String.eqb (fst p) (fst n)) names)) kw then Err TypeError
  else
    do v <- bind_args names args kw;
    let k := length shapes in
    Ok (firstn k v, nth k v 0, nth (S k) v 1).
(** distributions.py:404-406 and scipy's rv_continuous.pdf: shift, scale, support [0, 2 pi]. *)
Definition call_pdf (shapes : list string) (ok : list R -> bool) (pdf : list R -> R -> R) (x : R) (args : list R) (kw : kwargs) : res fl :=
  do kw <- (match kw with [] => Ok [] | _ => clean_kwargs kw end);
  do p <- parse_args shapes args kw;
  let '(sh, loc, scale) := p in
  let y := (wrap_angles x - loc) / scale in
  Ok (if negb (ok sh && Rltb 0 scale) then NaN
      else if Rleb 0 y && Rleb y (2 * PI) then Fin (pdf sh y / scale) else Fin 0).

(** distributions.py:275-306 [_separate_shape_parameters] for scalar shapes (a shape keyword that is
    not one number ends in TypeError later, in float(); 290-304 is the loop over the names). *)
Fixpoint separate_loop (idx : nat) (names : list string) (args : list R) (kw : kwargs) : res (list R * kwargs) :=
  match names with
  | [] => Ok (args, kw)
  | n :: names' =>
      match kw_get n kw with
      | None => separate_loop (S idx) names' args kw
      | Some v =>
          do value <- kw_scalar v;
          if Nat.ltb idx (length args) then
            (if isclose (nth idx args 0) value then separate_loop (S idx) names' args (kw_pop n kw) else Err TypeError)
          else separate_loop (S idx) names' (args ++ [value])%list (kw_pop n kw)
      end
  end.
(** distributions.py:603-608: the shape arguments of [trig_moment]; scipy's expect passes them to
    [_argcheck], whose signature takes exactly one value per shape.  Keywords left over (lb, ub, ...
    of expect) are outside the model and count as errors. *)
Definition moment_args (shapes : list string) (args : list R) (kw : kwargs) : res (list R) :=
  do p <- separate_loop 0 shapes args kw;
  do rest <- clean_kwargs (snd p);
  if Nat.eqb (length (fst p)) (length shapes) && match rest with [] => true | _ => false end then Ok (fst p) else Err TypeError.

(** ** distributions.py:491-578 [_cdf_integral] for finite angles; [quad] integrates. *)
Fixpoint insert_idx (p : nat * R) (l : list (nat * R)) : list (nat * R) :=
  match l with
  | [] => [p]
  | q :: r => if Rleb (snd p) (snd q) then p :: l else q :: insert_idx p r
  end.
(** 536-537: stable argsort. *)
Definition argsort (xs : list R) : list (nat * R) := fold_right insert_idx [] (combine (seq 0 (length xs)) xs).
(** 542-572. *)
Fixpoint cdf_pass (quad : R -> R -> R) (lower upper cumulative current : R) (l : list (nat * R)) : list (nat * R) :=
  match l with
  | [] => []
  | (i, value) :: rest =>
      if Rleb value lower then (i, 0) :: cdf_pass quad lower upper cumulative current rest
      else
        let clipped := Rmin value upper in
        let '(cumulative, current) :=
          if Rltb (current + / 10 ^ 15) clipped then (cumulative + quad current clipped, clipped) else (cumulative, current) in
        if Rleb upper value then (i, 1) :: cdf_pass quad lower upper 1 upper rest
        else (i, cumulative) :: cdf_pass quad lower upper cumulative current rest
  end.
Definition cdf_integral (quad : R -> R -> R) (lower upper : R) (xs : list R) : list R :=
  let out := cdf_pass quad lower upper 0 lower (argsort xs) in
  map (fun i => match find (fun p => Nat.eqb (fst p) i) out with Some p => clip (snd p) 0 1 | None => 0 end) (seq 0 (length xs)).

(** ** distributions.py:596-717: statistics from the first two trigonometric moments *)
(** 615-616. *)
Definition cc_r (m : R * R) : R := clip (hypot (fst m) (snd m)) 0 1.
(** 620-624, 689. *)
Definition cc_mean (m1 : R * R) : fl :=
  if isclose12 (cc_r m1) 0 then NaN else Fin (wrap_direction (arctan2 (snd m1) (fst m1))).
(** 633. *)
Definition cc_var (m1 : R * R) : R := 1 - cc_r m1.
(** 637-640. *)
Definition cc_std (m1 : R * R) : fl :=
  let R := clip (cc_r m1) 0 1 in
  if isclose12 R 0 then PInf else Fin (sqrt (Rmax 0 (- 2 * ln (clip R ftiny 1)))).
(** 644-650. *)
Definition cc_dispersion (m1 m2 : R * R) : fl :=
  let r1 := cc_r m1 in
  if isclose12 r1 0 then PInf else Fin ((1 - cc_r m2) / (2 * r1 * r1)).
(** 654-665: denom_base ** 1.5. *)
Definition cc_skewness (m1 m2 : R * R) : fl :=
  let u1 := arctan2 (snd m1) (fst m1) in
  let u2 := arctan2 (snd m2) (fst m2) in
  let d := Rmax 0 (1 - cc_r m1) in
  if isclose12 d 0 then NaN else Fin (cc_r m2 * sin (u2 - 2 * u1) / Rpower d (3 / 2)).
(** 669-680. *)
Definition cc_kurtosis (m1 m2 : R * R) : fl :=
  let u1 := arctan2 (snd m1) (fst m1) in
  let u2 := arctan2 (snd m2) (fst m2) in
  let r1 := cc_r m1 in
  let d := Rmax 0 (1 - r1) in
  if isclose12 d 0 then NaN else Fin ((cc_r m2 * cos (u2 - 2 * u1) - r1 ^ 4) / d ^ 2).
(** 682-717: mean, median, r, var, std, dispersion, skewness, kurtosis; [median] is ppf(0.5). *)
Definition cc_stats (m1 m2 : R * R) (median : fl) : fl * fl * R * R * fl * fl * fl * fl :=
  let r1 := clip (hypot (fst m1) (snd m1)) 0 1 in
  let u1 := arctan2 (snd m1) (fst m1) in
  let r1_is_zero := isclose12 r1 0 in
  let mean_val := if r1_is_zero then NaN else Fin (wrap_direction u1) in
  let r2 := clip (hypot (fst m2) (snd m2)) 0 1 in
  let u2 := arctan2 (snd m2) (fst m2) in
  let d := Rmax 0 (1 - r1) in
  let '(skew, kurt) :=
    if isclose12 d 0 then (NaN, NaN)
    else (Fin (r2 * sin (u2 - 2 * u1) / Rpower d (3 / 2)), Fin ((r2 * cos (u2 - 2 * u1) - r1 ^ 4) / d ^ 2)) in
  let std_val := if r1_is_zero then PInf else Fin (sqrt (Rmax 0 (- 2 * ln (clip r1 ftiny 1)))) in
  let disp := if r1_is_zero then PInf else Fin ((1 - r2) / (2 * r1 * r1)) in
  (mean_val, median, r1, 1 - r1, std_val, disp, skew, kurt).
(** distributions.py:626-629 [median]: the quantile of one half. *)
Definition cc_median (ok : bool) (ppf : R -> R) : fl := public_ppf ok ppf (1 / 2).
