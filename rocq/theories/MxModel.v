(** Model of the mixture estimators' constructors and of predict_density (clustering.py); the fits are in
    EmModel. *)
From Verif Require Import Prelude UtilsModel DescModel HypMultiModel HypMulti2Model CorrModel ClusModel EmModel DistModel WnModel.
From Coq Require Import String.
Import ListNotations.
Open Scope R_scope.
Open Scope list_scope.

(** ** Constructors *)
(** The arguments checked; n_clusters, n_iters and burnin are Python ints. *)
Record em_args := { a_burnin : Z; a_K : Z; a_iters : Z; a_threshold : R; a_unit : string; a_cycle : R }.
(** clustering.py:91-106 (MovM), 523-538 (MoKJ): the same checks in the same order. *)
Definition em_init (a : em_args) : res em_cfg :=
  if Z.ltb (a_burnin a) 0 then Err ValueError
  else if Z.leb (a_K a) 0 then Err ValueError
  else if Z.leb (a_iters a) 0 then Err ValueError
  else if Rleb (a_threshold a) 0 then Err ValueError
  else if negb (String.eqb (a_unit a) "degree" || String.eqb (a_unit a) "radian") then Err ValueError
  else Ok {| c_burnin := Z.to_nat (a_burnin a); c_K := Z.to_nat (a_K a); c_iters := Z.to_nat (a_iters a);
             c_threshold := a_threshold a; c_radian := String.eqb (a_unit a) "radian"; c_cycle := a_cycle a |}.

(** clustering.py:13-19 [ALLOWED_MOCD_DISTRIBUTIONS]. *)
Definition allowed_mocd : list string := ["cardioid"; "cartwright"; "wrapnorm"; "wrapcauchy"; "vonmises"]%string.
(** What MoCD looks at in its distribution argument: whether it is a CircularContinuous, its name, the
    names in [shapes] (split at commas and stripped) and whether fit has a weights parameter. *)
Record dist_arg := { d_circular : bool; d_name : string; d_shapes : list string; d_weights : bool }.
(** fit_method: None, a string, or a sequence of strings and None. *)
Inductive fit_arg := FNone | FStr (s : string) | FSeq (l : list (option string)).
(** clustering.py:1010-1024 [_normalise_fit_method]. *)
Definition normalise_fit_method (f : fit_arg) : list (option string) :=
  match f with
  | FNone => [None]
  | FSeq [] => [None]
  | FSeq l => map (option_map lower) l
  | FStr s => if String.eqb (lower s) "auto" then [Some "moments"%string; Some "mle"%string] else [Some (lower s)]
  end.
(** What the constructor leaves: the settings, param_names and _method_candidates. *)
Record mocd_cfg := { o_cfg : em_cfg; o_names : list string; o_methods : list (option string) }.
(** clustering.py:929-994 [MoCD.__init__].  [kw_method] is fit_kwargs["method"].  The special case at 988-992
    names two distributions that 947 has refused already. *)
Definition mocd_init (d : dist_arg) (param_names : option (list string)) (fit_method : fit_arg) (kw_method : option string)
    (a : em_args) : res mocd_cfg :=
  if negb (d_circular d) then Err TypeError
  else if Z.leb (a_K a) 0 then Err ValueError
  else if Z.leb (a_iters a) 0 then Err ValueError
  else if Z.ltb (a_burnin a) 0 then Err ValueError
  else if Rleb (a_threshold a) 0 then Err ValueError
  else if negb (String.eqb (a_unit a) "degree" || String.eqb (a_unit a) "radian") then Err ValueError
  else if negb (existsb (String.eqb (lower (d_name d))) allowed_mocd) then Err ValueError
  else if negb (d_weights d) then Err ValueError
  else
    let names := match param_names with Some l => l | None => d_shapes d end in
    match names with
    | [] => Err ValueError
    | _ =>
        let methods := match kw_method with Some m => [Some (lower m)] | None => normalise_fit_method fit_method end in
        let auto := match fit_method with FNone => true | FStr s => String.eqb (lower s) "auto" | FSeq _ => false end in
        let flat := String.eqb (lower (d_name d)) "vonmises_flattopped" || String.eqb (lower (d_name d)) "inverse_batschelet" in
        let methods := if auto && flat then [Some "mle"%string] else methods in
        Ok {| o_cfg := {| c_burnin := Z.to_nat (a_burnin a); c_K := Z.to_nat (a_K a); c_iters := Z.to_nat (a_iters a);
                          c_threshold := a_threshold a; c_radian := String.eqb (a_unit a) "radian"; c_cycle := a_cycle a |};
              o_names := names; o_methods := methods |}
    end.
(** What distribution.fit or its fallback returns: a dict or a sequence of numbers. *)
Inductive est := EDict (d : list (string * R)) | ESeq (l : list R).
Fixpoint lookup (k : string) (d : list (string * R)) : res R :=
  match d with [] => Err KeyError | (k', v) :: t => if String.eqb k k' then Ok v else lookup k t end.
(** clustering.py:1032-1041 [_array_to_params]: the dict {name: value}, as pairs in the order of param_names. *)
Definition array_to_params (names : list string) (e : est) : res (list (string * R)) :=
  match e with
  | EDict d => rmap (fun n => do v <- lookup n d; Ok (n, v)) names
  | ESeq l => if Nat.eqb (List.length l) (List.length names) then Ok (combine names l) else Err ValueError
  end.
(** clustering.py:1029-1030 [_params_to_array]. *)
Definition params_to_array (names : list string) (d : list (string * R)) : res (list R) := rmap (fun n => lookup n d) names.

(** ** predict_density *)
(** clustering.py:360-399 (MovM), 859-883 (MoKJ), 1223-1248 (MoCD).  [missing] is the exception before
    a fit, [n] the size of the default grid.  [is_radian] and [full_cycle] are the estimator's own
    settings unless given. *)
Definition predict_density {P} (missing : exn) (n : nat) (pdf : P -> R -> fl) (is_radian : bool) (full_cycle : R)
    (model : option (mix P)) (X : option (list R)) : res (list fl) :=
  match model with
  | None => Err missing
  | Some m => Ok (map (density pdf m)
                      (match X with Some x => to_rad is_radian full_cycle x | None => density_grid n is_radian full_cycle end))
  end.
(** 393-397: zip(None, None, None) is a TypeError. *)
Definition movm_predict_density (I0 : R -> R) := predict_density TypeError 400 (vm_pdf I0).
Definition mokj_predict_density := predict_density ValueError 400 (fun c => public_pdf (kj_argcheck c) (kj_pdf c)).
Definition mocd_predict_density {P} (pdf : P -> R -> fl) := predict_density ValueError 200 pdf.

(** ** MoCD(wrapnorm) *)
(** The public pdf of a component and its logarithm (scipy's default logpdf). *)
Definition wn_comp_pdf (c : R * R) (x : R) : fl := public_pdf (wn_ok (fst c) (snd c)) (wn_pdf (fst c) (snd c)) x.
Definition wn_comp_ld (c : R * R) (x : R) : fl :=
  match wn_comp_pdf c x with
  | Fin v => if Rltb 0 v then Fin (ln v) else if Reqb v 0 then NInf else NaN
  | _ => NaN
  end.
(** distributions.py:2690-2779 [fit] by weights; [mle] stands for method="mle". *)
Definition wn_dfit (mle : list R -> list fl -> res (R * R)) (method : option string) (alpha : list R) (w : list fl) : res (R * R) :=
  match method with
  | Some m => if String.eqb m "moments" then wn_fit_moments (combine alpha (map fval w)) else mle alpha w
  | None => mle alpha w
  end.
