(** Model of visualization.py: the configuration of circ_plot and what it draws for a [Circular]
    object.  Colours, markers, tick labels and the like are not drawn here, but every read of the
    configuration that can raise is kept.  The axes are given (ax is not None). *)
From Coq Require Import String.
From Verif Require Import Prelude NpModel DescModel Desc2Model HypMultiModel BaseModel.
Import ListNotations.
Open Scope R_scope.
Open Scope list_scope.

(** Python values occurring in a configuration; dictionaries are in insertion order. *)
Inductive cval :=
| VNone | VBool (b : bool) | VNum (x : R) | VStr (s : string) | VList (l : list R)
| VDict (items : list (string * cval)).
Definition dict := list (string * cval).
(** A call returns or raises; AttributeError is needed here. *)
Inductive pexn := PKeyError | PTypeError | PAttributeError | PValueError.
Inductive pres (A : Type) := Draw (a : A) | Raise (e : pexn).
Arguments Draw {A} _.
Arguments Raise {A} _.
Definition pbind {A B} (x : pres A) (f : A -> pres B) : pres B := match x with Draw a => f a | Raise e => Raise e end.
Notation "'pdo' x <- e ; f" := (pbind e (fun x => f)) (at level 200, x pattern, right associativity).

(** d.get(k). *)
Fixpoint dget (k : string) (d : dict) : option cval :=
  match d with [] => None | (k', v) :: t => if String.eqb k k' then Some v else dget k t end.
(** d[k] = v. *)
Fixpoint dset (k : string) (v : cval) (d : dict) : dict :=
  match d with [] => [(k, v)] | (k', v') :: t => if String.eqb k k' then (k, v) :: t else (k', v') :: dset k v t end.

(** visualization.py:14-36 [_merge_dicts]; copies are values here. *)
Fixpoint merge_dicts (defaults : dict) (overrides : cval) {struct overrides} : pres dict :=
  match overrides with
  | VDict items =>
      (fix go (merged : dict) (l : list (string * cval)) : pres dict :=
         match l with
         | [] => Draw merged
         | (k, v) :: rest =>
             match v with
             | VBool false => go (dset k (VBool false) merged) rest
             | VBool true => match dget k defaults with Some x => go (dset k x merged) rest | None => Raise PKeyError end
             | VDict sub =>
                 match dget k merged with
                 | Some (VDict cur) =>
                     match (fix go2 (c : dict) (l : list (string * cval)) : pres dict :=
                              match l with
                              | [] => Draw c
                              | (k2, v2) :: rest2 =>
                                  match v2, dget k2 c with
                                  | VDict _, Some (VDict c2) =>
                                      match merge_dicts c2 v2 with
                                      | Draw x => go2 (dset k2 (VDict x) c) rest2
                                      | Raise e => Raise e
                                      end
                                  | _, _ => go2 (dset k2 v2 c) rest2
                                  end
                              end) cur sub with
                     | Draw c => go (dset k (VDict c) merged) rest
                     | Raise e => Raise e
                     end
                 | _ => go (dset k v merged) rest
                 end
             | _ => go (dset k v merged) rest
             end
         end) defaults items
  | _ => Raise PAttributeError
  end.

(** visualization.py:39-83. *)
Definition default_config : dict :=
  [("figsize", VList [5; 5]); ("projection", VStr "polar"); ("grid", VBool true); ("spine", VBool false);
   ("axis", VBool true); ("outward", VBool true); ("zero_location", VStr "N"); ("clockwise", VNum (- 1));
   ("radius", VDict [("ticks", VList [0; 1]); ("lim_max", VNone)]);
   ("scatter", VDict [("marker", VStr "o"); ("color", VStr "black"); ("size", VNum 10); ("r_start", VNum 1)]);
   ("rose", VDict [("bins", VNum 12); ("counts", VBool false); ("color", VStr "gray"); ("edgecolor", VStr "black"); ("alpha", VNum (1 / 2))]);
   ("density", VDict [("method", VStr "nonparametric"); ("color", VStr "black"); ("linestyle", VStr "-")]);
   ("mean", VDict [("color", VStr "black"); ("linestyle", VStr "-"); ("kind", VStr "arrow"); ("ci", VBool true)]);
   ("median", VDict [("color", VStr "black"); ("linestyle", VStr "dotted"); ("ci", VBool true)]);
   ("legend", VBool true)]%string.

(** bool(v). *)
Definition truthy (v : cval) : bool :=
  match v with
  | VNone => false | VBool b => b | VNum x => negb (Reqb x 0) | VStr s => negb (String.eqb s "")
  | VList l => match l with [] => false | _ => true end
  | VDict l => match l with [] => false | _ => true end
  end.
(** v[k] for a string k. *)
Definition item (v : cval) (k : string) : pres cval :=
  match v with
  | VDict d => match dget k d with Some x => Draw x | None => Raise PKeyError end
  | _ => Raise PTypeError
  end.
(** v.get(k, default). *)
Definition get (v : cval) (k : string) (default : cval) : pres cval :=
  match v with
  | VDict d => Draw (match dget k d with Some x => x | None => default end)
  | _ => Raise PAttributeError
  end.
Definition number (v : cval) : pres R := match v with VNum x => Draw x | _ => Raise PTypeError end.

(** np.linspace(a, b, n) for n >= 2. *)
Definition linspace (a b : R) (n : nat) : list R := map (fun i => a + INR i * ((b - a) / INR (n - 1))) (seq 0 n).
(** visualization.py:215: alpha.round(3). *)
Definition round3 (x : R) : R := IZR (rint (x * 1000)) / 1000.
(** visualization.py:215-241: angles and radii of the markers.  np.hstack of nothing raises. *)
Definition scatter (outward : bool) (r_start : R) (alpha : list R) : pres (list (R * R)) :=
  let a := map round3 alpha in
  match a with
  | [] => Raise PValueError
  | _ =>
      Draw (flat_map (fun v => map (fun j => (v, if outward then r_start + 5 / 100 + INR j * (5 / 100) else r_start - 5 / 100 - INR j * (5 / 100)))
                                   (seq 0 (count_if (fun y => Reqb y v) a))) (unique a))
  end.
(** visualization.py:246-287: the density curve.  [nonpar h0 o x] is the ordinate at x of
    nonparametric_density_estimation with the given smoothing parameter, or compute_smooth_params when
    the key is absent (h0 is taken to be a number); [mixture] is the density of mixture_opt, absent when the attribute is not set or None. *)
Definition density_curve (nonpar : option R -> circ_obj -> R -> R) (mixture : option (R -> R)) (o : circ_obj) (d : cval) : pres (list (R * R)) :=
  pdo method <- get d "method" (VStr "nonparametric");
  pdo f <- get d "f" VNone;
  pdo x <- get d "x" VNone;
  match f with
  | VNone =>
      match method with
      | VStr m =>
          if String.eqb m "nonparametric" then
            match d with
            | VDict l =>
                pdo h <- match dget "h0" l with None => Draw None | Some (VNum h) => Draw (Some h) | Some _ => Raise PTypeError end;
                Draw (map (fun t => (t, nonpar h o t)) (linspace 0 (2 * PI) 100))
            | _ => Raise PAttributeError
            end
          else if String.eqb m "MovM" then
            match mixture with
            | Some p => Draw (map (fun t => (t, p t)) (linspace 0 (2 * PI) 100))
            | None => Raise PAttributeError
            end
          else Raise PValueError
      | _ => Raise PValueError
      end
  | VList f =>
      match x with
      | VNone => Draw (combine (linspace 0 (2 * PI) (List.length f)) f)
      | VList x => if Nat.eqb (List.length x) (List.length f) then Draw (combine x f) else Raise PValueError
      | _ => Raise PValueError
      end
  | _ => Raise PValueError
  end.
(** visualization.py:308-316: centres and counts of the rose diagram; np.histogram wants a positive
    whole number of bins here. *)
Definition rose_data (rose : cval) (o : circ_obj) : pres (list R * list R) :=
  if o_grouped o then Draw (o_alpha o, o_w o)
  else
    pdo b <- item rose "bins";
    pdo k <- number b;
    let k := Rfloor k in
    if Z.ltb k 1 then Raise PValueError
    else let e := even_edges (Z.to_nat k) in Draw (centers e, hist_counts (o_alpha o) e).
(** visualization.py:318-332: (centre, height) of the bars. *)
Definition np_max_of (l : list R) : R := match l with [] => 0 | x :: t => fold_left Rmax t x end.
Definition bars (beta w : list R) : list (R * R) := combine beta (map (fun x => sqrt x / np_max_of (map sqrt w)) w).
(** visualization.py:383-388 and 414-419: the angles of the arc of an interval; NaN bounds draw nothing. *)
Definition arc (ci : option (R * R)) : list R :=
  match ci with
  | None => []
  | Some (lb, ub) => if Rltb lb ub then linspace lb ub 50 else linspace lb (ub + 2 * PI) 50
  end.

Record plot := {
  p_scatter : list (R * R); p_density : option (list (R * R)); p_bars : list (R * R); p_width : R;
  p_mean_arc : option (list R); p_median_arc : option (list R); p_spine : cval }.
(** visualization.py:201-455 [circ_plot]. *)
Definition circ_plot (nonpar : option R -> circ_obj -> R -> R) (mixture : option (R -> R)) (o : circ_obj) (config : option dict) : pres plot :=
  pdo c <- merge_dicts default_config (VDict (match config with Some d => d | None => [] end));
  let c := VDict c in
  pdo dens <- item c "density";
  (* 212-303 *)
  pdo points <- (if o_grouped o then Draw ([], None)
                 else
                   pdo out <- item c "outward";
                   pdo sc <- item c "scatter";
                   pdo r0 <- item sc "r_start";
                   pdo r0 <- number r0;
                   pdo s <- scatter (truthy out) r0 (o_alpha o);
                   pdo _ <- item sc "marker"; pdo _ <- item sc "color"; pdo _ <- item sc "size";
                   pdo d <- (if truthy dens then pdo f <- density_curve nonpar mixture o dens; Draw (Some f) else Draw None);
                   pdo rad <- item c "radius";
                   pdo lim <- item rad "lim_max";
                   (* 293-294: the maximum of an empty curve *)
                   match d, lim with
                   | Some [], VNone => Raise PValueError
                   | _, _ => Draw (s, d)
                   end);
  (* 306-366 *)
  pdo rose <- item c "rose";
  pdo bw <- (if truthy rose then
               pdo bd <- rose_data rose o;
               let '(beta, w) := bd in
               pdo width <- get c "width" (VNum (2 * PI / INR (List.length beta)));
               pdo width <- number width;
               pdo _ <- item rose "color"; pdo _ <- item rose "edgecolor"; pdo _ <- item rose "alpha"; pdo _ <- item rose "counts";
               pdo extra <- (if o_grouped o && truthy dens then
                               match mixture with
                               | None => Raise PAttributeError
                               | Some p => pdo _ <- item c "rlim_max"; Draw (Some (map (fun t => (t, p t)) (linspace 0 (2 * PI) 100)))
                               end
                             else Draw None);
               Draw (bars beta w, width, extra)
             else
               pdo rad <- item c "radius";
               match rad with VDict _ => Draw ([], 0, None) | _ => Raise PTypeError end);
  let '(bs, width, extra) := bw in
  (* 368-401 *)
  pdo mean <- item c "mean";
  pdo mean_arc <- (if truthy mean then
                     pdo _ <- get mean "color" VNone;
                     pdo ci <- item mean "ci";
                     if truthy ci then pdo _ <- item mean "color"; Draw (Some (arc (o_mean_ci o))) else Draw None
                   else Draw None);
  (* 403-431 *)
  pdo median <- item c "median";
  pdo median_arc <- (if truthy median then
                       pdo _ <- item median "color";
                       pdo ci <- item median "ci";
                       if truthy ci then
                         match o_median_ci o with Some ci => Draw (Some (arc ci)) | None => Raise PAttributeError end
                       else Draw None
                     else Draw None);
  (* 433-455 *)
  pdo spine <- item c "spine";
  pdo rad <- item c "radius";
  pdo _ <- item rad "ticks";
  Draw {| p_scatter := fst points; p_density := match snd points with Some d => Some d | None => extra end; p_bars := bs; p_width := width;
          p_mean_arc := mean_arc; p_median_arc := median_arc; p_spine := spine |}.
