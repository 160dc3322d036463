(** Model of pycircstat2/descriptive.py: moments, mean direction, spread,
    distances. *)
From Verif Require Import Prelude NpModel UtilsModel.

(** np.ones_like(alpha). *)
Definition ones (alpha : list R) : list R := map (fun _ => 1) alpha.
(** `w = np.ones_like(alpha) if w is None else w`, a step shared by most
    functions of descriptive.py (43, 87-88, 128-129, ...). *)
Definition weights (alpha : list R) (w : option (list R)) : list R :=
  match w with None => ones alpha | Some w => w end.
(** A weighted sample as angle/weight pairs.  numpy raises on arrays of different
    shape; [combine] would truncate, so statements require equal lengths. *)
Definition wsample := list (R * R).

(** descriptive.py:1547-1585 [compute_C_and_S] on zipped arrays.  numpy yields
    nan/inf when the total weight is 0; statements require a positive total. *)
Definition wtotal (s : wsample) : R := Rsum (map snd s).
Definition compute_C (s : wsample) (p mean : R) : R :=
  Rsum (map (fun x => snd x * cos (p * (fst x - mean))) s) / wtotal s.
Definition compute_S (s : wsample) (p mean : R) : R :=
  Rsum (map (fun x => snd x * sin (p * (fst x - mean))) s) / wtotal s.

(** descriptive.py:9-48 [circ_r], called with alpha and w (Cbar, Sbar computed). *)
Definition circ_r_s (s : wsample) : R :=
  sqrt (compute_C s 1 0 ^ 2 + compute_S s 1 0 ^ 2).
Definition circ_r (alpha : list R) (w : option (list R)) : R :=
  circ_r_s (combine alpha (weights alpha w)).

(** descriptive.py:51-100 [circ_mean]: NaN when np.isclose(r, 0) (atol 1e-8). *)
Definition circ_mean_s (s : wsample) : fl :=
  let Cbar := compute_C s 1 0 in
  let Sbar := compute_S s 1 0 in
  if isclose (circ_r_s s) 0 then NaN else Fin (angmod0 (arctan2 Sbar Cbar)).
Definition circ_mean (alpha : list R) (w : option (list R)) : fl :=
  circ_mean_s (combine alpha (weights alpha w)).

(** descriptive.py:103-141 [circ_mean_and_r]: NaN when isclose(r, 0, atol=1e-12). *)
Definition circ_mean_and_r_s (s : wsample) : fl * R :=
  let Cbar := compute_C s 1 0 in
  let Sbar := compute_S s 1 0 in
  let r := circ_r_s s in
  if isclose12 r 0 then (NaN, r) else (Fin (angmod0 (arctan2 Sbar Cbar)), r).
Definition circ_mean_and_r (alpha : list R) (w : option (list R)) : fl * R :=
  circ_mean_and_r_s (combine alpha (weights alpha w)).

(** descriptive.py:144-198 [circ_mean_and_r_of_means], called with ms and rs.
    The size check is lines 186-187.  A NaN mean makes X, Y and the result NaN. *)
Definition circ_mean_and_r_of_means (ms : list fl) (rs : list R) : res (fl * fl) :=
  if negb (Nat.eqb (length ms) (length rs)) || Nat.eqb (length ms) 0 then Err ValueError
  else if forallb (fun m => match m with Fin _ => true | _ => false end) ms then
    let ms' := map (fun m => match m with Fin x => x | _ => 0 end) ms in
    let X := mean (map2 (fun m r => cos m * r) ms' rs) in
    let Y := mean (map2 (fun m r => sin m * r) ms' rs) in
    let r := hypot X Y in
    if isclose12 r 0 then Ok (NaN, Fin r)
    else Ok (Fin (angmod0 (arctan2 Y X)), Fin r)
  else Ok (NaN, NaN).
(** The same function called with `circs` (lines 176-181): each Circular carries
    the mean and r that circ_mean_and_r computed (base.py:225). *)
Definition circ_mean_and_r_of_circs (groups : list (list R)) : res (fl * fl) :=
  match groups with
  | [] => Err ValueError
  | _ => let mr := map (fun g => circ_mean_and_r g None) groups in
         circ_mean_and_r_of_means (map fst mr) (map snd mr)
  end.

(** descriptive.py:436-486 [circ_var].  np.diff(alpha).min() needs two angles,
    which holds whenever w is not constant (lines 476-479); w[0] of an empty w is
    an IndexError.  `not np.all(w == w[0])` is [negb (all_same w)]. *)
Definition all_same (w : list R) : bool :=
  match w with [] => true | x :: t => forallb (fun y => Reqb y x) t end.
Definition list_min (l : list R) : res R :=
  match l with [] => Err ValueError | x :: t => Ok (Rlmin x t) end.
Definition circ_var (alpha w : option (list R)) (r bin_size : option R) : res R :=
  do r' <- match r with
           | Some r => Ok r
           | None => match alpha with
                     | None => Err ValueError
                     | Some a => Ok (circ_r a w)
                     end
           end;
  do bs <- match bin_size with
           | Some b => Ok (Some b)
           | None =>
               match w with
               | None => Ok None
               | Some [] => Err IndexError
               | Some w' =>
                   if all_same w' then Ok None
                   else match alpha with
                        | None => Err ValueError
                        | Some a => do m <- list_min (diff a); Ok (Some m)
                        end
               end
           end;
  let rc := match bs with
            | None => r'
            | Some b => if Reqb b 0 then r' else r' * (b / (2 * sin (b / 2)))
            end in
  Ok (1 - rc).

(** descriptive.py:362-394 [angular_var]. *)
Definition angular_var (alpha w : option (list R)) (r bin_size : option R) : res R :=
  do v <- circ_var alpha w r bin_size; Ok (2 * v).
(** np.sqrt: NaN on negative input. *)
Definition np_sqrt (x : R) : fl := if Rltb x 0 then NaN else Fin (sqrt x).
(** descriptive.py:397-433 [angular_std]. *)
Definition angular_std (alpha w : option (list R)) (r bin_size : option R) : res fl :=
  do v <- angular_var alpha w r bin_size; Ok (np_sqrt v).
(** descriptive.py:489-526 [circ_std]: sqrt(-2 log(1 - var)).  np.log is -inf at 0
    (so the result is +inf) and NaN below 0. *)
Definition circ_std (alpha w : option (list R)) (r bin_size : option R) : res fl :=
  do v <- circ_var alpha w r bin_size;
  Ok (if Rltb (1 - v) 0 then NaN
      else if Reqb (1 - v) 0 then PInf
      else np_sqrt (- 2 * ln (1 - v))).

(** descriptive.py:1411-1471 [circ_dist] for one pair of angles.
    'center' (1456-1457): np.angle(exp(1j x) / exp(1j y)), the quotient of two
    complex numbers written out. *)
Definition circ_dist_center (x y : R) : R :=
  let d := cos y * cos y + sin y * sin y in
  arctan2 ((sin x * cos y - cos x * sin y) / d) ((cos x * cos y + sin x * sin y) / d).
Definition circ_dist_geodesic (x y : R) : R := PI - Rabs (PI - Rabs (x - y)).
Definition circ_dist_angsep (x y : R) : R := 1 - cos (x - y).
Definition circ_dist_chord (x y : R) : R := sqrt (2 * (1 - cos (x - y))).
Inductive metric := Center | Geodesic | AngSep | Chord.
Definition circ_dist (m : metric) (x y : R) : R :=
  match m with
  | Center => circ_dist_center x y
  | Geodesic => circ_dist_geodesic x y
  | AngSep => circ_dist_angsep x y
  | Chord => circ_dist_chord x y
  end.
(** The metric name argument (1456-1469); other names raise ValueError. *)
Definition metric_of_name (s : string) : res metric :=
  if String.eqb s "center"%string then Ok Center
  else if String.eqb s "geodesic"%string then Ok Geodesic
  else if String.eqb s "angularseparation"%string then Ok AngSep
  else if String.eqb s "chord"%string then Ok Chord
  else Err ValueError.

(** descriptive.py:1474-1513 [circ_pairdist]: all pairs, row-major, and its sum. *)
Definition circ_pairdist (m : metric) (x y : list R) : list R :=
  flat_map (fun a => map (fun b => circ_dist m a b) y) x.

(** descriptive.py:792-829 [circ_mean_deviation]; a NaN (empty alpha) is not
    modelled: statements require alpha non-empty. *)
Definition circ_mean_deviation (alpha beta : list R) : list R :=
  map (fun b => round5 (PI - mean (map (fun a => Rabs (PI - Rabs (a - b))) alpha))) beta.

(** descriptive.py:738-780 [circ_mean_deviation_chunked].  The loop over
    range(0, size, chunk) fills consecutive slices of the result; it is modelled
    by consuming beta chunk by chunk.  Fuel: one unit per iteration, the length of
    beta suffices for a positive chunk. *)
Fixpoint chunk_loop (fuel chunk : nat) (alpha beta : list R) : list R :=
  match fuel with
  | O => []
  | S f =>
      match beta with
      | [] => []
      | _ => map (fun b => round5 (mean (map (fun a => PI - Rabs (PI - Rabs (a - b))) alpha)))
                 (firstn chunk beta)
             ++ chunk_loop f chunk alpha (skipn chunk beta)
      end
  end.
Definition circ_mean_deviation_chunked (alpha beta : list R) (chunk_size : Z) : res (list R) :=
  if Z.leb chunk_size 0 then Err ValueError
  else Ok (chunk_loop (length beta) (Z.to_nat chunk_size) alpha beta).

(** descriptive.py:201-245 [circ_moment] with an explicit mean (0 by default). *)
Definition circ_moment (s : wsample) (p mean : R) : R * R :=
  (compute_C s p mean, compute_S s p mean).
(** descriptive.py:1521-1544 [convert_moment]. *)
Definition convert_moment (mp : R * R) : R * R :=
  (angmod0 (arctan2 (snd mp) (fst mp)), hypot (fst mp) (snd mp)).
(** descriptive.py:248-287 [circ_dispersion]; r1 = 0 divides by zero. *)
Definition circ_dispersion (s : wsample) : R :=
  let mp1 := circ_moment s 1 0 in
  let mp2 := circ_moment s 2 0 in
  let r1 := hypot (fst mp1) (snd mp1) in
  let r2 := hypot (fst mp2) (snd mp2) in
  (1 - r2) / (2 * r1 ^ 2).
(** descriptive.py:290-323 [circ_skewness]: (r2 sin(u2 - 2 u1)) / (1 - r1)^1.5. *)
Definition circ_skewness (s : wsample) : R :=
  let '(u1, r1) := convert_moment (circ_moment s 1 0) in
  let '(u2, r2) := convert_moment (circ_moment s 2 0) in
  (r2 * sin (u2 - 2 * u1)) / Rpower (1 - r1) (3/2).
(** descriptive.py:326-359 [circ_kurtosis]. *)
Definition circ_kurtosis (s : wsample) : R :=
  let '(u1, r1) := convert_moment (circ_moment s 1 0) in
  let '(u2, r2) := convert_moment (circ_moment s 2 0) in
  (r2 * cos (u2 - 2 * u1) - r1 ^ 4) / (1 - r1) ^ 2.
