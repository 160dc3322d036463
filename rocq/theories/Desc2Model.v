(** Model of pycircstat2/descriptive.py: medians, intervals, kappa, range,
    quantiles. *)
From Verif Require Import Prelude NpModel UtilsModel DescModel.

(** What a median routine returns: np.nan, a scalar, or an array of candidates. *)
Inductive medout := MNaN | MOne (a : R) | MMany (l : list R).

(** Entries of [vals] whose key is the minimum of [keys]:
    `vals[np.where(keys == keys.min())[0]]`. *)
Definition select_min (keys vals : list R) : list R :=
  match keys with
  | [] => []
  | k :: ks => map snd (filter (fun p => Reqb (fst p) (Rlmin k ks)) (combine keys vals))
  end.
(** descriptive.py:694-706 and 723-735: NaN when every point is a candidate, the
    point itself when there is one candidate, else all the candidates. *)
Definition pick (alpha cands : list R) : medout :=
  if Nat.eqb (length cands) (length alpha) then MNaN
  else match cands with
       | [a] => MOne a
       | _ => MMany cands
       end.
(** descriptive.py:709-735 [_circ_median_mean_deviation]; the chunked path for
    more than 10000 angles uses the default chunk size 1000. *)
Definition circ_median_mean_deviation (alpha : list R) : res medout :=
  do angdist <- (if Z.ltb 10000 (Z.of_nat (length alpha))
                 then circ_mean_deviation_chunked alpha alpha 1000
                 else Ok (circ_mean_deviation alpha alpha));
  Ok (pick alpha (select_min angdist alpha)).

(** descriptive.py:676-706 [_circ_median_count].  For column j, [right] counts the
    i with 0 < round(angmod(alpha_i - alpha_j), 5) < round(pi, 5), [exact] those
    close to 0 or round(pi, 5). *)
Definition count_if {A} (p : A -> bool) (l : list A) : nat := length (filter p l).
Definition count_diff (alpha : list R) (aj : R) : R :=
  let rotated := map (fun ai => round5 (angmod0 (ai - aj))) alpha in
  let right := INR (count_if (fun x => Rltb 0 x && Rltb x (round5 PI)) rotated) in
  let exact := INR (count_if (fun x => isclose x 0 || isclose x (round5 PI)) rotated) in
  let left := INR (length alpha) - right - / 2 * exact in
  let right' := right + / 2 * exact in
  Rabs (right' - left).
Definition circ_median_count (alpha : list R) : medout :=
  pick alpha (select_min (map (count_diff alpha) alpha) alpha).

(** np.roll on a list: roll 1 moves the last element to the front. *)
Definition roll_right {A} (l : list A) : list A :=
  match rev l with [] => [] | x :: t => x :: rev t end.
Definition roll_left {A} (l : list A) : list A :=
  match l with [] => [] | x :: t => t ++ [x] end.
(** Elements of [vals] whose flag is true: boolean-mask indexing. *)
Definition mask {A} (flags : list bool) (vals : list A) : list A :=
  map snd (filter (fun p => fst p) (combine flags vals)).
(** descriptive.py:618-673 [_circ_median_grouped].  np.diff(alpha).min() raises on
    one bin.  Indexing idx[select][0], idx[select][1] raises IndexError when fewer
    than two bins are selected.  A zero (freq_upper - freq_lower) divides 0 by 0:
    the median is NaN. *)
Definition nth_err {A} (l : list A) (i : nat) : res A :=
  match nth_error l i with Some x => Ok x | None => Err IndexError end.
Definition circ_median_grouped (alpha w : list R) : res medout :=
  let n := Rsum w in
  do bin_size <- list_min (diff alpha);
  let alpha_ub := map (fun a => a + bin_size / 2) alpha in
  let right i := map (fun a => let x := angmod0 (a - nth i alpha_ub 0) in
                               Rleb 0 x && Rleb x (round5 PI)) alpha_ub in
  let halfcircle_right := map (fun i => Rsum (mask (right i) (roll_left w)))
                              (seq 0 (length alpha)) in
  let left0 := map (fun h => n - h) halfcircle_right in
  let left := if Nat.even (length alpha) then left0
              else map2 (fun l o => l - o / 2) left0 (roll_right (roll_right w)) in
  let halffreq := round5 (n / 2) in
  let rng := combine (map round5 left) (map round5 (roll_left left)) in
  let idx := filter (fun i => let p := nth i rng (0, 0) in
                              Rleb (fst p) halffreq && Rleb halffreq (snd p))
                    (seq 0 (length rng)) in
  if Nat.eqb (length idx) (length rng) then Ok MNaN
  else match idx with
       | [i] =>
           let p := nth i rng (0, 0) in
           let freq_lower := Rmin (fst p) (snd p) in
           let freq_upper := Rmax (fst p) (snd p) in
           if Reqb freq_upper freq_lower then Ok MNaN
           else Ok (MOne (nth i alpha_ub 0 +
                          bin_size * ((halffreq - freq_lower) / (freq_upper - freq_lower))))
       | _ =>
           let sel := filter (fun i => let p := nth i rng (0, 0) in
                                       negb (Reqb (fst p) (snd p))) idx in
           do i0 <- nth_err sel 0;
           do i1 <- nth_err sel 1;
           let lower := nth i0 alpha_ub 0 + bin_size in
           let upper := nth i1 alpha_ub 0 in
           if isclose (upper - lower) PI then Ok (MMany [lower - bin_size; upper + bin_size])
           else Ok (MMany [lower; upper])
       end.

(** np.unique of a real array: sorted without repetitions. *)
Fixpoint dedup (l : list R) : list R :=
  match l with
  | x :: (y :: _) as t => if Reqb x y then dedup t else x :: dedup t
  | _ => l
  end.
Definition unique (l : list R) : list R := dedup (nsort l).

(** The averaging step, descriptive.py:603-613: circ_mean of the candidates (a
    0-d array for a scalar).  The result of angmod (615) is applied by the caller. *)
Definition med_list (m : medout) : list R :=
  match m with MNaN => [] | MOne a => [a] | MMany l => l end.
Definition average (m : medout) (f : list R -> list R) : medout :=
  match m with
  | MNaN => MNaN
  | _ => match circ_mean (f (med_list m)) None with Fin x => MOne x | _ => MNaN end
  end.
(** angmod on a scalar, an array or NaN. *)
Definition med_mod (m : medout) : medout :=
  match m with MNaN => MNaN | MOne a => MOne (angmod0 a) | MMany l => MMany (map angmod0 l) end.

(** descriptive.py:529-615 [circ_median].  The early exit (580-583) compares r with
    1 within atol 1e-12 and the default rtol 1e-5 and returns alpha[0] unreduced.
    Alpha is non-empty in every use. *)
Definition circ_median (alpha : list R) (w : option (list R)) (method : option string)
    (return_average : bool) (average_method : string) : res medout :=
  let w' := weights alpha w in
  if isclose12 (circ_r_s (combine alpha w')) 1 then
    (do a <- nth_err alpha 0; Ok (MOne a))
  else
    do m <- (if negb (forallb (fun x => Reqb x 1) w') then circ_median_grouped alpha w'
             else match method with
                  | None => Ok MNaN
                  | Some s =>
                      if String.eqb s "count" then Ok (circ_median_count alpha)
                      else if String.eqb s "deviation" then circ_median_mean_deviation alpha
                      else if String.eqb s "none" then Ok MNaN
                      else Err ValueError
                  end);
    do m' <- (if return_average then
                if String.eqb average_method "all" then Ok (average m (fun l => l))
                else if String.eqb average_method "unique" then Ok (average m unique)
                else Err ValueError
              else Ok m);
    Ok (med_mod m').
(** The call with default arguments: method "deviation", averaged over all. *)
Definition circ_median_default (alpha : list R) : res medout :=
  circ_median alpha None (Some "deviation"%string) true "all"%string.

(** descriptive.py:1588-1632 [compute_hdi].  The loop keeps the first window of
    strictly smaller width; best_width starts at infinity (None). *)
Definition hdi_step (sorted ext : list R) (win : nat)
    (best : option R * (R * R)) (start : nat) : option R * (R * R) :=
  let upper := nth (start + win - 1) ext 0 in
  let lower := nth start sorted 0 in
  let width := upper - lower in
  match fst best with
  | None => (Some width, (lower, upper))
  | Some bw => if Rltb width bw then (Some width, (lower, upper)) else best
  end.
Definition compute_hdi (samples : list R) (ci : R) : res (R * R) :=
  if negb (Rltb 0 ci && Rltb ci 1) then Err ValueError
  else
    let sorted := nsort (map angmod0 samples) in
    let n := length sorted in
    match sorted with
    | [] => Err ValueError
    | s0 :: _ =>
        let win0 := Nat.max 1 (Z.to_nat (Rfloor (ci * INR n))) in
        let win := Nat.min win0 n in
        let ext := sorted ++ map (fun x => x + 2 * PI) sorted in
        let best := fold_left (hdi_step sorted ext win) (seq 0 n) (None, (s0, s0)) in
        Ok (angmod0 (fst (snd best)), angmod0 (snd (snd best)))
    end.

(** descriptive.py:1705-1728 [circ_range]: 2 pi minus the largest spacing; alpha[-1]
    of an empty array is an IndexError. *)
Definition circ_range (alpha : list R) : res R :=
  let s := nsort (map (fun a => pymod a (2 * PI)) alpha) in
  match s with
  | [] => Err IndexError
  | _ =>
      let spacings := diff ((last s 0 - 2 * PI) :: s) in
      match spacings with
      | [] => Err ValueError
      | x :: t => Ok (2 * PI - Rlmax x t)
      end
  end.

(** np.quantile(x, p) of a sorted array, method "linear" or "midpoint": virtual
    index p (n - 1), neighbours floor and floor + 1 (the upper one clipped). *)
Definition quantile_sorted (s : list R) (p : R) (linear : bool) : R :=
  let v := p * (INR (length s) - 1) in
  let lo := Z.to_nat (Rfloor v) in
  let g := v - IZR (Rfloor v) in
  let hi := Nat.min (S lo) (length s - 1) in
  let gamma := if linear then g else if Reqb g 0 then 0 else / 2 in
  nth lo s 0 + gamma * (nth hi s 0 - nth lo s 0).
(** descriptive.py:1775-1778: angles relative to the median, in (-pi, pi]. *)
Definition unroll (m a : R) : R :=
  let x := pymod (a - m) (2 * PI) in if Rltb PI x then x - 2 * PI else x.
(** descriptive.py:1731-1788 [circ_quantile]; one probability, NaN when the median
    is NaN, ValueError (from np.quantile) for a probability outside [0, 1]. *)
Definition circ_quantile (alpha : list R) (p : R) (linear : bool) : res fl :=
  do m <- circ_median_default alpha;
  match m with
  | MOne med =>
      if Rltb p 0 || Rltb 1 p then Err ValueError
      else Ok (Fin (pymod (quantile_sorted (nsort (map (unroll med) alpha)) p linear + med) (2 * PI)))
  | _ => Ok NaN
  end.

(** Swap of the two ends when the mean is not between them (997-998, 1088-1089). *)
Definition orient (m lb ub : R) : R * R :=
  if is_within_circular_range m lb ub then (lb, ub) else (ub, lb).
(** descriptive.py:1003-1091 [_circ_mean_ci_approximate] with mean, r and n given;
    [chi] is chi2.isf(1 - ci, 1), a non-negative number.  np.sqrt of a negative
    number and arccos outside [-1, 1] give NaN bounds, which angmod keeps: None. *)
Definition ci_approximate (mean r n chi : R) : res (option (R * R)) :=
  if Rltb n 8 then Err ValueError
  else
    let R' := n * r in
    let r_min := sqrt (chi / (2 * n)) in
    if Rltb r r_min then Err ValueError
    else
      let rad := if Rleb r (9/10)
                 then (2 * n * (2 * R' ^ 2 - n * chi)) / (4 * n - chi)
                 else n ^ 2 - (n ^ 2 - R' ^ 2) * exp (chi / n) in
      if Rltb rad 0 || Reqb R' 0 then Ok None
      else
        let inner := sqrt rad / R' in
        if Rltb 1 inner || Rltb inner (-1) then Ok None
        else let d := acos inner in
             let '(lb, ub) := orient mean (mean - d) (mean + d) in
             Ok (Some (angmod0 lb, angmod0 ub)).
(** descriptive.py:937-1000 [_circ_mean_ci_dispersion] with the mean given, [z]
    standing for norm.ppf(1 - (1 - ci) / 2), a positive number.  A zero resultant
    divides by zero: an infinite dispersion raises at 986-989, 0/0 gives NaN. *)
Definition ci_dispersion (s : wsample) (mean z : R) : res (option (R * R)) :=
  let n := wtotal s in
  if Rltb n 25 then Err ValueError
  else
    let mp2 := circ_moment s 2 0 in
    if Reqb (circ_r_s s) 0 then
      (if Reqb (hypot (fst mp2) (snd mp2)) 1 then Ok None else Err ValueError)
    else
    let delta := circ_dispersion s in
    if Rltb (delta / n) 0 then Ok None
    else
      let inner := sqrt (delta / n) * z in
      if Rleb 1 inner then Err ValueError
      else if Rltb inner (-1) then Ok None
      else let d := asin inner in
           let '(lb, ub) := orient mean (mean - d) (mean + d) in
           Ok (Some (angmod0 lb, angmod0 ub)).

(** Python indexing of a list: negative indices count from the end. *)
Definition py_index (l : list R) (i : Z) : res R :=
  let n := Z.of_nat (length l) in
  if (Z.leb 0 i && Z.ltb i n)%bool then Ok (nth (Z.to_nat i) l 0)
  else if (Z.leb (- n) i && Z.ltb i 0)%bool then Ok (nth (Z.to_nat (n + i)) l 0)
  else Err IndexError.
(** Position of the last entry of [l] that is below [x], if any:
    `np.where(l < x)[0][-1]`. *)
Fixpoint last_below (i : Z) (x : R) (l : list R) (acc : option Z) : option Z :=
  match l with
  | [] => acc
  | y :: t => last_below (i + 1) x t (if Rltb y x then Some i else acc)
  end.
(** descriptive.py:1265-1296: index arithmetic of [circ_median_ci] for n > 15, with
    the median given and [z] standing for norm.ppf(1 - (1 - ci) / 2).  The final
    angmod (1344) is included. *)
Definition median_ci_indices (alpha : list R) (median z : R) : Z * Z :=
  let n := Z.of_nat (length alpha) in
  let s := nsort alpha in
  let offset := (1 + Rfloor (/ 2 * sqrt (IZR n) * z))%Z in
  let rounded := map round5 s in
  let idx_median := match last_below 0 (round5 median) rounded None with
                    | None => (n - 1)%Z
                    | Some i => i
                    end in
  let idx_lb := (idx_median - offset + 1)%Z in
  let idx_ub0 := (idx_median + offset)%Z in
  let idx_ub1 := if existsb (fun x => Reqb x (round5 median)) rounded
                 then (idx_ub0 + 1)%Z else idx_ub0 in
  let idx_ub := if Z.ltb n idx_ub1 then (idx_ub1 - n)%Z else idx_ub1 in
  let idx_lb' := if Z.ltb idx_lb 0 then (n + idx_lb)%Z else idx_lb in
  (idx_lb', idx_ub).
Definition circ_median_ci_large (alpha : list R) (median z : R) : res (R * R) :=
  let s := nsort alpha in
  let '(i, j) := median_ci_indices alpha median z in
  do lower <- py_index s i;
  do upper <- py_index s j;
  let '(lo, up) := orient median lower upper in
  Ok (angmod0 lo, angmod0 up).
(** descriptive.py:1302-1340: order statistics used for 3 <= n <= 15. *)
Definition median_ci_table (n : nat) : option (nat * nat) :=
  match n with
  | 3 => Some (0, 2) | 4 => Some (0, 3) | 5 => Some (0, 4) | 6 => Some (0, 5)
  | 7 => Some (0, 6) | 8 => Some (0, 7) | 9 => Some (0, 8) | 10 => Some (1, 8)
  | 11 => Some (1, 9) | 12 => Some (2, 9) | 13 => Some (2, 10) | 14 => Some (3, 10)
  | 15 => Some (2, 12) | _ => None
  end%nat.
(** descriptive.py:1265-1344 with the median given; NaN bounds (n < 3) are None. *)
Definition circ_median_ci (alpha : list R) (median z : R) : res (option (R * R)) :=
  if Nat.ltb 15 (length alpha) then
    (do p <- circ_median_ci_large alpha median z; Ok (Some p))
  else match median_ci_table (length alpha) with
       | Some (i, j) =>
           let s := nsort alpha in
           do lo <- nth_err s i;
           do up <- nth_err s j;
           Ok (Some (angmod0 lo, angmod0 up))
       | None => Ok None
       end.

(** descriptive.py:1387-1398: kappa without the small-sample correction. *)
Definition kappa0 (r : R) : R :=
  if Rltb r (53/100) then 2 * r + r ^ 3 + 5 * r ^ 5 / 6
  else if Rltb r (85/100) then - (4/10) + 139/100 * r + (43/100) / (1 - r)
  else let nom := r ^ 3 - 4 * r ^ 2 + 3 * r in
       if Reqb nom 0 then / 10 ^ 16 else 1 / nom.
(** descriptive.py:1347-1408 [circ_kappa].  2 * 1 / (n * kappa) with r = 0 raises
    ZeroDivisionError for a Python float r; a numpy scalar would give -inf and then
    the maximum 0.  The model takes the Python float reading. *)
Definition circ_kappa (r : R) (n : option R) : res R :=
  let kappa := kappa0 r in
  match n with
  | None => Ok kappa
  | Some n =>
      if Rleb n 15 && Rltb r (7/10) then
        if Rltb kappa 2 then
          if Reqb (n * kappa) 0 then Err ZeroDivisionError
          else Ok (Rmax (kappa - 2 * 1 / (n * kappa)) 0)
        else Ok ((n - 1) ^ 3 * kappa / (n ^ 3 + n))
      else Ok kappa
  end.
(** descriptive.py:1635-1658 [compute_smooth_params] for positive kappa. *)
Definition compute_smooth_params (r n : R) : res R :=
  do kappa <- circ_kappa r (Some n);
  if Rleb kappa 0 then Err ZeroDivisionError
  else Ok (sqrt 7 * (1 / sqrt kappa) / Rpower n (/ 5)).
(** descriptive.py:1661-1702 [nonparametric_density_estimation], ordinate at x. *)
Definition npde (alpha : list R) (h radius x : R) : R :=
  let e a := let d := Rabs (x - a) in Rmin (Rmin d (2 * PI - d)) h in
  let weight_sum := Rsum (map (fun a => (1 - e a ^ 2 / h ^ 2) ^ 2) alpha) in
  let f := 9375 / 10000 * weight_sum / (INR (length alpha) * h) in
  radius * sqrt (1 + PI * f) - radius.
