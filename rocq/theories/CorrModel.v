(** Model of pycircstat2/correlation.py. *)
From Verif Require Import Prelude NpModel UtilsModel DescModel HypMultiModel HypMulti2Model.
From Coq Require Import Ascii.

(** A data argument: an array (or sequence) of angles, or a Circular object with its
    angles `alpha` and the p-value of its `mean_test_result`. *)
Inductive ang_arg := Arr (l : list R) | Circ (alpha : list R) (mean_test_pval : R).
(** correlation.py:92-107 [_coerce_angles].  The second component is
    getattr(data, "mean_pval", None): base.py:147-292 stores the p-value in the local
    variable mean_pval (229) and in mean_test_result (228), never as an attribute
    mean_pval, so the value is None.  Arrays are one-dimensional here. *)
Definition coerce_angles (x : ang_arg) : res (list R * option R) :=
  match x with
  | Circ alpha _ => Ok (alpha, None)
  | Arr [] => Err ValueError
  | Arr l => Ok (l, None)
  end.

(** correlation.py:11-16 [CorrelationResult]. *)
Record corr_result := { cr_r : fl; cr_p_value : option fl; cr_reject : option bool; cr_test_stat : option fl }.

(** The entries above the diagonal, row by row (np.triu_indices(n, k=1)). *)
Fixpoint triu {A} (l : list A) : list (A * A) :=
  match l with
  | [] => []
  | x :: t => map (fun y => (x, y)) t ++ triu t
  end.
(** correlation.py:145-146. *)
Definition fl_diff (a : list R) : list R := map (fun p => sin (fst p - snd p)) (triu a).
(** correlation.py:144-151 [_corr]. *)
Definition fl_corr (a b : list R) : res R :=
  let diff_a := fl_diff a in
  let diff_b := fl_diff b in
  let num := Rsum (vmul diff_a diff_b) in
  let den := sqrt (Rsum (map (fun x => x ^ 2) diff_a) * Rsum (map (fun x => x ^ 2) diff_b)) in
  if isclose den 0 then Err ValueError else Ok (num / den).
(** np.delete(l, i). *)
Definition np_delete {A} (l : list A) (i : nat) : list A := firstn i l ++ skipn (S i) l.
(** correlation.py:110-172 [_circ_corrcc_fl]; [z975] is norm.ppf(0.975). *)
Definition circ_corrcc_fl (z975 : R) (a b : ang_arg) (test strict : bool) : res corr_result :=
  do ca <- coerce_angles a;
  do cb <- coerce_angles b;
  let a := fst ca in
  let b := fst cb in
  if negb (Nat.eqb (length a) (length b)) then Err ValueError
  else if Nat.ltb (length a) 2 then Err ValueError
  else
    do r <- fl_corr a b;
    if test then
      let n := INR (length a) in
      do raas <- rmap (fun i => fl_corr (np_delete a i) (np_delete b i)) (seq 0 (length a));
      let m := mean raas in
      let s2 := var1 raas in
      let lb := n * r - (n - 1) * m - z975 * sqrt (s2 / n) in
      let ub := n * r - (n - 1) * m + z975 * sqrt (s2 / n) in
      Ok {| cr_r := Fin r; cr_p_value := None; cr_reject := Some (negb (Rleb lb 0 && Rleb 0 ub));
            cr_test_stat := None |}
    else Ok {| cr_r := Fin r; cr_p_value := None; cr_reject := None; cr_test_stat := None |}.

(** correlation.py:175-242 [_circ_corrcc_js]; [ncdf] is norm.cdf.  An undefined mean
    direction is NaN and makes every later value NaN; np.isclose(nan, 0) is False. *)
Definition circ_corrcc_js (ncdf : R -> R) (a b : ang_arg) (test strict : bool) : res corr_result :=
  do ca <- coerce_angles a;
  do cb <- coerce_angles b;
  let (a, a_pval) := ca in
  let (b, b_pval) := cb in
  let uniform p := match p with Some p => strict && Rleb (5/100) p | None => false end in
  if negb (Nat.eqb (length a) (length b)) then Err ValueError
  else if Nat.ltb (length a) 2 then Err ValueError
  else if uniform a_pval then Err ValueError
  else if uniform b_pval then Err ValueError
  else
    match circ_mean a None, circ_mean b None with
    | Fin ma, Fin mb =>
        let Sa := map (fun x => sin (x - ma)) a in
        let Sb := map (fun x => sin (x - mb)) b in
        let sq l := map (fun x => x ^ 2) l in
        let num := Rsum (vmul Sa Sb) in
        let den := sqrt (Rsum (sq Sa) * Rsum (sq Sb)) in
        if isclose den 0 then Err ValueError
        else
          let r := num / den in
          if test then
            let l20 := mean (sq Sa) in
            let l02 := mean (sq Sb) in
            let l22 := mean (vmul (sq Sa) (sq Sb)) in
            if isclose l22 0 then Err ValueError
            else
              let stat := sqrt (INR (length a)) * sqrt (l20 * l02 / l22) * r in
              Ok {| cr_r := Fin r; cr_p_value := Some (Fin (2 * (1 - ncdf (Rabs stat))));
                    cr_reject := None; cr_test_stat := Some (Fin stat) |}
          else Ok {| cr_r := Fin r; cr_p_value := None; cr_reject := None; cr_test_stat := None |}
    | _, _ =>
        let t := if test then Some NaN else None in
        Ok {| cr_r := NaN; cr_p_value := t; cr_reject := None; cr_test_stat := t |}
    end.

(** correlation.py:245-277 [_circ_corrcc_np]. *)
Definition np_r (n : R) (ranks : list R) : R :=
  (Rsum (map (fun k => cos (2 * PI / n * k)) ranks) ^ 2 + Rsum (map (fun k => sin (2 * PI / n * k)) ranks) ^ 2) / n ^ 2.
Definition circ_corrcc_np (a b : ang_arg) (test strict : bool) : res corr_result :=
  do ca <- coerce_angles a;
  do cb <- coerce_angles b;
  let a := fst ca in
  let b := fst cb in
  if negb (Nat.eqb (length a) (length b)) then Err ValueError
  else if Nat.ltb (length a) 3 then Err ValueError
  else
    let n := INR (length a) in
    let rank_a := map (rank_avg a) a in
    let rank_b := map (rank_avg b) b in
    let r := np_r n (map2 Rminus rank_a rank_b) - np_r n (map2 Rplus rank_a rank_b) in
    Ok {| cr_r := Fin r; cr_p_value := None;
          cr_reject := Some (Rltb (299/100 + 216/100 / n) ((n - 1) * r)); cr_test_stat := None |}.

(** str.lower on ASCII letters. *)
Definition lower_ascii (c : ascii) : ascii :=
  let k := nat_of_ascii c in
  if Nat.leb 65 k && Nat.leb k 90 then ascii_of_nat (k + 32) else c.
Fixpoint lower (s : string) : string :=
  match s with EmptyString => EmptyString | String c t => String (lower_ascii c) (lower t) end.
(** correlation.py:19-89 [circ_corrcc]: a CorrelationResult, or its r when not test. *)
Inductive cc_out := OnlyR (r : fl) | Full (c : corr_result).
Definition circ_corrcc (z975 : R) (ncdf : R -> R) (a b : ang_arg) (method : string) (test strict : bool) : res cc_out :=
  let method := lower method in
  do result <- (if String.eqb method "fl" then circ_corrcc_fl z975 a b test strict
                else if String.eqb method "js" then circ_corrcc_js ncdf a b test strict
                else if String.eqb method "nonparametric" then circ_corrcc_np a b test strict
                else Err ValueError);
  Ok (if test then Full result else OnlyR (cr_r result)).

(** np.corrcoef(x, y)[0, 1]; 0/0 when one variance is zero. *)
Definition corrcoef (x y : list R) : fl :=
  if Reqb (var1 x) 0 || Reqb (var1 y) 0 then NaN
  else Fin (cov1 x y / sqrt (var1 x * var1 y)).
(** correlation.py:280-339 [circ_corrcl]: (r, p_value); [ccdf] is chi2(df=2).cdf.  Python's
    max(nan, 0.0) is nan. *)
Definition circ_corrcl (ccdf : R -> R) (a : ang_arg) (x : list R) : res (fl * fl) :=
  do ca <- coerce_angles a;
  let a := fst ca in
  if negb (Nat.eqb (length a) (length x)) then Err ValueError
  else if Nat.ltb (length a) 3 then Err ValueError
  else
    let rxc := corrcoef (map cos a) x in
    let rxs := corrcoef x (map sin a) in
    match corrcoef (map sin a) (map cos a) with
    | Fin rcs =>
        let den := 1 - rcs ^ 2 in
        if isclose den 0 then Err ValueError
        else match rxc, rxs with
             | Fin rxc, Fin rxs =>
                 let num := rxc ^ 2 + rxs ^ 2 - 2 * rxc * rxs * rcs in
                 let r := sqrt (Rmax (num / den) 0) in
                 Ok (Fin r, Fin (1 - ccdf (INR (length a) * r ^ 2)))
             | _, _ => Ok (NaN, NaN)
             end
    | _ => Ok (NaN, NaN)
    end.
