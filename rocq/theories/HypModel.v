(** Model of pycircstat2/hypothesis.py: one-sample tests (lines 374-962, 1958-2024). *)
From Verif Require Import Prelude NpModel UtilsModel DescModel Desc2Model.

(** Shape check repeated in the one-sample tests (450-458, 629-637, 714-722): alpha
    is not empty and w, when given, has the shape of alpha. *)
Definition sample_args (alpha w : option (list R)) : res (list R * list R) :=
  match alpha with
  | None => Err ValueError
  | Some a =>
      if Nat.eqb (length a) 0 then Err ValueError
      else let w' := weights a w in
           if negb (Nat.eqb (length w') (length a)) then Err ValueError
           else Ok (a, w')
  end.

(** The Monte Carlo p-value (count(stats >= observed) + 1) / (B + 1), shared by lines
    496, 1553, 1660, 1761 and 1877-1878. *)
Definition mc_pval (B : R) (observed : R) (stats : list R) : R :=
  (INR (count_if (fun s => Rleb observed s) stats) + 1) / (B + 1).

(** hypothesis.py:81-91 [RayleighTestResult]. *)
Record rayleigh_result := { ray_r : R; ray_z : R; ray_pval : R; ray_boot : option R }.
(** 475-478. *)
Definition rayleigh_z (n r : R) : R := n * r ^ 2.
Definition rayleigh_p (n r : R) : R :=
  let R' := n * r in
  exp (sqrt (1 + 4 * n + 4 * (n ^ 2 - R' ^ 2)) - (1 + 2 * n)).
(** 492-495: the statistic of one simulated row of n uniform angles:
    |sum exp(i u)|^2 / n. *)
Definition rayleigh_boot_stat (n : R) (row : list R) : R :=
  (hypot (Rsum (map cos row)) (Rsum (map sin row))) ^ 2 / n.
(** hypothesis.py:374-513 [rayleigh_test].  [draws] are the rows the generator
    produced (B rows of n angles).  `round` is half-to-even, so is [rint]. *)
Definition rayleigh_test (alpha w : option (list R)) (r : option R) (n : option Z) (B : Z)
    (draws : list (list R)) : res rayleigh_result :=
  if Z.leb B 0 then Err ValueError
  else
    do rn <- match r with
             | None =>
                 do aw <- sample_args alpha w;
                 let n_total := Rsum (snd aw) in
                 if Rleb n_total 0 then Err ValueError
                 else if negb (isclose n_total (IZR (rint n_total))) then Err ValueError
                 else Ok (circ_r (fst aw) (Some (snd aw)), Some (rint n_total))
             | Some r => Ok (r, n)
             end;
    match snd rn with
    | None => Err ValueError
    | Some n =>
        let r := fst rn in
        if Z.leb n 0 then Err ValueError
        else if negb (Rleb 0 r && Rleb r 1) then Err ValueError
        else
          let z := rayleigh_z (IZR n) r in
          Ok {| ray_r := r; ray_z := z; ray_pval := rayleigh_p (IZR n) r;
                ray_boot := if Z.ltb 1 B
                            then Some (mc_pval (IZR B) z (map (rayleigh_boot_stat (IZR n)) draws))
                            else None |}
    end.

(** hypothesis.py:516-571 [chisquare_test]: scipy.stats.chisquare against equal
    expected frequencies.  [sf] is the chi-square survival function with the given
    degrees of freedom.  All-zero frequencies give 0/0: NaN. *)
Definition chisquare_stat (w : list R) : R :=
  Rsum (map (fun x => (x - mean w) ^ 2 / mean w) w).
Definition chisquare_test (sf : nat -> R -> R) (w : list R) : res (fl * fl) :=
  if Nat.eqb (length w) 0 then Err ValueError
  else if existsb (fun x => Rltb x 0) w then Err ValueError
  else if Reqb (mean w) 0 then Ok (NaN, NaN)
  else Ok (Fin (chisquare_stat w), Fin (sf (length w - 1)%nat (chisquare_stat w))).

(** hypothesis.py:574-665 [V_test]; [sf] is norm.sf.  All three of mean, r and n must
    be given, otherwise all are recomputed from alpha.  int(np.sum(w)) truncates; the
    floor used here agrees wherever the result is positive.  A NaN mean gives NaN. *)
Record v_result := { v_V : fl; v_u : fl; v_pval : fl }.
Definition v_stat (n r mean angle : R) : R := n * r * cos (angmod_val (mean - angle) (- PI) PI).
Definition V_test (sf : R -> R) (angle : R) (alpha w : option (list R))
    (mean : option fl) (r : option R) (n : option Z) : res v_result :=
  do mrn <- match mean, r, n with
            | Some m, Some r, Some n =>
                if Z.leb n 0 then Err ValueError else Ok (m, r, n)
            | _, _, _ =>
                do aw <- sample_args alpha w;
                let n := Rfloor (Rsum (snd aw)) in
                if Z.leb n 0 then Err ValueError
                else let mr := circ_mean_and_r (fst aw) (Some (snd aw)) in
                     Ok (fst mr, snd mr, n)
            end;
  let '(m, r, n) := mrn in
  if negb (Rleb 0 r && Rleb r 1) then Err ValueError
  else match m with
       | Fin m =>
           let V := v_stat (IZR n) r m angle in
           let u := V * sqrt (2 / IZR n) in
           Ok {| v_V := Fin V; v_u := Fin u; v_pval := Fin (sf u) |}
       | _ => Ok {| v_V := NaN; v_u := NaN; v_pval := NaN |}
       end.

(** circ_mean_ci(alpha=alpha, w=w) (descriptive.py:832-934) with its default method
    "approximate"; [chi] is chi2.isf(0.05, 1).  A NaN mean gives NaN bounds. *)
Definition circ_mean_ci_default (chi : R) (alpha w : list R) : res (option (R * R)) :=
  match circ_mean_and_r alpha (Some w) with
  | (Fin m, r) => ci_approximate m r (Rsum w) chi
  | (_, r) => if Rltb (Rsum w) 8 then Err ValueError
              else if Rltb r (sqrt (chi / (2 * Rsum w))) then Err ValueError
              else Ok None
  end.
(** hypothesis.py:668-745 [one_sample_test].  NaN bounds make every comparison of
    is_within_circular_range false: rejected. *)
Definition one_sample_test (chi angle : R) (alpha w : option (list R)) (lb ub : option R)
    : res bool :=
  do ci <- match lb, ub with
           | Some lb, Some ub => Ok (Some (lb, ub))
           | _, _ => do aw <- sample_args alpha w; circ_mean_ci_default chi (fst aw) (snd aw)
           end;
  Ok (match ci with
      | Some (lb, ub) => negb (is_within_circular_range angle lb ub)
      | None => true
      end).

(** hypothesis.py:748-853 [omnibus_test].  793: lines at i * pi / (360 scale).
    829-843: math.lgamma(k + 1) is read as log k!.  A = inf when n <= 2m. *)
Definition omnibus_line (scale : nat) (i : nat) : R := PI * INR i / INR (scale * 360).
Definition omnibus_right (alpha : list R) (line : R) : nat :=
  length alpha - count_if (fun a => let x := angmod0 (line - a) in Rltb 0 x && Rltb x PI) alpha.
Definition nat_min (x : nat) (l : list nat) : nat := fold_left Nat.min l x.
Definition omnibus_m (scale : nat) (alpha : list R) : nat :=
  nat_min (omnibus_right alpha (omnibus_line scale 0))
          (map (fun i => omnibus_right alpha (omnibus_line scale i)) (seq 1 (scale * 360 - 1))).
Record omnibus_result := { omni_A : fl; omni_pval : R; omni_m : nat }.
Definition lnfact (k : nat) : R := ln (INR (fact k)).
Definition omnibus_test (alpha : list R) (scale : Z) : res omnibus_result :=
  if Z.leb scale 0 then Err ValueError
  else if Nat.eqb (length alpha) 0 then Err ValueError
  else
    let n := length alpha in
    let m := omnibus_m (Z.to_nat scale) alpha in
    let denom := INR n - 2 * INR m in
    if Rleb denom 0 then Ok {| omni_A := PInf; omni_pval := 0; omni_m := m |}
    else
      let logp := ln denom + lnfact n - lnfact m - lnfact (n - m) - (INR n - 1) * ln 2 in
      Ok {| omni_A := Fin (PI * sqrt (INR n) / (2 * denom)); omni_pval := exp logp; omni_m := m |}.

(** binom.cdf(k, n, 0.5). *)
Definition binom_cdf (k n : nat) : R := Rsum (map (fun i => C n i) (seq 0 (S k))) / 2 ^ n.
(** scipy.stats.binomtest(k, n, p=0.5).pvalue, two-sided: 1 at the centre, otherwise
    both tails, which are equal for p = 0.5. *)
Definition binomtest (k n : nat) : R :=
  if Nat.eqb (2 * k) n then 1 else 2 * binom_cdf (Nat.min k (n - k)) n.
(** hypothesis.py:856-907 [batschelet_test]: (C, pval). *)
Definition batschelet_test (angle : R) (alpha : list R) : res (nat * R) :=
  if Nat.eqb (length alpha) 0 then Err ValueError
  else
    let n := length alpha in
    let m := count_if (fun a => let x := angmod0 (angle + / 2 * PI - a) in Rltb 0 x && Rltb x PI) alpha in
    Ok ((n - m)%nat, binomtest (n - m) n).

(** hypothesis.py:910-962 [symmetry_test]; [wilcoxon] is scipy's test on the list of
    differences.  An undefined median makes every difference NaN: None. *)
Definition symmetry_diffs (alpha : list R) (median : R) : list R :=
  map (fun a => angmod_val (a - median) (- PI) PI) alpha.
Definition symmetry_test {T} (wilcoxon : list R -> T) (alpha : list R) (median : option R)
    : res (option T) :=
  if Nat.eqb (length alpha) 0 then Err ValueError
  else
    match median with
    | Some m => Ok (Some (wilcoxon (symmetry_diffs alpha m)))
    | None => do m <- circ_median_default alpha;
              Ok (match m with
                  | MOne m => Some (wilcoxon (symmetry_diffs alpha m))
                  | _ => None
                  end)
    end.

(** hypothesis.py:1958-2024 [binomial_test]: (pval, n_eff, n1, n2). *)
Record binomial_result := { bin_pval : R; bin_neff : nat; bin_n1 : nat; bin_n2 : nat }.
Definition binomial_test (alpha : list R) (md : R) : res binomial_result :=
  if Nat.eqb (length alpha) 0 then Err ValueError
  else
    let d := map (fun a => circ_dist Center a md) alpha in
    let n1 := count_if (fun x => Rltb x 0) d in
    let n2 := count_if (fun x => Rltb 0 x) d in
    let n_eff := (n1 + n2)%nat in
    Ok {| bin_pval := if Nat.eqb n_eff 0 then 1 else Rmin (2 * binom_cdf (Nat.min n1 n2) n_eff) 1;
          bin_neff := n_eff; bin_n1 := n1; bin_n2 := n2 |}.
