(** Model of pycircstat2/hypothesis.py: multi-sample tests, part two (lines 2127-2750). *)
From Verif Require Import Prelude NpModel UtilsModel DescModel Desc2Model HypGofModel HypMultiModel.

(** np.var(x, ddof=1) and np.cov(x, y, ddof=1)[0, 1]; NaN below two observations. *)
Definition cov1 (x y : list R) : R :=
  Rsum (map2 (fun a b => (a - mean x) * (b - mean y)) x y) / (INR (length x) - 1).
Definition var1 (x : list R) : R := cov1 x x.
(** x > y on floats; false when one is NaN. *)
Definition fgt (x y : fl) : bool :=
  match x, y with
  | Fin a, Fin b => Rltb b a
  | PInf, Fin _ | PInf, NInf | Fin _, NInf => true
  | _, _ => false
  end.

(** hypothesis.py:2166-2204: the per-sample quantities of Rao's test. *)
Definition cos_mean (s : list R) : R := mean (map cos s).
Definition sin_mean (s : list R) : R := mean (map sin s).
Definition s_polar (s : list R) : R :=
  let c := cos_mean s in
  let m := sin_mean s in
  1 / INR (length s) *
  (var1 (map sin s) / c ^ 2 + (m ^ 2 * var1 (map cos s)) / c ^ 4
   - (2 * m * cov1 (map cos s) (map sin s)) / c ^ 3).
Definition tan_mean (s : list R) : R := sin_mean s / cos_mean s.
Definition U_disp (s : list R) : R := cos_mean s ^ 2 + sin_mean s ^ 2.
Definition s_disp (s : list R) : R :=
  let c := cos_mean s in
  let m := sin_mean s in
  4 / INR (length s) *
  (c ^ 2 * var1 (map cos s) + m ^ 2 * var1 (map sin s)
   + 2 * c * m * cov1 (map cos s) (map sin s)).
(** sum(x**2 / s) - sum(x / s)**2 / sum(1 / s) (2190-2192, 2204). *)
Definition rao_H (p : list (R * R)) : R :=
  Rsum (map (fun q => fst q ^ 2 / snd q) p)
  - Rsum (map (fun q => fst q / snd q) p) ^ 2 / Rsum (map (fun q => 1 / snd q) p).
(** hypothesis.py:2127-2245 [rao_homogeneity_test].  With fewer than two observations in
    a sample var is NaN; with a zero variance term 1/s is infinite and inf/inf makes H NaN;
    with a zero cosine mean the ratio is inf/inf as well; without samples H is 0/0.  In all
    other cases H is finite.  [ccdf], [cppf] are scipy's chi2.cdf and chi2.ppf. *)
Record raoh_result := { rh_polar : fl; rh_pval_polar : fl; rh_reject_polar : bool;
                        rh_disp : fl; rh_pval_disp : fl; rh_reject_disp : bool }.
Definition rao_homogeneity_test (ccdf : fl -> Z -> fl) (cppf : R -> Z -> fl) (alpha : R)
    (samples : list (list R)) : raoh_result :=
  let df := (Z.of_nat (length samples) - 1)%Z in
  let sized := negb (Nat.eqb (length samples) 0) && forallb (fun s => Nat.leb 2 (length s)) samples in
  let okp := sized && forallb (fun s => negb (Reqb (cos_mean s) 0) && negb (Reqb (s_polar s) 0)) samples in
  let okd := sized && forallb (fun s => negb (Reqb (s_disp s) 0)) samples in
  let Hp := if okp then Fin (rao_H (map (fun s => (tan_mean s, s_polar s)) samples)) else NaN in
  let Hd := if okd then Fin (rao_H (map (fun s => (U_disp s, s_disp s)) samples)) else NaN in
  {| rh_polar := Hp; rh_pval_polar := one_minus (ccdf Hp df);
     rh_reject_polar := fgt Hp (cppf (1 - alpha) df);
     rh_disp := Hd; rh_pval_disp := one_minus (ccdf Hd df);
     rh_reject_disp := fgt Hd (cppf (1 - alpha) df) |}.

(** np.max, np.argmax and np.mean of a non-empty float array: NaN wins, argmax returns the
    first NaN.  Entries are finite or NaN in the only use. *)
Definition is_nan (x : fl) : bool := match x with NaN => true | _ => false end.
Definition fval (x : fl) : R := match x with Fin a => a | _ => 0 end.
Fixpoint first_nan (i : nat) (l : list fl) : option nat :=
  match l with [] => None | x :: t => if is_nan x then Some i else first_nan (S i) t end.
Definition fmax (l : list fl) : fl :=
  match first_nan 0 l with Some _ => NaN | None => Fin (np_max (map fval l)) end.
Definition fargmax (l : list fl) : nat :=
  match first_nan 0 l with Some i => i | None => argmax (map fval l) end.
Definition fmean (l : list fl) : fl :=
  match first_nan 0 l with Some _ => NaN | None => Fin (mean (map fval l)) end.

(** hypothesis.py:2273-2288 [phi].  [logI0] is log(i0(.)), of which the branch for an
    overflowing Bessel function (2277-2285) is a numerical approximation.  At x = 1 A1inv
    divides by zero: inv = inf, corr = inf + log(0) = nan. *)
Definition phi (logI0 : R -> R) (x : R) : fl :=
  if Rleb (85/100) x && Reqb (x ^ 3 - 4 * x ^ 2 + 3 * x) 0 then NaN
  else Fin (x * A1inv x - logI0 (A1inv x)).
(** hypothesis.py:2290-2292 [est_rho]. *)
Definition est_rho (alpha : list R) : R :=
  hypot (Rsum (map cos alpha)) (Rsum (map sin alpha)) / INR (length alpha).
(** Entry k - 1 of R_diff (2302-2304, 2314) for 1 <= k < n, and of V (2306-2309) for
    2 <= k <= n - 2. *)
Definition cp_R (alpha : list R) (k : nat) : R :=
  let n := length alpha in
  est_rho (firstn k alpha) * INR k + est_rho (skipn k alpha) * INR (n - k)
  - est_rho alpha * INR n.
Definition fadd (x y : fl) : fl :=
  match x, y with Fin a, Fin b => Fin (a + b) | _, _ => NaN end.
Definition cp_V (logI0 : R -> R) (alpha : list R) (k : nat) : fl :=
  let n := length alpha in
  fadd (fmul (Fin (INR k / INR n)) (phi logI0 (est_rho (firstn k alpha) * INR k / INR k)))
       (fmul (Fin (INR (n - k) / INR n)) (phi logI0 (est_rho (skipn k alpha) * INR (n - k) / INR (n - k)))).
(** hypothesis.py:2248-2351 [change_point_test].  R1[-1] = rho n, R2[-1] = 0 (2311-2312);
    V[1 : n - 2] holds the entries k = 2, ..., n - 2. *)
Record cp_result := { cp_n : nat; cp_rho : R; cp_rmax : R; cp_kr : nat; cp_rave : R;
                      cp_tmax : fl; cp_kt : nat; cp_tave : fl }.
Definition change_point_test (logI0 : R -> R) (alpha : list R) : res cp_result :=
  let n := length alpha in
  if Nat.ltb n 4 then Err ValueError
  else
    let rho := est_rho alpha in
    let R_diff := map (cp_R alpha) (seq 1 (n - 1)) ++ [rho * INR n + 0 - rho * INR n] in
    let V := map (cp_V logI0 alpha) (seq 2 (n - 3)) in
    Ok {| cp_n := n; cp_rho := rho; cp_rmax := np_max R_diff; cp_kr := argmax R_diff;
          cp_rave := mean R_diff;
          cp_tmax := fmax V; cp_kt := (fargmax V + 1)%nat; cp_tave := fmean V |}.

(** hypothesis.py:2354-2533 [harrison_kanji_test].  The data frame is a list of
    (angle, (level of A, level of B)); levels are labels (nat), np.unique is [nodup]
    (only sums over the levels are used, so their order does not matter). *)
Definition obs2 : Type := (R * (nat * nat))%type.
Definition fA (o : obs2) : nat := fst (snd o).
Definition fB (o : obs2) : nat := snd (snd o).
Definition levels (f : obs2 -> nat) (d : list obs2) : list nat := nodup Nat.eq_dec (map f d).
Definition angles_of (d : list obs2) : list R := map fst d.
(** n * circ_r of a group. *)
Definition hk_R (g : list R) : R := circ_r g None * INR (length g).
(** R**2 / n of a group. *)
Definition hk_q (g : list R) : R := hk_R g ^ 2 / INR (length g).
Definition group_by (f : obs2 -> nat) (d : list obs2) (i : nat) : list R :=
  angles_of (filter (fun o => Nat.eqb (f o) i) d).
Definition cell (d : list obs2) (i j : nat) : list R :=
  angles_of (filter (fun o => Nat.eqb (fA o) i && Nat.eqb (fB o) j) d).
Definition hk_cells (d : list obs2) : list (list R) :=
  flat_map (fun i => map (cell d i) (levels fB d)) (levels fA d).
Definition hk_main (f : obs2 -> nat) (d : list obs2) : R :=
  Rsum (map (fun i => hk_q (group_by f d i)) (levels f d)).
(** np.asarray((cr**2 / cn).values).sum() and np.asarray(cn.values).mean(): unstack fills
    an empty cell with NaN. *)
Definition no_empty_cell (d : list obs2) : bool :=
  forallb (fun c => negb (Nat.eqb (length c) 0)) (hk_cells d).
Definition hk_cellsum (d : list obs2) : fl :=
  if no_empty_cell d then Fin (Rsum (map hk_q (hk_cells d))) else NaN.
Definition hk_cellmean (d : list obs2) : fl :=
  if no_empty_cell d then Fin (mean (map (fun c => INR (length c)) (hk_cells d))) else NaN.
Record hk_row := { hk_df : fl; hk_ss : fl; hk_ms : fl; hk_F : fl; hk_p : fl }.
(** The large-kappa table (2487-2497): rows A, B, Interaction (None without interaction),
    Residual, Total; the small-kappa table (2499-2506): chi-square, DoF and p of A, B and
    Interaction. *)
Inductive hk_table :=
| HkF (a b : hk_row) (inter : option hk_row) (resid total : hk_row)
| HkChi (a b inter : fl * fl * fl).
Definition fsub (x y : fl) : fl := fadd x (fneg y).
(** [fcdf] is f.cdf, [ccdf] and [csf] are chi2.cdf and chi2.sf, [A1] is iv(1, k) / iv(0, k). *)
Definition harrison_kanji_test (fcdf : fl -> fl -> fl -> fl) (ccdf csf : fl -> fl -> fl)
    (A1 : R -> R) (d : list obs2) (inter : bool) : res hk_table :=
  let p := INR (length (levels fA d)) in
  let q := INR (length (levels fB d)) in
  let n := INR (length d) in
  let tr := n * circ_r (angles_of d) None in
  do kk <- circ_kappa (tr / n) None;
  let T := tr ^ 2 / n in
  let SA := hk_main fA d in
  let SB := hk_main fB d in
  let Sc := hk_cellsum d in
  if Rltb 2 kk then
    let eff1 := SA - T in let df1 := p - 1 in let ms1 := np_div eff1 df1 in
    let eff2 := SB - T in let df2 := q - 1 in let ms2 := np_div eff2 df2 in
    let efft := n - T in let dft := n - 1 in
    let m := hk_cellmean d in
    let dfi := (p - 1) * (q - 1) in
    let effr := if inter then fsub (Fin n) Sc else Fin (n - SB - SA + T) in
    let dfr := if inter then fmul (Fin (p * q)) (fsub m (Fin 1)) else Fin dfi in
    let msr := fdiv effr dfr in
    let effi := fsub Sc (Fin (SB + SA - T)) in
    let msi := fdiv effi (Fin dfi) in
    let FI := fdiv msi msr in
    let beta := if inter then 1 / (1 - 1 / (5 * kk) - 1 / (10 * kk ^ 2)) else 1 in
    let F1 := fdiv (fmul (Fin beta) ms1) msr in
    let F2 := fdiv (fmul (Fin beta) ms2) msr in
    let row df ss ms F := {| hk_df := df; hk_ss := ss; hk_ms := ms; hk_F := F;
                             hk_p := one_minus (fcdf F df dfr) |} in
    Ok (HkF (row (Fin df1) (Fin eff1) ms1 F1) (row (Fin df2) (Fin eff2) ms2 F2)
            (if inter then Some (row (Fin dfi) effi msi FI) else None)
            {| hk_df := dfr; hk_ss := effr; hk_ms := msr; hk_F := NaN; hk_p := NaN |}
            {| hk_df := Fin dft; hk_ss := Fin efft; hk_ms := NaN; hk_F := NaN; hk_p := NaN |})
  else
    let fac := 2 / (1 - A1 kk ^ 2) in
    let chi1 := Fin (fac * (SA - T)) in let df1 := Fin (2 * (p - 1)) in
    let chi2 := Fin (fac * (SB - T)) in let df2 := Fin (2 * (q - 1)) in
    let chii := fmul (Fin fac) (fsub Sc (Fin (SA + SB - T))) in
    let dfi := Fin ((p - 1) * (q - 1)) in
    Ok (HkChi (chi1, df1, one_minus (ccdf chi1 df1)) (chi2, df2, one_minus (ccdf chi2 df2))
              (chii, dfi, csf chii dfi)).

(** np.arcsin: NaN outside [-1, 1]. *)
Definition np_arcsin (x : R) : fl :=
  if Rleb (-1) x && Rleb x 1 then Fin (asin x) else NaN.
(** sum(ws g**2) - sum(ws g)**2 / sum(ws) (2601, 2608) on finite g; Fin a - PInf = NInf. *)
Definition weighted_ss (wg : list (R * R)) : fl :=
  let S2 := Rsum (map (fun x => fst x * snd x ^ 2) wg) in
  match np_div (Rsum (map (fun x => fst x * snd x) wg) ^ 2) (Rsum (map fst wg)) with
  | Fin b => Fin (S2 - b)
  | PInf => NInf
  | NInf => PInf
  | NaN => NaN
  end.
(** hypothesis.py:2536-2656 [equal_kappa_test]. *)
Inductive ek_regime := Small | Moderate | Large.
Record ek_result := { ek_kappa : list R; ek_kappa_all : R; ek_rho : list R; ek_rho_all : R;
                      ek_df : nat; ek_stat : fl; ek_pval : fl; ek_reg : ek_regime }.
Definition equal_kappa_test (ccdf : fl -> nat -> fl) (groups : list (list R)) : res ek_result :=
  let k := length groups in
  if Nat.ltb k 2 then Err ValueError
  else if existsb (fun g => Nat.eqb (length g) 0) groups then Err ValueError
  else if existsb (fun g => Nat.ltb (length g) 2) groups then Err ValueError
  else
    let r_bars := map (fun g => circ_r g None) groups in
    let all := concat groups in
    let r_all := circ_r all None in
    let N := INR (length all) in
    do sr <-
      (if Rltb r_all (45/100) then
         let gs := map (fun g => np_arcsin (sqrt (3/8) * 2 * circ_r g None)) groups in
         Ok ((if existsb is_nan gs then NaN
              else weighted_ss (map2 (fun g x => (4 * (INR (length g) - 4) / 3, fval x)) groups gs)), Small)
       else if Rleb r_all (7/10) then
         Ok (weighted_ss (map (fun g => ((INR (length g) - 3) / (798/1000),
                                         arcsinh ((circ_r g None - 1089/1000) / (258/1000)))) groups), Moderate)
       else
         let v := N - INR k in
         let res g := INR (length g) - circ_r g None * INR (length g) in
         let dd := 1 / (3 * (INR k - 1)) * (Rsum (map (fun g => 1 / (INR (length g) - 1)) groups) - 1 / v) in
         let total := N - Rsum (map (fun g => circ_r g None * INR (length g)) groups) in
         if existsb (fun g => Rleb (res g) 0) groups then Err ValueError
         else if Rleb total 0 then Err ValueError
         else Ok (Fin (1 / (1 + dd) *
                       (v * ln (total / v)
                        - Rsum (map (fun g => (INR (length g) - 1) * ln (res g / (INR (length g) - 1))) groups))),
                  Large));
    do kappas <- rmap (fun r => circ_kappa r None) r_bars;
    do kall <- circ_kappa r_all None;
    Ok {| ek_kappa := kappas; ek_kappa_all := kall; ek_rho := r_bars; ek_rho_all := r_all;
          ek_df := (k - 1)%nat; ek_stat := fst sr; ek_pval := one_minus (ccdf (fst sr) (k - 1)%nat);
          ek_reg := snd sr |}.

(** hypothesis.py:2659-2750 [common_median_test].  circ_dist with a NaN median is NaN and
    NaN < 0 is false.  The default circ_median averages, so it never returns several
    values. *)
Record cm_result := { cm_median : fl; cm_stat : R; cm_pval : R; cm_reject : bool }.
Definition cm_neg (md : medout) (g : list R) : nat :=
  match md with
  | MOne m => count_if (fun a => Rltb (circ_dist Center a m) 0) g
  | _ => 0%nat
  end.
Definition common_median_test (ccdf : R -> nat -> R) (groups : list (list R)) (alpha : R) : res cm_result :=
  if negb (Rltb 0 alpha && Rltb alpha 1) then Err ValueError
  else
    let k := length groups in
    if Nat.ltb k 2 then Err ValueError
    else if existsb (fun g => Nat.eqb (length g) 0) groups then Err ValueError
    else
      let N := INR (length (concat groups)) in
      do md <- circ_median_default (concat groups);
      let M := INR (nsum (map (cm_neg md) groups)) in
      if Reqb M 0 || Reqb M N then Err ValueError
      else
        let P := N ^ 2 / (M * (N - M)) * Rsum (map (fun g => INR (cm_neg md g) ^ 2 / INR (length g)) groups)
                 - N * M / (N - M) in
        let pv := 1 - ccdf P (k - 1)%nat in
        let reject := Rltb pv alpha in
        Ok {| cm_median := if reject then NaN else match md with MOne m => Fin m | _ => NaN end;
              cm_stat := P; cm_pval := pv; cm_reject := reject |}.
