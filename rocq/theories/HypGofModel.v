(** Model of pycircstat2/hypothesis.py: goodness-of-fit and randomisation tests
    (lines 1445-1955).  Random draws are an argument: the list of simulated samples. *)
From Verif Require Import Prelude NpModel UtilsModel DescModel Desc2Model HypModel.

(** The pairs (i, x_i), i = 1 .. n, of an array with np.arange(1, n + 1). *)
Definition indexed (l : list R) : list (R * R) := combine (map INR (seq 1 (length l))) l.
(** np.max of a non-empty array. *)
Definition np_max (l : list R) : R := match l with [] => 0 | x :: t => Rlmax x t end.

(** hypothesis.py:1629. *)
Definition kuiper_f (n : R) : R := sqrt n + 155/1000 + (24/100) / sqrt n.
(** 1622-1631 [compute_V]. *)
Definition kuiper_V (sample : list R) : R :=
  let ordered := map (fun a => a / (2 * PI)) (nsort sample) in
  let n := INR (length sample) in
  let dplus := np_max (map (fun p => fst p / n - snd p) (indexed ordered)) in
  let dminus := np_max (map (fun p => snd p - (fst p - 1) / n) (indexed ordered)) in
  kuiper_f n * (dplus + dminus).
(** 1645-1653: asymptotic series, m = 1^2 .. 49^2. *)
Definition kuiper_term (V f : R) (j : nat) : R :=
  let m := INR j ^ 2 in
  let a1 := 4 * m * V ^ 2 in
  let a2 := exp (- 2 * m * V ^ 2) in
  2 * (a1 - 1) * a2 - 8 * V / (3 * f) * m * (a1 - 3) * a2.
Definition kuiper_asym (V f : R) : R := Rsum (map (kuiper_term V f) (seq 1 49)).
(** The fields of KuiperTestResult / WatsonTestResult / RaoSpacingTestResult that carry
    numbers; [gof_sim] is mode == "simulation". *)
Record gof_result := { gof_stat : R; gof_pval : R; gof_sim : bool }.
(** hypothesis.py:1572-1671 [kuiper_test]. *)
Definition kuiper_test (alpha : list R) (B : Z) (draws : list (list R)) : res gof_result :=
  if Z.leb B 0 then Err ValueError
  else if Nat.eqb (length alpha) 0 then Err ValueError
  else
    let V := kuiper_V alpha in
    if Z.eqb B 1
    then Ok {| gof_stat := V; gof_pval := kuiper_asym V (kuiper_f (INR (length alpha))); gof_sim := false |}
    else Ok {| gof_stat := V; gof_pval := mc_pval (IZR B) V (map kuiper_V draws); gof_sim := true |}.

(** 1730-1737 [compute_U2]. *)
Definition watson_U2 (sample : list R) : R :=
  let n := INR (length sample) in
  let u := map (fun a => a / (2 * PI)) (nsort sample) in
  Rsum (map (fun p => ((snd p - (fst p - /2) / n) - (Rsum u / n - /2)) ^ 2) (indexed u)) + 1 / (12 * n).
(** 1751-1754. *)
Definition watson_asym (U2 : R) : R :=
  2 * Rsum (map (fun m => (-1) ^ (m - 1) * exp (- 2 * INR m ^ 2 * PI ^ 2 * U2)) (seq 1 50)).
(** hypothesis.py:1674-1772 [watson_test]. *)
Definition watson_test (alpha : list R) (B : Z) (draws : list (list R)) : res gof_result :=
  if Z.leb B 0 then Err ValueError
  else if Nat.eqb (length alpha) 0 then Err ValueError
  else
    let U2 := watson_U2 alpha in
    if Z.eqb B 1
    then Ok {| gof_stat := U2; gof_pval := watson_asym U2; gof_sim := false |}
    else Ok {| gof_stat := U2; gof_pval := mc_pval (IZR B) U2 (map watson_U2 draws); gof_sim := true |}.

(** 1828-1832 [compute_U]. *)
Definition rao_U (sample : list R) : R :=
  let ordered := nsort sample in
  let spacings := diff ordered ++ [2 * PI - last ordered 0 + hd 0 ordered] in
  /2 * Rsum (map (fun s => Rabs (s - 2 * PI / INR (length sample))) spacings).
(** w.astype(int) for non-negative entries: truncation. *)
Definition astype_int (w : list R) : list nat := map (fun x => Z.to_nat (Rfloor x)) w.
(** hypothesis.py:1775-1894 [rao_spacing_test].  [draws] are the simulated samples
    (1868-1875); the grouped branch only changes how they are drawn.  The order of the
    checks on w is that of 1834-1845. *)
Definition rao_spacing_test (alpha : list R) (w : option (list R)) (B : Z) (draws : list (list R))
    : res gof_result :=
  if Z.leb B 0 then Err ValueError
  else if Nat.eqb (length alpha) 0 then Err ValueError
  else
    do x <- match w with
            | None => Ok alpha
            | Some w =>
                if existsb (fun v => Rltb v 0) w then Err ValueError
                else if negb (forallb (fun v => isclose v (IZR (rint v))) w) then Err ValueError
                else if negb (Nat.eqb (length w) (length alpha)) then Err ValueError
                else if Nat.eqb (fold_right Nat.add 0%nat (astype_int w)) 0 then Err ValueError
                else Ok (np_repeat alpha (astype_int w))
            end;
    let U := rao_U x in
    Ok {| gof_stat := U * 180 / PI; gof_pval := mc_pval (IZR B) U (map rao_U draws); gof_sim := true |}.

(** hypothesis.py:1931-1940: p-value of the circular range test.  scipy.special.comb(n, i)
    is 0 for i > n.  Python's 0.0 ** 0 is 1. *)
Definition comb (n i : nat) : R := if Nat.leb i n then C n i else 0.
Definition range_p (n : nat) (range_stat : R) : R :=
  let y := 1 - range_stat / (2 * PI) in
  let stop := Z.to_nat (Rfloor (1 / y)) in
  Rsum (map (fun i => (-1) ^ (i - 1) * comb n i * (1 - INR i * y) ^ (n - 1)) (seq 1 stop)).
(** hypothesis.py:1897-1955 [circ_range_test]: (range_stat, pval). *)
Definition circ_range_test (alpha : list R) : res (R * R) :=
  if Nat.eqb (length alpha) 0 then Err ValueError
  else if existsb (fun a => Rltb (2 * PI + / 100000000) (Rabs a)) alpha then Err ValueError
  else do r <- circ_range alpha; Ok (r, range_p (length alpha) r).

(** hypothesis.py:1491-1513 [art_statistic]; circ_pairdist(..., return_sum=True) is the sum
    over all pairs. *)
Definition art_statistic (s1 s2 : list R) : R :=
  let n := INR (length s1) in
  let m := INR (length s2) in
  sqrt (n * m / (n + m)) * Rsum (circ_pairdist Geodesic s1 s2).
(** hypothesis.py:1445-1564 [angular_randomisation_test] on plain arrays (the weights of
    grouped samples are not used by it).  [draws] are the outcomes of rng.permutation on
    the pooled data. *)
Definition angular_randomisation_test (samples : list (list R)) (B : Z) (draws : list (list R))
    : res gof_result :=
  if existsb (fun s => Nat.eqb (length s) 0) samples then Err ValueError
  else match samples with
       | [s1; s2] =>
           if Z.leb B 0 then Err ValueError
           else
             let obs := art_statistic s1 s2 in
             let stats := map (fun d => art_statistic (firstn (length s1) d) (skipn (length s1) d)) draws in
             Ok {| gof_stat := obs; gof_pval := mc_pval (IZR B) obs stats; gof_sim := true |}
       | _ => Err ValueError
       end.
