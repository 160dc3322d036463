(** Model of pycircstat2/hypothesis.py: multi-sample tests, part one
    (lines 300-371, 970-1442, 2027-2124). *)
From Verif Require Import Prelude NpModel UtilsModel DescModel Desc2Model.

(** IEEE arithmetic on [fl] as numpy performs it (no exception, warnings dropped; a
    zero is taken to be +0). *)
Definition fneg (x : fl) : fl :=
  match x with Fin a => Fin (- a) | NaN => NaN | PInf => NInf | NInf => PInf end.
Definition finf (sign : R) : fl :=
  if Rltb 0 sign then PInf else if Rltb sign 0 then NInf else NaN.
Definition np_div (a b : R) : fl := if Reqb b 0 then finf a else Fin (a / b).
Definition fmul (x y : fl) : fl :=
  match x, y with
  | Fin a, Fin b => Fin (a * b)
  | NaN, _ | _, NaN => NaN
  | PInf, Fin b | Fin b, PInf => finf b
  | NInf, Fin b | Fin b, NInf => fneg (finf b)
  | PInf, PInf | NInf, NInf => PInf
  | PInf, NInf | NInf, PInf => NInf
  end.
Definition fdiv (x y : fl) : fl :=
  match x, y with
  | NaN, _ | _, NaN => NaN
  | Fin a, Fin b => np_div a b
  | Fin _, _ => Fin 0
  | PInf, Fin b => if Rltb b 0 then NInf else PInf
  | NInf, Fin b => if Rltb b 0 then PInf else NInf
  | _, _ => NaN
  end.
(** 1 - x. *)
Definition one_minus (x : fl) : fl :=
  match x with Fin a => Fin (1 - a) | NaN => NaN | PInf => NInf | NInf => PInf end.

(** An element of `samples`: a plain array of angles (None) or a Circular object with
    its weights. *)
Definition gsample : Type := (list R * option (list R))%type.
(** hypothesis.py:300-312 [_CircularSample]; R = n * r is [cs_R] below.  The rounded
    weights are non-negative integers, stored as nat. *)
Record csample := { cs_alpha : list R; cs_w : list nat; cs_n : nat; cs_r : R }.
Definition cs_R (s : csample) : R := INR (cs_n s) * cs_r s.
Definition cs_expand (s : csample) : list R := np_repeat (cs_alpha s) (cs_w s).
(** hypothesis.py:327-369, one sample.  Angles and weights are finite reals here, so the
    two isfinite checks never fire. *)
Definition nsum (l : list nat) : nat := fold_right Nat.add 0%nat l.
Definition coerce_one (s : gsample) : res csample :=
  let alpha := fst s in
  let w := weights alpha (snd s) in
  if Nat.eqb (length alpha) 0 then Err ValueError
  else if negb (Nat.eqb (length w) (length alpha)) then Err ValueError
  else if existsb (fun x => Rltb x 0) w then Err ValueError
  else if negb (forallb (fun x => isclose x (IZR (rint x))) w) then Err ValueError
  else
    let rw := map (fun x => Z.to_nat (rint x)) w in
    let n := nsum rw in
    if Nat.eqb n 0 then Err ValueError
    else Ok {| cs_alpha := alpha; cs_w := rw; cs_n := n; cs_r := circ_r alpha (Some (map INR rw)) |}.
Fixpoint coerce_all (samples : list gsample) : res (list csample) :=
  match samples with
  | [] => Ok []
  | s :: t => do c <- coerce_one s; do cs <- coerce_all t; Ok (c :: cs)
  end.
(** hypothesis.py:315-371 [_coerce_circular_samples]. *)
Definition coerce_samples (samples : list gsample) : res (list csample) :=
  match samples with [] => Err ValueError | _ => coerce_all samples end.

(** hypothesis.py:970-1060 [watson_williams_test].  [fsf x d1 d2] is scipy's f.sf. *)
Record ww_result := { ww_F : fl; ww_pval : fl; ww_dfb : nat; ww_dfw : nat; ww_k : nat; ww_N : nat }.
Definition watson_williams_test (fsf : fl -> nat -> nat -> fl) (samples : list gsample) : res ww_result :=
  do ss <- coerce_samples samples;
  let k := length ss in
  if Nat.ltb k 2 then Err ValueError
  else
    let N := nsum (map cs_n ss) in
    if Nat.leb N k then Err ValueError
    else
      let sumR := Rsum (map cs_R ss) in
      do kappa <- circ_kappa (sumR / INR N) None;
      let K := if Rleb kappa 0 then 1 else 1 + 3 / (8 * kappa) in
      let R_ := INR N * circ_r (flat_map cs_alpha ss) (Some (map INR (flat_map cs_w ss))) in
      let F := fdiv (np_div (K * (INR N - INR k) * (sumR - R_)) (INR N - sumR)) (Fin (INR k - 1)) in
      Ok {| ww_F := F; ww_pval := fsf F (k - 1)%nat (N - k)%nat;
            ww_dfb := (k - 1)%nat; ww_dfw := (N - k)%nat; ww_k := k; ww_N := N |}.

(** np.where(np.isclose(arr, val, atol))[0] with the default rtol 1e-5. *)
Definition positions (close : R -> R -> bool) (arr : list R) (val : R) : list nat :=
  filter (fun i => close (nth i arr 0) val) (seq 0 (length arr)).
(** scipy.stats.rankdata: method "max" and the default "average". *)
Definition rank_max (l : list R) (x : R) : R := INR (count_if (fun y => Rleb y x) l).
Definition rank_avg (l : list R) (x : R) : R :=
  INR (count_if (fun y => Rltb y x) l) + (INR (count_if (fun y => Reqb y x) l) + 1) / 2.
(** np.diff and np.repeat with integer counts: a negative count or counts of another
    length raise ValueError. *)
Fixpoint zdiff (l : list nat) : list Z :=
  match l with
  | x :: (y :: _) as t => (Z.of_nat y - Z.of_nat x)%Z :: zdiff t
  | _ => []
  end.
Definition repeat_z (x : list R) (w : list Z) : res (list R) :=
  if negb (Nat.eqb (length x) (length w)) then Err ValueError
  else if existsb (fun z => Z.ltb z 0) w then Err ValueError
  else Ok (np_repeat x (map Z.to_nat w)).
(** hypothesis.py:1106-1119 [cumfreq]. *)
Definition cumfreq (alpha_unique : list R) (s : csample) : res (list R) :=
  let expanded := cs_expand s in
  if Nat.eqb (length expanded) 0 then Err ValueError
  else
    let idx := flat_map (positions (isclose_tol (/ 100000) (/ 10000000000)) alpha_unique) expanded in
    let idx := 0%nat :: idx ++ [length alpha_unique] in
    let freq := 0 :: map (fun x => rank_max expanded x / INR (cs_n s)) expanded in
    repeat_z freq (zdiff idx).
(** np.unique(..., return_counts=True): the counts. *)
Definition unique_counts (l : list R) : list R :=
  map (fun a => INR (count_if (fun y => Reqb y a) l)) (unique l).
(** hypothesis.py:1063-1145 [watson_u2_test]: the statistic and the p-value. *)
Definition watson_u2_test (samples : list gsample) : res (R * R) :=
  do ss <- coerce_samples samples;
  match ss with
  | [s1; s2] =>
      let pooled := cs_expand s1 ++ cs_expand s2 in
      let a := unique pooled in
      let t := unique_counts pooled in
      do c1 <- cumfreq a s1;
      do c2 <- cumfreq a s2;
      let d := map2 (fun x y => y - x) c1 c2 in
      let N := INR (cs_n s1 + cs_n s2) in
      let U2 := INR (cs_n s1) * INR (cs_n s2) / N ^ 2 *
                (Rsum (vmul t (map (fun x => x ^ 2) d)) - Rsum (vmul t d) ^ 2 / N) in
      Ok (U2, 2 * exp (- (1974 / 100) * U2))
  | _ => Err ValueError
  end.

(** hypothesis.py:1185-1190 [get_circrank].  Arrays of positions of different lengths
    make np.squeeze raise ValueError; equal lengths above 1 give a 2-D array, over which
    np.sum sums all entries. *)
Definition get_circrank (alpha : list R) (s : csample) (N : R) : res (list R) :=
  let pos := map (positions isclose alpha) (cs_expand s) in
  match pos with
  | [] => Ok []
  | p :: t =>
      if forallb (fun q => Nat.eqb (length q) (length p)) t
      then Ok (map (fun i => 2 * PI / N * (INR i + 1)) (concat pos))
      else Err ValueError
  end.
Fixpoint rmap {A B} (f : A -> res B) (l : list A) : res (list B) :=
  match l with
  | [] => Ok []
  | x :: t => do y <- f x; do ys <- rmap f t; Ok (y :: ys)
  end.
(** C**2 + S**2 of a list of circular ranks (1201-1202, 1208-1209). *)
Definition rank_power (ranks : list R) : R :=
  Rsum (map cos ranks) ^ 2 + Rsum (map sin ranks) ^ 2.
(** hypothesis.py:1148-1227 [wheeler_watson_test]; [csf] is scipy's chi2.sf. *)
Record wheeler_result := { wh_W : R; wh_pval : R; wh_df : nat }.
Definition wheeler_watson_test (csf : R -> nat -> R) (samples : list gsample) : res wheeler_result :=
  do ss <- coerce_samples samples;
  let N := INR (nsum (map cs_n ss)) in
  let a := unique (flat_map cs_expand ss) in
  do ranks <- rmap (fun s => get_circrank a s N) ss;
  do W <- match ss, ranks with
          | [s1; s2], r1 :: _ =>
              Ok (2 * (N - 1) * rank_power r1 / (INR (cs_n s1) * INR (cs_n s2)))
          | _ :: _ :: _ :: _, _ =>
              Ok (Rsum (map2 (fun s r => rank_power r / INR (cs_n s)) ss ranks) * 2)
          | _, _ => Err ValueError
          end;
  let df := (2 * (length ss - 1))%nat in
  Ok {| wh_W := W; wh_pval := csf W df; wh_df := df |}.

(** The angle argument of wallraff_test (1263-1269): a scalar or one per sample. *)
Inductive angle_arg := Scalar (a : R) | Array (l : list R).
(** hypothesis.py:1230-1296 [wallraff_test]; [nsf] is scipy's norm.sf.  The distances are
    taken from the unexpanded angles, while ns counts weights (1271-1272). *)
Record wallraff_result := { wa_U : R; wa_pval : R }.
Definition wallraff_U1 (n0 n1 : nat) (dists : list R) : R :=
  let rs := map (rank_avg dists) dists in
  INR n0 * INR n1 + INR n0 * (INR n0 + 1) / 2 - Rsum (firstn n0 rs).
Definition wallraff_test (nsf : R -> R) (samples : list gsample) (angle : angle_arg) : res wallraff_result :=
  do ss <- coerce_samples samples;
  match ss with
  | [s0; s1] =>
      do angles <- match angle with
                   | Scalar a => Ok (a, a)
                   | Array [a0; a1] => Ok (a0, a1)
                   | Array _ => Err ValueError
                   end;
      let n0 := cs_n s0 in
      let n1 := cs_n s1 in
      let dists := map (fun a => angular_distance a (fst angles)) (cs_alpha s0)
                   ++ map (fun a => angular_distance a (snd angles)) (cs_alpha s1) in
      let prod := INR n0 * INR n1 in
      let U1 := wallraff_U1 n0 n1 dists in
      let U2 := prod - U1 in
      let U := Rmin U1 U2 in
      let z := (U - prod / 2 + 1/2) / sqrt (prod * (INR (n0 + n1) + 1) / 12) in
      Ok {| wa_U := U; wa_pval := 2 * nsf (Rabs z) |}
  | _ => Err ValueError
  end.

(** hypothesis.py:1299-1442 [circ_anova].  Groups are non-empty in every statement (numpy
    yields NaN for an empty one).  A given kappa is a Python float, so 3 / (8 * kappa) at
    0 raises ZeroDivisionError; an estimated one is a numpy float and gives infinity.
    [fcdf], [ccdf] are scipy's f.cdf and chi2.cdf. *)
Inductive anova_df := DfF (between within total : Z) | DfLRT (df : Z).
Record anova_result := {
  an_mu : list fl; an_mu_all : fl; an_kappa : R; an_R : list R; an_R_all : R;
  an_df : anova_df; an_stat : fl; an_pval : fl;
  an_SS : option (R * R * R); an_MS : option (fl * fl) }.
(** cos(mu_i - mu_all), NaN when one of the two is NaN. *)
Definition cos_diff (x y : fl) : fl :=
  match x, y with Fin a, Fin b => Fin (cos (a - b)) | _, _ => NaN end.
Definition fsum (l : list fl) : fl :=
  fold_right (fun x y => match x, y with Fin a, Fin b => Fin (a + b) | _, _ => NaN end) (Fin 0) l.
Definition circ_anova (fcdf : fl -> Z -> Z -> fl) (ccdf : fl -> Z -> fl) (groups : list (list R))
    (method : string) (kappa : option R) (f_mod : bool) : res anova_result :=
  let k := length groups in
  if Nat.ltb k 2 then Err ValueError
  else
    let ns := map (fun g => INR (length g)) groups in
    let Rs := map (fun g => circ_r g None * INR (length g)) groups in
    let mus := map (fun g => circ_mean g None) groups in
    let all := concat groups in
    let N := INR (length all) in
    let R_all := circ_r all None * N in
    let mu_all := circ_mean all None in
    do kap <- match kappa with Some x => Ok x | None => circ_kappa (R_all / N) None end;
    if String.eqb method "F-test" then
      let SSb := Rsum Rs - R_all in
      let SSw := N - Rsum Rs in
      let SSt := N - R_all in
      let dfb := (Z.of_nat k - 1)%Z in
      let dfw := (Z.of_nat (length all) - Z.of_nat k)%Z in
      let MSb := np_div SSb (IZR dfb) in
      let MSw := np_div SSw (IZR dfw) in
      do F <- (if f_mod then
                 do corr <- (if Reqb kap 0
                             then match kappa with Some _ => Err ZeroDivisionError | None => Ok PInf end
                             else Ok (Fin (1 + 3 / (8 * kap))));
                 Ok (fmul corr (fdiv MSb MSw))
               else Ok (fdiv MSb MSw));
      Ok {| an_mu := mus; an_mu_all := mu_all; an_kappa := kap; an_R := Rs; an_R_all := R_all;
            an_df := DfF dfb dfw (Z.of_nat (length all) - 1); an_stat := F;
            an_pval := one_minus (fcdf F dfb dfw);
            an_SS := Some (SSb, SSw, SSt); an_MS := Some (MSb, MSw) |}
    else if String.eqb method "LRT" then
      if Reqb kap 0 then Err ZeroDivisionError
      else
        let term1 := 1 - (1 / (4 * kap)) * (Rsum (map (fun n => 1 / n) ns) - 1 / N) in
        let term2 := fmul (Fin (2 * kap))
                       (fsum (map2 (fun r m => fmul (Fin r) (one_minus (cos_diff m mu_all))) Rs mus)) in
        let stat := fmul (Fin term1) term2 in
        let df := (Z.of_nat k - 1)%Z in
        Ok {| an_mu := mus; an_mu_all := mu_all; an_kappa := kap; an_R := Rs; an_R_all := R_all;
              an_df := DfLRT df; an_stat := stat; an_pval := one_minus (ccdf stat df);
              an_SS := None; an_MS := None |}
    else Err ValueError.

(** hypothesis.py:2027-2124 [concentration_test]; [fsf x d1 d2] is scipy's f.sf. *)
Record conc_result := { co_f : R; co_pval : R; co_df1 : nat; co_df2 : nat }.
Definition concentration_test (fsf : R -> nat -> nat -> R) (alpha1 alpha2 : list R) : res conc_result :=
  let n1 := length alpha1 in
  let n2 := length alpha2 in
  if Nat.ltb (Nat.min n1 n2) 2 then Err ValueError
  else
    let R1 := INR n1 * circ_r alpha1 None in
    let R2 := INR n2 * circ_r alpha2 None in
    let df1 := (n1 - 1)%nat in
    let df2 := (n2 - 1)%nat in
    let numerator := INR df2 * (INR n1 - R1) in
    let denominator := INR df1 * (INR n2 - R2) in
    if Rleb denominator 0 || Rleb numerator 0 then Err ValueError
    else
      let f_stat := numerator / denominator in
      let pval := if Rleb 1 f_stat then 2 * fsf f_stat df1 df2
                  else 2 * fsf (1 / f_stat) df2 df1 in
      Ok {| co_f := f_stat; co_pval := Rmin pval 1; co_df1 := df1; co_df2 := df2 |}.
