(** Model of pycircstat2/base.py ([Circular], [Axial]) and of the bootstrap interval of
    descriptive.py they call. *)
From Verif Require Import Prelude NpModel UtilsModel DescModel Desc2Model HypModel.
Open Scope string_scope.
Open Scope R_scope.

(** descriptive.py:1128-1139 and 1169-1183: first two moments of (cos, sin).  The
    sample is non-empty in every use. *)
Record moments := { mo_z1 : R; mo_z2 : R; mo_u11 : R; mo_u22 : R; mo_u12 : R }.
Definition moments_of (a : list R) : moments :=
  let z1 := mean (map cos a) in
  let z2 := mean (map sin a) in
  {| mo_z1 := z1; mo_z2 := z2;
     mo_u11 := mean (map (fun x => (cos x - z1) ^ 2) a);
     mo_u22 := mean (map (fun x => (sin x - z2) ^ 2) a);
     mo_u12 := mean (map (fun x => (cos x - z1) * (sin x - z2)) a) |}.
(** descriptive.py:1137-1141 and 1181-1185, as written: the 1 is inside the
    denominator. *)
Definition beta_of (m : moments) : R :=
  if isclose (mo_u12 m) 0 then 0
  else let d := (mo_u11 m - mo_u22 m) ^ 2 / (4 * mo_u12 m ^ 2 + 1) in
       (mo_u11 m - mo_u22 m) / (2 * mo_u12 m) - sqrt d.
(** The two quadratic forms of 1144-1145 and 1188-1193. *)
Definition form1 (m : moments) (b : R) : R :=
  b ^ 2 * mo_u11 m + 2 * b * mo_u12 m + mo_u22 m.
Definition form2 (m : moments) (b : R) : R :=
  mo_u11 m - 2 * b * mo_u12 m + b ^ 2 * mo_u22 m.
(** A symmetric 2 x 2 matrix (m11, m12, m22). *)
Definition sym := (R * R * R)%type.
(** 1146-1149 and 1196-1200. *)
Definition from_axes (b t1 t2 : R) : sym :=
  ((b ^ 2 * t1 + t2) / (1 + b ^ 2), b * (t1 - t2) / (1 + b ^ 2),
   (t1 + b ^ 2 * t2) / (1 + b ^ 2)).
(** descriptive.py:1137-1149: [v0].  np.clip(x, 0, None) is [Rmax x 0]. *)
Definition boot_v0 (m : moments) : sym :=
  let b := beta_of m in
  let denom := sqrt (1 + b ^ 2) in
  from_axes b (sqrt (Rmax (form1 m b) 0) / denom) (sqrt (Rmax (form2 m b) 0) / denom).
(** descriptive.py:1181-1200: [wB], with np.clip(x, 1e-15, None). *)
Definition boot_wB (m : moments) : sym :=
  let b := beta_of m in
  let denom := sqrt (1 + b ^ 2) in
  from_axes b (denom / sqrt (Rmax (form1 m b) (/ 10 ^ 15)))
              (denom / sqrt (Rmax (form2 m b) (/ 10 ^ 15))).
(** descriptive.py:1163-1214 [_circ_mean_resample]; [theta] is the row that
    np.random.choice drew.  v0 @ wB @ (zB - z0), products taken from the left. *)
Definition circ_mean_resample (m0 : moments) (v0 : sym) (theta : list R) : res R :=
  let mB := moments_of theta in
  let '(v11, v12, v22) := v0 in
  let '(w11, w12, w22) := boot_wB mB in
  let p11 := v11 * w11 + v12 * w12 in
  let p12 := v11 * w12 + v12 * w22 in
  let p21 := v12 * w11 + v22 * w12 in
  let p22 := v12 * w12 + v22 * w22 in
  let d1 := mo_z1 mB - mo_z1 m0 in
  let d2 := mo_z2 mB - mo_z2 m0 in
  let c := mo_z1 m0 + (p11 * d1 + p12 * d2) in
  let s := mo_z2 m0 + (p21 * d1 + p22 * d2) in
  let norm := hypot c s in
  if isclose norm 0 then Err ValueError
  else Ok (angmod0 (arctan2 (s / norm) (c / norm))).
(** A list comprehension whose body may raise. *)
Fixpoint map_res {A B} (f : A -> res B) (l : list A) : res (list B) :=
  match l with
  | [] => Ok []
  | x :: t => do y <- f x; do ys <- map_res f t; Ok (y :: ys)
  end.
(** descriptive.py:1094-1160 [_circ_mean_ci_bootstrap]; [draws] are the B rows drawn
    with replacement from alpha, B > 0.  A NaN mean of the bootstrap directions is
    within no range. *)
Definition ci_bootstrap (alpha : list R) (draws : list (list R)) (ci : R) : res (R * R) :=
  match alpha with
  | [] => Err ValueError
  | _ =>
      let n := INR (length alpha) in
      let r := circ_r alpha None in
      if Rltb (5/100) (exp (- (n * r ^ 2))) then Err ValueError
      else
        let m0 := moments_of alpha in
        do samples <- map_res (circ_mean_resample m0 (boot_v0 m0)) draws;
        do lu <- compute_hdi samples ci;
        let inside := match circ_mean samples None with
                      | Fin m => is_within_circular_range m (fst lu) (snd lu)
                      | _ => false
                      end in
        Ok (if inside then lu else (snd lu, fst lu))
  end.

(** Numbers and random rows the constructor takes from elsewhere: scipy's chi2.isf
    (0.05, 1), norm.ppf(0.975) and the bootstrap rows of np.random. *)
Record ext := { x_chi : R; x_z : R; x_draws : list (list R) }.

(** descriptive.py:832-934 [circ_mean_ci] as called from base.py:258-266: alpha, w,
    mean, r and n all given, ci = 0.95, B = 2000.  A NaN mean gives NaN bounds.  Only
    these three method names are known. *)
Definition mean_ci (x : ext) (alpha w : list R) (m : fl) (r n : R) (method : string)
    : res (option (R * R)) :=
  let with_mean f := match m with Fin m => f m | _ => Ok None end in
  if String.eqb method "approximate" then with_mean (fun m => ci_approximate m r n (x_chi x))
  else if String.eqb method "bootstrap" then
    (do lu <- ci_bootstrap alpha (x_draws x) (95/100);
     Ok (Some (angmod0 (fst lu), angmod0 (snd lu))))
  else if String.eqb method "dispersion" then
    with_mean (fun m => ci_dispersion (combine alpha w) m (x_z x))
  else Err ValueError.

(** `bins`: a number of equal bins over (0, 2 pi), or explicit edges.  Other types
    (a list, a numpy integer) skip the histogram and are not modelled. *)
Inductive binspec := BCount (k : Z) | BEdges (edges : list R).
(** np.histogram(alpha, edges): half-open bins, the last one closed; values outside
    the edges are not counted. *)
Fixpoint hist_counts (alpha edges : list R) : list R :=
  match edges with
  | lo :: (hi :: rest) as t =>
      let inside a := match rest with
                      | [] => Rleb lo a && Rleb a hi
                      | _ => Rleb lo a && Rltb a hi
                      end in
      INR (count_if inside alpha) :: hist_counts alpha t
  | _ => []
  end.
(** np.linspace(0, 2 pi, k + 1), the edges np.histogram uses for an integer k. *)
Definition even_edges (k : nat) : list R := map (fun i => INR i * (2 * PI / INR k)) (seq 0 (S k)).
Fixpoint increasing (l : list R) : bool :=
  match l with
  | x :: (y :: _) as t => Rleb x y && increasing t
  | _ => true
  end.
(** np.histogram's checks: k >= 1; edges monotone, at least two of them here. *)
Definition hist_edges (b : binspec) : res (list R) :=
  match b with
  | BCount k => if Z.ltb k 1 then Err ValueError else Ok (even_edges (Z.to_nat k))
  | BEdges e => if increasing e then Ok e else Err ValueError
  end.
(** 0.5 * (edges[:-1] + edges[1:]) (base.py:215). *)
Fixpoint centers (edges : list R) : list R :=
  match edges with
  | lo :: (hi :: _) as t => / 2 * (lo + hi) :: centers t
  | _ => []
  end.
(** astype(int): towards zero. *)
Definition trunc (x : R) : Z := if Rltb x 0 then (- Rfloor (- x))%Z else Rfloor x.

(** The user's kwargs_mean_ci dictionary: "method" (absent, None or a name) and "ci";
    other keys are never read. *)
Record kdict := { kd_method : option (option string); kd_ci : option R }.
(** kwargs_median merged with the defaults (base.py:172-179): method, return_average,
    average_method. *)
Record kmedian := { km_method : option string; km_average : bool; km_average_method : string }.
Definition kmedian_default : kmedian :=
  {| km_method := Some "deviation"; km_average := true; km_average_method := "all" |}.

(** Arguments of the constructor (base.py:147-159).  n_clusters_max stays 1, the
    mixture part (292-310) is modelled with the clustering module. *)
Record args := {
  a_data : list R; a_w : option (list R); a_bins : option binspec;
  a_unit : string; a_cycle : option R; a_rotate : option R;
  a_median : kmedian; a_mean_ci : option kdict }.

(** Attributes of the object.  None for mean_ci is (nan, nan); median_ci is None when
    the attributes are not set, Some None for NaN bounds.  Skewness and kurtosis
    (289-290), which raise nothing, are left out. *)
Record circ_obj := {
  o_cycle : R; o_data : list R; o_alpha : list R; o_w : list R; o_grouped : bool;
  o_bin_size : R; o_bounds : list (R * R);
  o_n : Z; o_mean : fl; o_r : R; o_pval : R; o_R : R; o_kappa : R;
  o_method : option string; o_level : fl; o_mean_ci : option (R * R);
  o_s : fl; o_s0 : fl; o_median : medout; o_median_ci : option (option (R * R)) }.

(** base.py:161-178: the cycle in use. *)
Definition full_cycle_of (unit : string) (c : option R) : res R :=
  match c with
  | Some c => Ok c
  | None => match unit_cycle unit with Some c => Ok c | None => Err ValueError end
  end.
(** base.py:184: data in radians, turned by `rotate` radians and reduced. *)
Definition to_alpha (data : list R) (cycle : R) (rotate : option R) : res (list R) :=
  let a := map (fun x => data2rad x cycle) data in
  match rotate with None => Ok a | Some t => rotate_data a t "radian" end.

(** What the preprocessing (base.py:187-217) leaves: angles, weights, the grouped flag,
    the bin size and the bin bounds. *)
Record prepared := { p_alpha : list R; p_w : list R; p_grouped : bool; p_bin : R;
                     p_bounds : list (R * R) }.
(** base.py:187-217.  The second assertion (195-197) compares len(w) with
    ceil(2 pi / (2 pi / len(w))), equal in exact arithmetic; an empty w divides by
    zero.  np.diff(...).min() of fewer than two centres is a ValueError. *)
Definition prepare (alpha : list R) (w : option (list R)) (bins : option binspec) : res prepared :=
  match bins with
  | None =>
      match w with
      | None => Ok {| p_alpha := alpha; p_w := ones alpha; p_grouped := false; p_bin := 0;
                      p_bounds := [] |}
      | Some w =>
          if negb (Nat.eqb (length w) (length alpha)) then Err AssertionError
          else match w with
               | [] => Err ZeroDivisionError
               | _ =>
                   do b <- list_min (diff alpha);
                   Ok {| p_alpha := alpha; p_w := w; p_grouped := true; p_bin := b;
                         p_bounds := map (fun a => (a - b / 2, a + b / 2)) alpha |}
               end
      end
  | Some spec =>
      do e <- hist_edges spec;
      let c := centers e in
      do b <- list_min (diff c);
      Ok {| p_alpha := c; p_w := hist_counts alpha e; p_grouped := true; p_bin := b;
            p_bounds := combine e (tl e) |}
  end.

(** base.py:243-260: the method for the interval, its level, and what the user's
    dictionary holds afterwards: `pop` removes "method" from it. *)
Definition choose_ci (k : option kdict) (p : R) (n : Z) : option string * fl * option kdict :=
  match k with
  | None =>
      if Rltb p (5/100) && (Z.leb 8 n && Z.ltb n 25) then (Some "bootstrap", Fin (95/100), None)
      else if Rltb p (5/100) && Z.leb 25 n then (Some "dispersion", Fin (95/100), None)
      else (None, NaN, None)
  | Some d =>
      (match kd_method d with Some m => m | None => Some "bootstrap" end, Fin (95/100),
       Some {| kd_method := None; kd_ci := kd_ci d |})
  end.

(** base.py:147-314 [Circular.__init__]: the object and the user's kwargs_mean_ci
    afterwards.  n is a numpy integer, so the division by n * kappa = 0 in circ_kappa
    gives infinity and kappa is then max(-inf, 0) = 0. *)
Definition circular (x : ext) (g : args) : res (circ_obj * option kdict) :=
  do cycle <- full_cycle_of (a_unit g) (a_cycle g);
  do alpha0 <- to_alpha (a_data g) cycle (a_rotate g);
  do p <- prepare alpha0 (a_w g) (a_bins g);
  let alpha := p_alpha p in
  let w := p_w p in
  let n := trunc (Rsum w) in
  let mr := circ_mean_and_r alpha (Some w) in
  let r := snd mr in
  do ray <- rayleigh_test None None (Some r) (Some n) 1 [];
  do kappa <- match circ_kappa r (Some (IZR n)) with
              | Err ZeroDivisionError => Ok 0
              | other => other
              end;
  let '(method, level, after) := choose_ci (a_mean_ci g) (ray_pval ray) n in
  do ci <- match method with
           | Some m => if Rltb (ray_pval ray) (5/100)
                       then mean_ci x alpha w (fst mr) r (IZR n) m else Ok None
           | None => Ok None
           end;
  do s <- angular_std None None (Some r) (Some (p_bin p));
  do s0 <- circ_std None None (Some r) (Some (p_bin p));
  do med <- circ_median alpha (Some w) (km_method (a_median g)) (km_average (a_median g))
                        (km_average_method (a_median g));
  do mci <- (if p_grouped p then Ok None
             else match med with
                  | MNaN => Ok None
                  | MOne m => do c <- circ_median_ci alpha m (x_z x); Ok (Some c)
                  | MMany _ => Err ValueError
                  end);
  Ok ({| o_cycle := cycle; o_data := a_data g; o_alpha := alpha; o_w := w;
         o_grouped := p_grouped p; o_bin_size := p_bin p; o_bounds := p_bounds p;
         o_n := n; o_mean := fst mr; o_r := r; o_pval := ray_pval ray; o_R := IZR n * r;
         o_kappa := kappa; o_method := method; o_level := level; o_mean_ci := ci;
         o_s := s; o_s0 := s0; o_median := med; o_median_ci := mci |}, after).

(** base.py:488-496: doubling.  The modulus follows the unit name; `full_cycle` is used
    for other units only, and % None is a TypeError. *)
Definition double_data (data : list R) (unit : string) (c : option R) : res (list R) :=
  match unit_cycle unit with
  | Some m => Ok (map (fun d => pymod (2 * d) m) data)
  | None => match c with
            | Some m => Ok (map (fun d => pymod (2 * d) m) data)
            | None => Err TypeError
            end
  end.
Definition half_fl (v : fl) : fl := match v with Fin m => Fin (m / 2) | v => v end.
(** base.py:472-515 [Axial.__init__]; it takes no argument of its own, `rotate` goes
    through kwargs. *)
Definition axial (x : ext) (g : args) : res (circ_obj * option kdict) :=
  do d <- double_data (a_data g) (a_unit g) (a_cycle g);
  do oa <- circular x {| a_data := d; a_w := a_w g; a_bins := a_bins g; a_unit := a_unit g;
                         a_cycle := a_cycle g; a_rotate := a_rotate g;
                         a_median := a_median g; a_mean_ci := a_mean_ci g |};
  let o := fst oa in
  Ok ({| o_cycle := o_cycle o; o_data := a_data g;
         o_alpha := map (fun d => data2rad d (o_cycle o)) (a_data g); o_w := o_w o;
         o_grouped := o_grouped o; o_bin_size := o_bin_size o; o_bounds := o_bounds o;
         o_n := o_n o; o_mean := half_fl (o_mean o); o_r := o_r o; o_pval := o_pval o;
         o_R := o_R o; o_kappa := o_kappa o; o_method := o_method o; o_level := o_level o;
         o_mean_ci := match o_mean_ci o with
                      | Some (lo, up) => Some (lo / 2, up / 2)
                      | None => None
                      end;
         o_s := o_s o; o_s0 := o_s0 o; o_median := o_median o; o_median_ci := o_median_ci o |},
      snd oa).
