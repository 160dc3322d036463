(** Specification vocabulary for the Circular and Axial objects. *)
From Verif Require Import Prelude CircleSpec DescSpec Desc2Model BaseModel.

(** Two objects report the same statistics; the stored data, angles and cycle may
    differ. *)
Definition same_report (o o' : circ_obj) : Prop :=
  o_w o = o_w o' /\ o_grouped o = o_grouped o' /\ o_bin_size o = o_bin_size o' /\
  o_bounds o = o_bounds o' /\ o_n o = o_n o' /\ o_mean o = o_mean o' /\ o_r o = o_r o' /\
  o_pval o = o_pval o' /\ o_R o = o_R o' /\ o_kappa o = o_kappa o' /\
  o_method o = o_method o' /\ o_level o = o_level o' /\ o_mean_ci o = o_mean_ci o' /\
  o_s o = o_s o' /\ o_s0 o = o_s0 o' /\ o_median o = o_median o' /\
  o_median_ci o = o_median_ci o'.
(** Two constructor calls end the same way: the same exception, or objects with the
    same statistics and the same options left over. *)
Definition same_outcome (c c' : res (circ_obj * option kdict)) : Prop :=
  match c, c' with
  | Err e, Err e' => e = e'
  | Ok (o, k), Ok (o', k') => same_report o o' /\ k = k'
  | _, _ => False
  end.
(** The call with other data (and unit). *)
Definition with_data (g : args) (d : list R) : args :=
  {| a_data := d; a_w := a_w g; a_bins := a_bins g; a_unit := a_unit g; a_cycle := a_cycle g;
     a_rotate := a_rotate g; a_median := a_median g; a_mean_ci := a_mean_ci g |}.
Definition with_unit (g : args) (d : list R) (u : string) (c : option R) : args :=
  {| a_data := d; a_w := a_w g; a_bins := a_bins g; a_unit := u; a_cycle := c;
     a_rotate := a_rotate g; a_median := a_median g; a_mean_ci := a_mean_ci g |}.
(** The plain call Circular(data, unit) with every option at its default. *)
Definition plain (d : list R) (u : string) : args :=
  {| a_data := d; a_w := None; a_bins := None; a_unit := u; a_cycle := None; a_rotate := None;
     a_median := kmedian_default; a_mean_ci := None |}.
(** Circular(data, w, unit) and Circular(data, bins=k, unit). *)
Definition weighted (d w : list R) (u : string) : args :=
  {| a_data := d; a_w := Some w; a_bins := None; a_unit := u; a_cycle := None; a_rotate := None;
     a_median := kmedian_default; a_mean_ci := None |}.
Definition binned (d : list R) (k : Z) (u : string) : args :=
  {| a_data := d; a_w := None; a_bins := Some (BCount k); a_unit := u; a_cycle := None;
     a_rotate := None; a_median := kmedian_default; a_mean_ci := None |}.
(** The cycle the documentation promises: full_cycle if given, else that of the unit. *)
Definition cycle_of (u : string) (c : option R) (v : R) : Prop :=
  match c with
  | Some c => v = c
  | None => (u = "degree"%string /\ v = 360) \/ (u = "radian"%string /\ v = 2 * PI) \/
            (u = "hour"%string /\ v = 24)
  end.
(** The angle in radians of a reading on a cycle of length c. *)
Definition angle_of (c d : R) : R := 2 * PI * d / c.
(** Entry i of a circular list of bins. *)
Definition bin_at (w : list R) (i : nat) : R := nth (i mod length w) w 0.
(** 2 h equal bins with observations spread evenly inside each bin: the weight on the
    half circle that ends at the fraction f of bin i + 1 (and begins at the fraction f of
    the opposite bin). *)
Definition half_mass (w : list R) (h i : nat) (f : R) : R :=
  (1 - f) * bin_at w (i + h + 1) + Rsum (map (fun j => bin_at w (i + h + 1 + j)) (seq 1 (h - 1)))
  + f * bin_at w (i + 1).
(** Centres of k equal bins starting at a; counts. *)
Definition bin_centres (a : R) (k : nat) : list R := map (fun i => a + INR i * (2 * PI / INR k)) (seq 0 k).
Definition counts (w : list R) : Prop := Forall (fun v => exists n : nat, v = INR n) w.
(** Equally spaced directions, starting anywhere. *)
Definition equally_spaced (l : list R) : Prop :=
  exists a, l = map (fun i => a + INR i * (2 * PI / INR (length l))) (seq 0 (length l)).
(** The cycle is that of the unit: either full_cycle is not given, or the unit is not
    one of the three named ones, or full_cycle repeats the unit's own cycle. *)
Definition modulus_is_cycle (u : string) (c : option R) (v : R) : Prop :=
  cycle_of u c v /\
  (c = None \/ (u <> "degree" /\ u <> "radian" /\ u <> "hour")%string \/ cycle_of u None v).
(** The call with a rotation, and with another kwargs_mean_ci. *)
Definition with_rotate (g : args) (t : R) : args :=
  {| a_data := a_data g; a_w := a_w g; a_bins := a_bins g; a_unit := a_unit g; a_cycle := a_cycle g;
     a_rotate := Some t; a_median := a_median g; a_mean_ci := a_mean_ci g |}.
Definition with_mean_ci (g : args) (k : option kdict) : args :=
  {| a_data := a_data g; a_w := a_w g; a_bins := a_bins g; a_unit := a_unit g; a_cycle := a_cycle g;
     a_rotate := a_rotate g; a_median := a_median g; a_mean_ci := k |}.
Definition with_median (g : args) (m : kmedian) : args :=
  {| a_data := a_data g; a_w := a_w g; a_bins := a_bins g; a_unit := a_unit g; a_cycle := a_cycle g;
     a_rotate := a_rotate g; a_median := m; a_mean_ci := a_mean_ci g |}.
(** The second mean direction is the first turned by t, or both are undefined. *)
Definition mean_turned (t : R) (m m' : fl) : Prop :=
  match m, m' with
  | Fin m, Fin m' => 0 <= m' < 2 * PI /\ same_dir m' (m + t)
  | NaN, NaN => True
  | _, _ => False
  end.
(** The call with other bin centres and counts. *)
Definition with_bins (g : args) (d w : list R) : args :=
  {| a_data := d; a_w := Some w; a_bins := a_bins g; a_unit := a_unit g; a_cycle := a_cycle g;
     a_rotate := a_rotate g; a_median := a_median g; a_mean_ci := a_mean_ci g |}.
(** The weighted sample is its own mirror image about the axis through c. *)
Definition mirror_symmetric (alpha w : list R) (c : R) : Prop :=
  exists alpha', turned (map (fun a => 2 * c - a) alpha) alpha' /\
    Permutation (combine alpha' w) (combine alpha w).
