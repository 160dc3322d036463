(** Model of the multimodality part of Circular.__init__ (pycircstat2/base.py:298-314) and of the line
    of __repr__ that reports it (326-333). *)
From Verif Require Import Prelude NpModel UtilsModel DescModel HypMultiModel HypMulti2Model ClusModel EmModel BaseModel.

(** MovM(n_clusters=k, full_cycle=full_cycle, unit="radian", random_seed=0) (base.py:302-307) with the
    defaults burnin=30, n_iters=100, threshold=1e-16 (clustering.py:81-90). *)
Definition modes_cfg (cycle : R) (k : nat) : em_cfg :=
  {| c_burnin := 30; c_K := k; c_iters := 100; c_threshold := / 10 ^ 16; c_radian := true; c_cycle := cycle |}.
(** np.repeat(alpha, w) (base.py:308).  [wint]: the weights have an integer type; a float array cannot be
    cast safely and raises TypeError, whatever its values. *)
Definition expand_w (wint : bool) (alpha w : list R) : res (list R) :=
  if wint then repeat_z alpha (map trunc w) else Err TypeError.
(** np.nanargmin (base.py:312): NaN is replaced by +inf, then the first smallest entry. *)
Definition nan_to_inf (x : fl) : fl := match x with NaN => PInf | _ => x end.
Fixpoint argmin_from (best : fl) (bi i : nat) (l : list fl) : nat :=
  match l with
  | [] => bi
  | x :: t => if fllt x best then argmin_from x i (S i) t else argmin_from best bi (S i) t
  end.
Definition nanargmin (l : list fl) : nat :=
  match map nan_to_inf l with [] => 0%nat | x :: t => argmin_from x 0 1 t end.
(** The attributes mixtures, mixtures_BIC and mixture_opt. *)
Record modes := { md_mix : list (mix vm); md_bic : list fl; md_opt : option (mix vm) }.
(** base.py:299-314.  With n_clusters_max <= 1 the last two attributes are not set.  [cands k] are the
    labellings the generator with seed 0 draws for k clusters and this sample size. *)
Definition circ_modes (I0 : R -> R) (cands : nat -> list (list nat)) (cycle : R) (wint : bool) (alpha w : list R)
    (kmax : nat) : res (option modes) :=
  if Nat.leb kmax 1 then Ok None
  else
    do ms <- rmap (fun k => do X <- expand_w wint alpha w;
                            movm_fit I0 (modes_cfg cycle k) (false, None) (cands k) X) (seq 1 kmax);
    do bics <- rmap (fun km : nat * mix vm => movm_bic I0 (fst km) (Some (snd km))) (combine (seq 1 kmax) ms);
    Ok (Some {| md_mix := ms; md_bic := bics;
                md_opt := if forallb is_nan bics then None else nth_error ms (nanargmin bics) |}).
(** base.py:326-333: the number of clusters in the line "Unimodal?"; None when there is no such line. *)
Definition reported (md : option modes) : option nat :=
  match md with
  | Some d => match md_opt d with Some m => Some (length (mx_cs m)) | None => None end
  | None => None
  end.
(** base.py:147-314: the constructor with n_clusters_max = [kmax]. *)
Definition circular_modes (x : ext) (I0 : R -> R) (cands : nat -> list (list nat)) (wint : bool) (g : args) (kmax : nat)
    : res (circ_obj * option modes) :=
  do o <- circular x g;
  do md <- circ_modes I0 cands (o_cycle (fst o)) wint (o_alpha (fst o)) (o_w (fst o)) kmax;
  Ok (fst o, md).
