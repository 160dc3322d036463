(** Specification vocabulary for the correlation measures; independent of the model. *)
From Verif Require Import Prelude CircleSpec DescSpec.

(** The sample turned by t, each angle up to whole turns. *)
Definition moved (t : R) (a a' : list R) : Prop := Forall2 (fun x x' => same_dir (x + t) x') a a'.
(** The mirror image turned by t, each angle up to whole turns. *)
Definition mirrored (t : R) (a a' : list R) : Prop := Forall2 (fun x x' => same_dir (t - x) x') a a'.
(** The same pairs in another order. *)
Definition same_pairs (a b a' b' : list R) : Prop :=
  length a = length b /\ length a' = length b' /\ Permutation (combine a b) (combine a' b').
(** Sum of f over all ordered pairs of observations. *)
Definition pair_sum {A} (f : A -> A -> R) (l : list A) : R :=
  Rsum (map (fun p => Rsum (map (f p) l)) l).
(** Sum of products over paired observations. *)
Definition dot (f g : R -> R) (l : list (R * R)) : R := Rsum (map (fun p => f (fst p) * g (snd p)) l).
(** Residual sum of squares of x - (c + p cos a + q sin a). *)
Definition rss (c p q : R) (l : list (R * R)) : R :=
  Rsum (map (fun o => (snd o - (c + p * cos (fst o) + q * sin (fst o))) ^ 2) l).
(** Sum of squared deviations from the average. *)
Definition sumsq_dev (l : list R) : R := Rsum (map (fun v => (v - Rsum l / INR (length l)) ^ 2) l).
(** The angles, seen as points of the plane, are spread by more than m along every direction. *)
Definition spread (m : R) (a : list R) : Prop := forall d, m < sumsq_dev (map (fun x => cos (x - d)) a).
(** The two lists order the observations in the same way, or in opposite ways. *)
Definition same_order (a a' : list R) : Prop :=
  length a = length a' /\ forall p q, In p (combine a a') -> In q (combine a a') -> (fst p < fst q <-> snd p < snd q).
Definition reverse_order (a a' : list R) : Prop :=
  length a = length a' /\ forall p q, In p (combine a a') -> In q (combine a a') -> (fst p < fst q <-> snd q < snd p).
