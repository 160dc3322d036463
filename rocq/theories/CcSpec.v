(** Vocabulary for the base class properties. *)
From Coq Require Import String.
From Verif Require Import Prelude NpModel IntSpec DistSpec CcModel.

(** Every number of a keyword value is within 1e-8 + 1e-5 |d| of the default [d]. *)
Definition default_like (v : kwval) (d : R) : Prop :=
  match v with KNum l => forall x, In x l -> Rabs (x - d) <= / 10 ^ 8 + / 10 ^ 5 * Rabs d | KOther => False end.
(** The dictionary binds [k] to [v]; dictionaries have no repeated key. *)
Definition dict (kw : kwargs) : Prop := NoDup (map fst kw).
Definition binds (kw : kwargs) (k : string) (v : kwval) : Prop := In (k, v) kw.

(** [mu], [r]: direction and length of the first moment of the density; [c2], [s2]: its second
    moment about [mu]. *)
Definition about_mean (f : R -> R) (mu r c2 s2 : R) : Prop :=
  0 <= mu < 2 * PI /\ 0 < r <= 1 /\
  integral (fun x => cos (x - mu) * f x) 0 (2 * PI) r /\
  integral (fun x => sin (x - mu) * f x) 0 (2 * PI) 0 /\
  integral (fun x => cos (2 * (x - mu)) * f x) 0 (2 * PI) c2 /\
  integral (fun x => sin (2 * (x - mu)) * f x) 0 (2 * PI) s2.
(** The moments of the density are the pairs [m1] and [m2]. *)
Definition moments12 (f : R -> R) (m1 m2 : R * R) : Prop :=
  density f /\ trig_moment_of f 1 (fst m1) (snd m1) /\ trig_moment_of f 2 (fst m2) (snd m2).
(** A continuous density on the circle. *)
Definition circle_density (f : R -> R) : Prop :=
  density f /\ (forall x, continuity_pt f x) /\ (forall x, f (x + 2 * PI) = f x).
