(** What users of the circular-linear regression rely on.  Nothing here refers to the model. *)
From Coq Require String Ascii.
From Verif Require Import Prelude CircleSpec RegSpec.

(** The location of an observation with predictors [x]: a direction mu and the tangent link. *)
Definition tan_link (mu : R) (b x : list R) : R := mu + 2 * atan (inner x b).
(** Its concentration: the log link. *)
Definition log_link (a : R) (g x : list R) : R := exp (a + inner x g).
(** The observations with the location and the concentration a model gives them. *)
Definition under (loc conc : list R -> R) (theta : list R) (rows : list (list R)) : list (R * R * R) :=
  map (fun o => (fst o, loc (snd o), conc (snd o))) (combine theta rows).
(** u + s e. *)
Fixpoint along (u : list R) (s : R) (e : list R) : list R :=
  match u, e with a :: u', b :: e' => (a + s * b) :: along u' s e' | _, _ => u end.
(** The mean resultant length of directions. *)
Definition resultant (l : list R) : R :=
  sqrt ((Rsum (map cos l) / INR (length l)) ^ 2 + (Rsum (map sin l) / INR (length l)) ^ 2).
(** The deviations from the locations, weighted by the concentrations, have no mean direction. *)
Definition balanced (loc conc : list R -> R) (theta : list R) (rows : list (list R)) : Prop :=
  Rsum (map (fun o => conc (snd o) * sin (fst o - loc (snd o))) (combine theta rows)) = 0 /\
  Rsum (map (fun o => conc (snd o) * cos (fst o - loc (snd o))) (combine theta rows)) = 0.
(** The number that the digits of s continue, n being the number read so far. *)
Fixpoint decimal (n : nat) (s : String.string) : option nat :=
  match s with
  | String.EmptyString => Some n
  | String.String c t =>
      let k := Ascii.nat_of_ascii c in if Nat.leb 48 k && Nat.leb k 57 then decimal (10 * n + (k - 48)) t else None
  end.
