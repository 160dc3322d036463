(** What users of a circular distribution rely on. *)
From Verif Require Import Prelude IntSpec CircleSpec.

(** [F] is the distribution function, measured from angle 0, of the density [f]. *)
Definition is_cdf (F f : R -> R) : Prop :=
  F 0 = 0 /\ F (2 * PI) = 1 /\
  (forall a b, 0 <= a -> a <= b -> b <= 2 * PI -> F a <= F b /\ integral f a b (F b - F a)) /\
  (forall x, 0 < x < 2 * PI -> derivable_pt_lim F x (f x)).

(** The two public functions describe one distribution on the circle: pdf and cdf return
    numbers for every angle, pdf is periodic and a density, cdf is its distribution function. *)
Definition describes (pdf cdf : R -> fl) : Prop :=
  exists f F : R -> R,
    (forall x, pdf x = Fin (f x)) /\ (forall x, cdf x = Fin (F x)) /\
    (forall x y, same_dir x y -> f x = f y) /\
    density f /\ is_cdf F f.

(** The p-th trigonometric moment of the density is (a, b). *)
Definition trig_moment_of (f : R -> R) (p : Z) (a b : R) : Prop :=
  integral (fun x => cos (IZR p * x) * f x) 0 (2 * PI) a /\
  integral (fun x => sin (IZR p * x) * f x) 0 (2 * PI) b.

(** [g] is the gradient of the two-parameter objective [obj] at (a, b): obj is finite around
    (a, b) and its partial derivatives there are the components of [g]. *)
Definition is_gradient (obj : R -> R -> fl) (a b : R) (g : R * R) : Prop :=
  exists v : R -> R -> R,
    (exists d, 0 < d /\ forall x y, Rabs (x - a) < d -> Rabs (y - b) < d -> obj x y = Fin (v x y)) /\
    derivable_pt_lim (fun x => v x b) a (fst g) /\
    derivable_pt_lim (fun y => v a y) b (snd g).

(** The public pdf is a probability density on the circle. *)
Definition pdf_is_density (pdf : R -> fl) : Prop :=
  exists f : R -> R, (forall x, pdf x = Fin (f x)) /\ (forall x y, same_dir x y -> f x = f y) /\ density f.

(** Along one turn of its uniform input, the sampler [s] runs once around the circle and
    spends on every arc the probability the density [f] gives to it. *)
Definition samples_from (s f : R -> R) : Prop :=
  exists g : R -> R,
    (forall u v, u < v -> g u < g v) /\ (forall u, g (u + 2 * PI) = g u + 2 * PI) /\
    (forall u, same_dir (s u) (g u)) /\
    (forall u v, u <= v -> integral f (g u) (g v) ((v - u) / (2 * PI))).

(** Weighted log-likelihood of data (angle, weight) under the density [f]. *)
Definition loglik (f : R -> R) (s : list (R * R)) : R :=
  Rsum (map (fun p => snd p * ln (f (fst p))) s).
