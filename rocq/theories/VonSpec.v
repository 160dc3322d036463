(** What users of the von Mises distribution rely on. *)
From Verif Require Import Prelude IntSpec CircleSpec.

(** The modified Bessel functions of the first kind of integer order:
    2 pi I_n(k) is the integral of cos(n t) exp(k cos t) over one turn. *)
Definition is_iv (iv : nat -> R -> R) : Prop :=
  forall n k, integral (fun t => cos (INR n * t) * exp (k * cos t)) 0 (2 * PI) (2 * PI * iv n k).

(** [h] is the entropy of the density [f]. *)
Definition is_entropy (f : R -> R) (h : R) : Prop :=
  integral (fun x => - (f x * ln (f x))) 0 (2 * PI) h.

(** [draw] consumes uniform numbers from a list and is a rejection sampler for the density [f]
    around [mu].  A trial reads u1 and u2 and accepts when u2 <= p u1; it then returns the
    direction at distance g u1 from mu, on the side told by u3.  Accepting with u1 in [a, b]
    has probability K w, where w is the probability f gives to the two arcs of directions
    at a distance between g a and g b from mu; each arc has half of it. *)
Definition rejection_sampler (draw : list R -> option R) (f : R -> R) (mu : R) : Prop :=
  exists (p g : R -> R) (K : R), 0 < K /\
    (forall u1 u2 rest, 0 <= u1 <= 1 -> 0 <= u2 ->
       (p u1 < u2 -> draw (u1 :: u2 :: rest) = draw rest) /\
       (forall u3, u2 <= p u1 -> u3 <> 1 / 2 ->
          exists x, draw (u1 :: u2 :: u3 :: rest) = Some x /\ 0 <= x < 2 * PI /\
                    same_dir x (mu + (if Rltb (1 / 2) u3 then g u1 else - g u1)))) /\
    (forall u, 0 <= u <= 1 -> 0 <= p u <= 1) /\
    g 0 = 0 /\ g 1 = PI /\ (forall u v, u < v -> g u < g v) /\
    (forall a b, 0 <= a -> a <= b -> b <= 1 -> exists w,
       integral p a b (K * w) /\
       integral f (mu + g a) (mu + g b) (w / 2) /\ integral f (mu - g b) (mu - g a) (w / 2)).
