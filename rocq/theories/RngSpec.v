(** Specification vocabulary for streams of random numbers. *)
From Verif Require Import Prelude RngModel.

(** Successive draws [ds] from a generator in state [g]. *)
Fixpoint stream {G A} (ds : list (G -> A * G)) (g : G) : list A :=
  match ds with [] => [] | d :: ds => fst (d g) :: stream ds (snd (d g)) end.
(** The draws and the answers of the calls with a given random_state. *)
Definition source_eqb (a b : source) : bool :=
  match a, b with
  | SNone, SNone | SOther, SOther => true
  | SGen i, SGen j | SLegacy i, SLegacy j => Nat.eqb i j
  | SSeed y, SSeed z => Z.eqb y z
  | _, _ => false
  end.
Fixpoint draws_with {G A} (s : source) (h : list (op G A)) : list (G -> A * G) :=
  match h with
  | [] => []
  | Rvs s' d :: h => if source_eqb s' s then d :: draws_with s h else draws_with s h
  | Reseed _ :: h => draws_with s h
  end.
Definition answers_with {A} (s : source) (out : list (source * res A)) : list (res A) :=
  map snd (filter (fun p => source_eqb (fst p) s) out).
(** One draw each from generators seeded by successive numbers of a RandomState in state [l]. *)
Fixpoint reseeded {G L A} (np : numpy G L) (ds : list (G -> A * G)) (l : L) : list A :=
  match ds with [] => [] | d :: ds => fst (d (default_rng np (fst (randint np l)))) :: reseeded np ds (snd (randint np l)) end.
