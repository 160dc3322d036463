(** C228: the closed form of the resultant length of the cartwright law. *)
From Verif Require Import Prelude NpModel IntSpec DistModel DistSpec CwModel CwSpec DupModel DupProofs MomrProofs CwEx.

Theorem C228_length : forall l g mu z r, is_gamma g -> is_gammaln l g -> cw_ok mu z = true -> cw_moment_r l [z] = Ok [r] ->
  trig_moment_of (cw_pdf g mu z) 1 (r * cos mu) (r * sin mu).
Proof. exact cw_moment_r_law. Qed.
Print Assumptions C228_length.
Theorem C228_values : forall l g zs, is_gamma g -> is_gammaln l g ->
  (Forall (fun z => 0 < z) zs -> cw_moment_r l zs = Ok (map (fun z => 1 / (1 + z)) zs)) /\
  (Exists (fun z => z <= 0) zs -> cw_moment_r l zs = Err ValueError).
Proof. exact cw_moment_r_val. Qed.
Print Assumptions C228_values.
Example C228_example : exists l g, is_gamma g /\ is_gammaln l g /\ cw_ok (PI / 3) (1 / 2) = true /\ cw_moment_r l [1 / 2; 1] = Ok [1 / (1 + 1 / 2); 1 / (1 + 1)].
Proof.
  destruct ex_special as (g & l & _ & _ & _ & _ & G & L & _). exists l, g. split; [exact G|]. split; [exact L|]. split; [exact ex_cw_ok|].
  apply (C228_values l g [1 / 2; 1] G L). repeat constructor; lra.
Qed.
