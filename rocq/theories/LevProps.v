(** C223: the level that circ_median_ci reports. *)
From Verif Require Import Prelude CircleSpec LevModel LevSpec LevProofs.

(** Full statement: for 3 to 15 observations the reported level is, up to 0.002 (0.006 for 14), the probability that the
    interval covers the median of the law.  Proved for 3 to 14 observations and samples that are not cut
    by the direction 0; false for 15 (C223_fifteen_refuted) and across 0 (C223_cut_refuted). *)
Theorem C223_level_partial : forall n m X median z ci, (3 <= n <= 14)%nat -> 0 <= m < 2 * PI -> drawn_about m n X -> exists q lv,
  coverage n m (fun s lo up => exists lv, median_ci_full (X s) (median s) z ci = Ok (Some (lo, up), lv)) q /\
  (forall s, length s = n -> exists lo up, median_ci_full (X s) (median s) z ci = Ok (Some (lo, up), lv)) /\ Rabs (q - lv) <= (if Nat.eqb n 14 then 6/1000 else 2/1000).
Proof. exact level_covers. Qed.
Print Assumptions C223_level_partial.
(** For 15 observations the reported level is 0.965; the third and the thirteenth order statistic enclose
    the median with probability above 0.992. *)
Theorem C223_fifteen_refuted : exists n, (3 <= n <= 15)%nat /\ forall m X median z ci, 0 <= m < 2 * PI -> drawn_about m n X -> exists q lv,
  coverage n m (fun s lo up => exists lv, median_ci_full (X s) (median s) z ci = Ok (Some (lo, up), lv)) q /\
  (forall s, length s = n -> exists lo up, median_ci_full (X s) (median s) z ci = Ok (Some (lo, up), lv)) /\ lv + 27/1000 < q.
Proof.
  exists 15%nat. split; [lia|]. intros m X median z ci Hm HX. destruct (level_fifteen m X median z ci Hm HX) as (q & A & B & C).
  exists q, (965/1000). split; [exact A|]. split; [exact B|]. lra.
Qed.
Print Assumptions C223_fifteen_refuted.
(** Whatever the sample, the interval does not contain the direction 0 unless 0 is an observation: a law
    with median 0 is never covered. *)
Theorem C223_cut_refuted : forall alpha median z ci, (3 <= length alpha <= 15)%nat -> Forall (fun a => 0 < a < 2 * PI) alpha ->
  exists lo up lv, median_ci_full alpha median z ci = Ok (Some (lo, up), lv) /\ ~ on_ccw_arc 0 lo up.
Proof. exact never_zero. Qed.
Print Assumptions C223_cut_refuted.
Example C223_example : drawn_about 1 5 two_sided /\ drawn_about 1 15 two_sided /\ two_sided [true; false] = [1 + / 2; 1 - / 2].
Proof. split; [apply two_sided_drawn|]. split; [apply two_sided_drawn|reflexivity]. Qed.
Example C223_cut_example : (3 <= length [1/10; 2/10; 2 * PI - 1/10]%R)%nat /\ Forall (fun a => 0 < a < 2 * PI) [1/10; 2/10; 2 * PI - 1/10].
Proof. split; [cbn; lia|]. assert (1 < PI) by (pose proof PI2_3_2; lra). repeat constructor; lra. Qed.
