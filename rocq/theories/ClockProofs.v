(** time2float. *)
From Verif Require Import Prelude HypMultiModel UtilsModel CircleSpec ClockModel ClockSpec.
From Coq Require Import String Ascii.
Import ListNotations.
Open Scope list_scope.
Open Scope R_scope.

Lemma split_count c s : List.length (split_on c s) = S (occurs c s).
Proof.
  induction s as [|a s IH]; cbn; [reflexivity|]. destruct (Ascii.eqb a c); cbn; [rewrite IH; reflexivity|].
  destruct (split_on c s); cbn in *; lia.
Qed.
Lemma split_none c s : occurs c s = 0%nat -> split_on c s = [s].
Proof.
  induction s as [|a s IH]; cbn; [reflexivity|]. destruct (Ascii.eqb a c); [discriminate|]. cbn. intros H. rewrite IH by exact H. reflexivity.
Qed.
Lemma split_app c s t : occurs c s = 0%nat -> split_on c (s ++ String c t)%string = s :: split_on c t.
Proof.
  induction s as [|a s IH]; cbn; intros H; [rewrite Ascii.eqb_refl; reflexivity|].
  destruct (Ascii.eqb a c); [discriminate|]. cbn in H. rewrite IH by exact H. reflexivity.
Qed.
Lemma digits_free c s : ~ digit c -> all_chars digit s -> occurs c s = 0%nat.
Proof.
  intros N. induction s as [|a s IH]; cbn; [reflexivity|]. intros [D H]. destruct (Ascii.eqb_spec a c); [subst; contradiction|]. exact (IH H).
Qed.
Lemma clock_one float sep hh mm : reads_numerals float -> ~ digit sep -> numeral hh -> numeral mm ->
  t2f float sep (hh ++ String sep mm)%string = Ok (INR (value hh) + INR (value mm) / 60).
Proof.
  intros F N H M. unfold t2f. rewrite split_app by (apply digits_free; [exact N|apply H]).
  rewrite split_none by (apply digits_free; [exact N|apply M]). rewrite (F _ H), (F _ M). reflexivity.
Qed.
Lemma clock_list float sep (ts : list (string * string)) : reads_numerals float -> ~ digit sep -> ts <> [] ->
  Forall (fun t => numeral (fst t) /\ numeral (snd t)) ts ->
  time2float float sep (map (fun t => fst t ++ String sep (snd t))%string ts) = Ok (map (fun t => INR (value (fst t)) + INR (value (snd t)) / 60) ts).
Proof.
  intros F N E H. assert (R : rmap (t2f float sep) (map (fun t => fst t ++ String sep (snd t))%string ts) = Ok (map (fun t => INR (value (fst t)) + INR (value (snd t)) / 60) ts)).
  { clear E. induction H as [|t ts [H M] _ IH]; [reflexivity|]. cbn [map rmap]. rewrite clock_one by auto. cbn [bind]. rewrite IH. reflexivity. }
  unfold time2float. destruct ts as [|t ts]; [congruence|]. cbn [map] in R |- *. exact R.
Qed.
Lemma clock_fields float sep xs l : time2float float sep xs = Ok l -> xs <> [] /\ List.length l = List.length xs /\ Forall (fun s => occurs sep s = 1%nat) xs.
Proof.
  unfold time2float. destruct xs as [|x xs]; [discriminate|]. intros E. split; [discriminate|].
  revert l E. generalize (x :: xs). clear. induction l as [|s xs IH]; intros l E; [injection E as <-; auto|].
  cbn [rmap] in E. destruct (t2f float sep s) as [y|e] eqn:T; [|discriminate]. cbn [bind] in E.
  destruct (rmap _ xs) as [ys|e]; [|discriminate]. cbn [bind] in E. injection E as <-. destruct (IH ys eq_refl) as (A & B).
  split; [cbn; rewrite A; reflexivity|]. constructor; [|exact B].
  unfold t2f in T. pose proof (split_count sep s) as C. destruct (split_on sep s) as [|a [|b [|d r]]]; try discriminate. cbn in C. lia.
Qed.
(** Times of one day: the order of the results is the order of the clock, and the direction on a 24-hour
    circle is that of the minute of the day. *)
Lemma clock_order h m h' m' : (m < 60)%nat -> (m' < 60)%nat ->
  (INR h + INR m / 60 < INR h' + INR m' / 60 <-> (60 * h + m < 60 * h' + m')%nat).
Proof.
  intros _ _. assert (E : forall a b, INR a + INR b / 60 = INR (60 * a + b) / 60).
  { intros a b. rewrite plus_INR, mult_INR. replace (INR 60) with 60 by (rewrite INR_IZR_INZ; reflexivity). field. }
  rewrite !E. split; intros H.
  - apply INR_lt. lra.
  - apply lt_INR in H. lra.
Qed.
Lemma clock_angle h m : data2rad (INR h + INR m / 60) 24 = 2 * PI * INR (60 * h + m) / 1440.
Proof.
  unfold data2rad. rewrite plus_INR, mult_INR. replace (INR 60) with 60 by (rewrite INR_IZR_INZ; reflexivity). field.
Qed.
Lemma clock_day : forall float sep hh mm hh' mm' a a', reads_numerals float -> ~ digit sep -> numeral hh -> numeral mm -> numeral hh' -> numeral mm' ->
  (value mm < 60)%nat -> (value mm' < 60)%nat ->
  time2float float sep [hh ++ String sep mm; hh' ++ String sep mm']%string = Ok [a; a'] ->
  (a < a' <-> (60 * value hh + value mm < 60 * value hh' + value mm')%nat) /\ data2rad a 24 = 2 * PI * INR (60 * value hh + value mm) / 1440.
Proof.
  intros float sep hh mm hh' mm' a a' F N H1 H2 H3 H4 L L' E.
  pose proof (clock_list float sep [(hh, mm); (hh', mm')] F N ltac:(discriminate) (Forall_cons (hh, mm) (conj H1 H2) (Forall_cons (hh', mm') (conj H3 H4) (Forall_nil _)))) as C.
  cbn [map fst snd] in C. rewrite E in C.
  assert (Qa : a = INR (value hh) + INR (value mm) / 60) by congruence.
  assert (Qb : a' = INR (value hh') + INR (value mm') / 60) by congruence.
  subst a a'. split; [apply clock_order; assumption|apply clock_angle].
Qed.
Definition read (s : string) : option R := Some (INR (value s)).
Lemma read_ok : reads_numerals read.
Proof. intros s _. reflexivity. Qed.
