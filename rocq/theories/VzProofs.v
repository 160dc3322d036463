(** Lemmas on [merge_dicts]. *)
From Coq Require Import String.
From Verif Require Import Prelude NpModel DescModel Desc2Model HypMultiModel BaseModel VzModel VzSpec.
Import ListNotations.
Open Scope R_scope.
Open Scope list_scope.

Lemma dget_dset_same k v d : dget k (dset k v d) = Some v.
Proof. induction d as [|[k' v'] t IH]; cbn; [now rewrite String.eqb_refl|]. destruct (String.eqb k k') eqn:E; cbn; [now rewrite String.eqb_refl|]. now rewrite E. Qed.
Lemma dget_dset_other k k' v d : k <> k' -> dget k (dset k' v d) = dget k d.
Proof.
  intros N. induction d as [|[k2 v2] t IH]; cbn.
  - destruct (String.eqb_spec k k'); [contradiction|reflexivity].
  - destruct (String.eqb_spec k' k2) as [->|]; cbn.
    + destruct (String.eqb_spec k k2); [contradiction|reflexivity].
    + destruct (String.eqb k k2); [reflexivity|exact IH].
Qed.
Lemma dget_In k v d : dget k d = Some v -> In (k, v) d.
Proof. induction d as [|[k' v'] t IH]; cbn; [discriminate|]. destruct (String.eqb_spec k k') as [->|]; [intros E; injection E as ->; now left|intros E; right; auto]. Qed.
Lemma dget_None k d : dget k d = None <-> ~ In k (map fst d).
Proof.
  induction d as [|[k' v'] t IH]; cbn; [tauto|]. destruct (String.eqb_spec k k') as [->|N]; [split; [discriminate|intros H; exfalso; apply H; now left]|].
  rewrite IH. split; [intros H [E|E]; [congruence|contradiction]|tauto].
Qed.

Definition sub_fold := fix go2 (c : dict) (l : list (string * cval)) : pres dict :=
  match l with
  | [] => Draw c
  | (k2, v2) :: rest2 =>
      match v2, dget k2 c with
      | VDict _, Some (VDict c2) =>
          match merge_dicts c2 v2 with
          | Draw x => go2 (dset k2 (VDict x) c) rest2
          | Raise e => Raise e
          end
      | _, _ => go2 (dset k2 v2 c) rest2
      end
  end.
Definition top_fold (defaults : dict) := fix go (merged : dict) (l : list (string * cval)) : pres dict :=
  match l with
  | [] => Draw merged
  | (k, v) :: rest =>
      match v with
      | VBool false => go (dset k (VBool false) merged) rest
      | VBool true => match dget k defaults with Some x => go (dset k x merged) rest | None => Raise PKeyError end
      | VDict sub =>
          match dget k merged with
          | Some (VDict cur) =>
              match sub_fold cur sub with
              | Draw c => go (dset k (VDict c) merged) rest
              | Raise e => Raise e
              end
          | _ => go (dset k v merged) rest
          end
      | _ => go (dset k v merged) rest
      end
  end.
Lemma merge_fold d l : merge_dicts d (VDict l) = top_fold d d l.
Proof. reflexivity. Qed.

Lemma sub_other k : forall l c c', ~ In k (map fst l) -> sub_fold c l = Draw c' -> dget k c' = dget k c.
Proof.
  induction l as [|[k2 v2] t IH]; intros c c' N E; [cbn in E; injection E as ->; reflexivity|].
  cbn [map fst In] in N. assert (K : k <> k2) by (intros ->; apply N; now left). assert (N' : ~ In k (map fst t)) by tauto.
  assert (S : forall v, sub_fold (dset k2 v c) t = Draw c' -> dget k c' = dget k c) by (intros v H; rewrite (IH _ _ N' H); apply dget_dset_other, K).
  cbn [sub_fold] in E. destruct v2 as [| | | | |sub]; try (apply S in E; exact E). destruct (dget k2 c) as [[| | | | |c2]|]; try (apply S in E; exact E).
  destruct (merge_dicts c2 (VDict sub)) as [x|e]; [apply S in E; exact E|discriminate].
Qed.
Lemma sub_at k v : forall l c c', NoDup (map fst l) -> In (k, v) l -> sub_fold c l = Draw c' ->
  match v, dget k c with VDict _, Some (VDict c2) => exists x, merge_dicts c2 v = Draw x /\ dget k c' = Some (VDict x) | _, _ => dget k c' = Some v end.
Proof.
  induction l as [|[k2 v2] t IH]; intros c c' Hn Hi E; [destruct Hi|]. cbn [map fst] in Hn. apply NoDup_cons_iff in Hn as [N Hn]. destruct Hi as [Hi|Hi].
  - injection Hi as -> ->. cbn [sub_fold] in E.
    assert (S : forall x, sub_fold (dset k x c) t = Draw c' -> dget k c' = Some x) by (intros x H; rewrite (sub_other k t _ _ N H); apply dget_dset_same).
    destruct v as [| | | | |sub]; try (apply S; exact E). destruct (dget k c) as [[| | | | |c2]|]; try (apply S; exact E).
    destruct (merge_dicts c2 (VDict sub)) as [x|e]; [|discriminate]. exists x. split; [reflexivity|apply S, E].
  - assert (K : k <> k2) by (intros ->; apply N; change k2 with (fst (k2, v)); apply in_map, Hi).
    assert (S : forall x, sub_fold (dset k2 x c) t = Draw c' -> match v, dget k c with VDict _, Some (VDict c2) => exists x, merge_dicts c2 v = Draw x /\ dget k c' = Some (VDict x) | _, _ => dget k c' = Some v end).
    { intros x H. specialize (IH _ _ Hn Hi H). rewrite dget_dset_other in IH by exact K. exact IH. }
    cbn [sub_fold] in E. destruct v2 as [| | | | |sub]; try (apply S in E; exact E). destruct (dget k2 c) as [[| | | | |c2]|]; try (apply S in E; exact E).
    destruct (merge_dicts c2 (VDict sub)) as [x|e]; [apply S in E; exact E|discriminate].
Qed.
Lemma top_other d k : forall l m m', ~ In k (map fst l) -> top_fold d m l = Draw m' -> dget k m' = dget k m.
Proof.
  induction l as [|[k2 v2] t IH]; intros c c' N E; [cbn in E; injection E as ->; reflexivity|].
  cbn [map fst In] in N. assert (K : k <> k2) by (intros ->; apply N; now left). assert (N' : ~ In k (map fst t)) by tauto.
  assert (S : forall v, top_fold d (dset k2 v c) t = Draw c' -> dget k c' = dget k c) by (intros v H; rewrite (IH _ _ N' H); apply dget_dset_other, K).
  cbn [top_fold] in E. destruct v2 as [|[|]| | | |sub]; try (apply S in E; exact E).
  - destruct (dget k2 d); [apply S in E; exact E|discriminate].
  - destruct (dget k2 c) as [[| | | | |c2]|]; try (apply S in E; exact E). destruct (sub_fold c2 sub) as [x|e]; [apply S in E; exact E|discriminate].
Qed.
Lemma top_at d k v : forall l m m', NoDup (map fst l) -> In (k, v) l -> dget k m = dget k d -> top_fold d m l = Draw m' ->
  match v with
  | VBool true => dget k m' = dget k d /\ dget k d <> None
  | VDict sub => match dget k d with Some (VDict cur) => exists c, sub_fold cur sub = Draw c /\ dget k m' = Some (VDict c) | _ => dget k m' = Some v end
  | _ => dget k m' = Some v
  end.
Proof.
  induction l as [|[k2 v2] t IH]; intros m m' Hn Hi Hd E; [destruct Hi|]. cbn [map fst] in Hn. apply NoDup_cons_iff in Hn as [N Hn]. destruct Hi as [Hi|Hi].
  - injection Hi as -> ->. cbn [top_fold] in E.
    assert (S : forall x, top_fold d (dset k x m) t = Draw m' -> dget k m' = Some x) by (intros x H; rewrite (top_other d k t _ _ N H); apply dget_dset_same).
    destruct v as [|[|]| | | |sub]; try (apply S; exact E).
    + destruct (dget k d) as [x|]; [|discriminate]. split; [apply S, E|discriminate].
    + rewrite Hd in E. destruct (dget k d) as [[| | | | |c2]|]; try (apply S; exact E). destruct (sub_fold c2 sub) as [x|e]; [|discriminate]. exists x. split; [reflexivity|apply S, E].
  - assert (K : k <> k2) by (intros ->; apply N; change k2 with (fst (k2, v)); apply in_map, Hi).
    assert (S : forall x, top_fold d (dset k2 x m) t = Draw m' -> match v with
  | VBool true => dget k m' = dget k d /\ dget k d <> None
  | VDict sub => match dget k d with Some (VDict cur) => exists c, sub_fold cur sub = Draw c /\ dget k m' = Some (VDict c) | _ => dget k m' = Some v end
  | _ => dget k m' = Some v
  end).
    { intros x H. refine (IH _ _ Hn Hi _ H). rewrite dget_dset_other by exact K. exact Hd. }
    cbn [top_fold] in E. destruct v2 as [|[|]| | | |sub]; try (apply S in E; exact E).
    + destruct (dget k2 d); [apply S in E; exact E|discriminate].
    + destruct (dget k2 m) as [[| | | | |c2]|]; try (apply S in E; exact E). destruct (sub_fold c2 sub) as [x|e]; [apply S in E; exact E|discriminate].
Qed.

Lemma distinct_In l : distinct_keys (VDict l) -> forall k v, In (k, v) l -> distinct_keys v.
Proof. intros [_ H]. induction l as [|[k' v'] t IH]; intros k v Hi; [destruct Hi|]. destruct H as [H1 H2]. destruct Hi as [E|Hi]; [injection E as -> ->; exact H1|apply (IH H2 k), Hi]. Qed.

(** What the user asks for is what the merged configuration holds; True stands for the default at
    every other level, starting with the first. *)
Lemma merge_override : forall n p d o m a, (List.length p <= n)%nat -> distinct_keys (VDict o) -> merge_dicts d (VDict o) = Draw m ->
  look (VDict o) p = Some a -> ~ is_dict a -> (a = VBool true -> Nat.even (List.length p) = true) -> look (VDict m) p = Some a.
Proof.
  induction n as [|n IH]; intros p d o m a Hl Hw E L Hd Ht.
  - destruct p; [|cbn in Hl; lia]. cbn in L. injection L as <-. exfalso. apply Hd. eexists; reflexivity.
  - destruct p as [|k t]; [cbn in L; injection L as <-; exfalso; apply Hd; eexists; reflexivity|].
    cbn [look] in L |- *. destruct (dget k o) as [v|] eqn:Ev; [|discriminate]. apply dget_In in Ev. rewrite merge_fold in E.
    pose proof (top_at d k v o d m (proj1 Hw) Ev eq_refl E) as T. destruct v as [|[|]| | | |sub]; try (rewrite T; exact L).
    + destruct t; cbn in L; [injection L as <-; specialize (Ht eq_refl); discriminate|discriminate].
    + destruct (dget k d) as [[| | | | |cur]|]; try (rewrite T; exact L). destruct T as (c & E2 & ->).
      destruct t as [|k2 t]; [cbn in L; injection L as <-; exfalso; apply Hd; eexists; reflexivity|].
      pose proof (distinct_In o Hw k _ Ev) as Hw2. cbn [look] in L |- *. destruct (dget k2 sub) as [v2|] eqn:Ev2; [|discriminate]. apply dget_In in Ev2.
      pose proof (sub_at k2 v2 sub cur c (proj1 Hw2) Ev2 E2) as T2. pose proof (distinct_In sub Hw2 k2 _ Ev2) as Hw3.
      destruct v2 as [| | | | |s2]; try (rewrite T2; exact L). destruct (dget k2 cur) as [[| | | | |c2]|]; try (rewrite T2; exact L). destruct T2 as (x & E3 & ->).
      apply (IH t c2 s2 x a); auto. cbn in Hl. lia.
Qed.
(** What the user does not mention stays at its default. *)
Lemma merge_keeps : forall n p d o m a, (List.length p <= n)%nat -> distinct_keys (VDict o) -> merge_dicts d (VDict o) = Draw m ->
  look (VDict d) p = Some a -> look (VDict o) p = None -> (forall q r v, p = q ++ r -> look (VDict o) q = Some v -> is_dict v) -> look (VDict m) p = Some a.
Proof.
  induction n as [|n IH]; intros p d o m a Hl Hw E L Ho Hp.
  - destruct p; [|cbn in Hl; lia]. discriminate.
  - destruct p as [|k t]; [discriminate|]. cbn [look] in L, Ho |- *. rewrite merge_fold in E.
    destruct (dget k o) as [v|] eqn:Ev.
    2:{ rewrite (top_other d k o d m); [exact L|apply dget_None, Ev|exact E]. }
    assert (Dv : is_dict v) by (apply (Hp [k] t v); [reflexivity|cbn; rewrite Ev; reflexivity]). destruct Dv as [sub ->].
    destruct (dget k d) as [dv|] eqn:Ed; [|discriminate].
    destruct t as [|k2 t]; [discriminate|]. cbn [look] in L, Ho |- *. destruct dv as [| | | | |cur]; try discriminate.
    pose proof (dget_In _ _ _ Ev) as Iv. pose proof (top_at d k _ o d m (proj1 Hw) Iv eq_refl E) as T. rewrite Ed in T. destruct T as (c & E2 & ->).
    destruct (dget k2 sub) as [v2|] eqn:Ev2.
    2:{ rewrite (sub_other k2 sub cur c); [exact L|apply dget_None, Ev2|exact E2]. }
    assert (D2 : is_dict v2) by (apply (Hp [k; k2] t v2); [reflexivity|cbn; rewrite Ev, Ev2; reflexivity]). destruct D2 as [s2 ->].
    destruct (dget k2 cur) as [dv2|] eqn:Ed2; [|discriminate]. pose proof (distinct_In o Hw k _ Iv) as Hw2. pose proof (dget_In _ _ _ Ev2) as Iv2.
    pose proof (sub_at k2 _ sub cur c (proj1 Hw2) Iv2 E2) as T2. rewrite Ed2 in T2. pose proof (distinct_In sub Hw2 k2 _ Iv2) as Hw3.
    destruct t as [|k3 t]; [discriminate|]. destruct dv2 as [| | | | |c2]; try discriminate. destruct T2 as (x & E3 & ->).
    apply (IH (k3 :: t) c2 s2 x a); auto; [cbn in *; lia|]. intros q r v Eq Lq. apply (Hp (k :: k2 :: q) r v); [rewrite Eq; reflexivity|]. cbn [look]. rewrite Ev, Ev2. exact Lq.
Qed.
(** True: the default value, which must exist. *)
Lemma merge_true d o m k : distinct_keys (VDict o) -> merge_dicts d (VDict o) = Draw m -> dget k o = Some (VBool true) -> dget k m = dget k d /\ dget k d <> None.
Proof. intros Hw E G. rewrite merge_fold in E. exact (top_at d k _ o d m (proj1 Hw) (dget_In _ _ _ G) eq_refl E). Qed.
Lemma merge_true_spine o m : distinct_keys (VDict o) -> merge_dicts default_config (VDict o) = Draw m -> dget "spine" o = Some (VBool true) -> dget "spine" m = Some (VBool false).
Proof. intros Hw E G. destruct (merge_true _ _ _ _ Hw E G) as [-> _]. reflexivity. Qed.
