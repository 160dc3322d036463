From Verif Require Import Prelude NpModel NpProofs CircleSpec UtilsModel UtilsProofs DescModel Desc2Model DescProofs
  DescSpec HypMultiModel HypMulti2Model HypMultiSpec HypMultiProofs HypMulti7Proofs
  CorrSpec CorrProofs Corr2Proofs Corr4Proofs Corr6Proofs ClusModel ClusSpec ClusProofs Clus2Proofs Clus3Proofs Clus4Proofs
  EmModel EmSpec EmProofs Em2Proofs Em3Proofs Em4Proofs Em6Proofs Em8Proofs Em10Proofs Em13Proofs BaseModel Base3Proofs ModesModel ModesSpec ModesProofs.
From Coq Require Import List.
Import ListNotations.
Open Scope R_scope.
Open Scope list_scope.

(** * Lists of results *)
Lemma F2_nth {A B} (P : A -> B -> Prop) l l' i x y : Forall2 P l l' -> nth_error l i = Some x -> nth_error l' i = Some y -> P x y.
Proof.
  intros F. revert i. induction F as [|a b l l' H F IH]; intros [|i]; cbn; try discriminate; [congruence|apply IH].
Qed.
Lemma F2_length {A B} (P : A -> B -> Prop) l l' : Forall2 P l l' -> length l = length l'.
Proof. induction 1; cbn; auto. Qed.
Lemma nth_error_seq s n i : (i < n)%nat -> nth_error (seq s n) i = Some (s + i)%nat.
Proof. revert s i. induction n as [|n IH]; intros s [|i] H; cbn; try lia; [f_equal; lia|]. rewrite IH by lia. f_equal. lia. Qed.
Lemma nth_error_combine {A B} (l : list A) (l' : list B) i x y : nth_error l i = Some x -> nth_error l' i = Some y -> nth_error (combine l l') i = Some (x, y).
Proof. revert l' i. induction l as [|a l IH]; intros [|b l'] [|i]; cbn; try discriminate; [congruence|apply IH]. Qed.
Lemma nth_error_lt {A} (l : list A) i x : nth_error l i = Some x -> (i < length l)%nat.
Proof. intros H. apply nth_error_Some. congruence. Qed.
Lemma nth_error_ex {A} (l : list A) i : (i < length l)%nat -> exists x, nth_error l i = Some x.
Proof. intros H. destruct (nth_error l i) eqn:E; [eauto|]. apply nth_error_None in E. lia. Qed.
Lemma rmap_ok_in {A B} (f : A -> res B) l : (forall x, In x l -> exists y, f x = Ok y) -> exists ys, rmap f l = Ok ys.
Proof.
  induction l as [|x l IH]; intros H; cbn [rmap]; eauto. destruct (H x (or_introl eq_refl)) as [y ->].
  destruct IH as [ys ->]; [intros; apply H; now right|]. cbn. eauto.
Qed.

Lemma drawn_len n k cands : drawn n k cands -> Forall (fun l => length l = n) cands.
Proof. intros D. eapply Forall_impl; [|exact D]. intros l [H _]. exact H. Qed.
Lemma modes_spec I0 cands cycle alpha w obs kmax md : (forall x, 0 < I0 x) -> copies alpha w obs ->
  (forall k, drawn (length obs) k (cands k)) -> circ_modes I0 cands cycle true alpha w kmax = Ok (Some md) ->
  (2 <= kmax)%nat /\ length (md_mix md) = kmax /\ length (md_bic md) = kmax /\
  (forall i m b, nth_error (md_mix md) i = Some m -> nth_error (md_bic md) i = Some b ->
     movm_fit I0 (modes_cfg cycle (S i)) (false, None) (cands (S i)) obs = Ok m /\ movm_bic I0 (S i) (Some m) = Ok b /\ candidate I0 obs (S i) m b) /\
  match md_opt md with
  | Some m => exists i, nth_error (md_mix md) i = Some m /\ least_at (md_bic md) i
  | None => Forall (fun b => b = NaN) (md_bic md)
  end.
Proof.
  intros HI CP DR E. unfold circ_modes in E. destruct (Nat.leb_spec kmax 1) as [|Hk]; [discriminate|]. rewrite (copies_expand _ _ _ CP) in E. cbn [bind] in E.
  match type of E with bind ?x _ = _ => destruct x as [ms|] eqn:E1; [|discriminate] end. cbn [bind] in E.
  match type of E with bind ?x _ = _ => destruct x as [bics|] eqn:E2; [|discriminate] end. cbn [bind] in E. injection E as <-. cbn [md_mix md_bic md_opt].
  apply rmap_F2 in E1, E2. pose proof (F2_length _ _ _ E1) as L1. pose proof (F2_length _ _ _ E2) as L2. rewrite seq_length in L1.
  rewrite combine_length, seq_length in L2.
  assert (C : forall i m b, nth_error ms i = Some m -> nth_error bics i = Some b ->
     movm_fit I0 (modes_cfg cycle (S i)) (false, None) (cands (S i)) obs = Ok m /\ movm_bic I0 (S i) (Some m) = Ok b /\ candidate I0 obs (S i) m b).
  { intros i m b Hm Hb. pose proof (nth_error_lt _ _ _ Hm) as Li. pose proof (nth_error_seq 1 kmax i ltac:(lia)) as Hs. cbn [Nat.add] in Hs.
    pose proof (F2_nth _ _ _ _ _ _ E1 Hs Hm) as A. pose proof (F2_nth _ _ _ _ _ _ E2 (nth_error_combine _ _ _ _ _ Hs Hm) Hb) as B. cbn [fst snd] in B.
    destruct (movm_candidate I0 cycle (S i) (cands (S i)) obs m HI ltac:(lia) (drawn_len _ _ _ (DR _)) A) as (b' & B' & Q). split; [exact A|]. split; [exact B|].
    assert (b' = b) by congruence. now subst. }
  assert (N : Forall num_or_nan bics).
  { apply Forall_forall. intros b Hb. apply In_nth_error in Hb. destruct Hb as [i Hb]. destruct (nth_error_ex ms i) as [m Hm]; [pose proof (nth_error_lt _ _ _ Hb); lia|].
    destruct (C i m b Hm Hb) as (_ & _ & _ & [(? & ? & _ & _ & ->)|[_ ->]]); [right; eauto|now left]. }
  split; [lia|]. split; [lia|]. split; [lia|]. split; [exact C|].
  destruct (forallb is_nan bics) eqn:EA; [now apply all_nan|].
  pose proof (nanargmin_spec bics N (some_num bics N EA)) as LA. pose proof LA as (v & Hv & _).
  destruct (nth_error_ex ms (nanargmin bics)) as [m Hm]; [pose proof (nth_error_lt _ _ _ Hv); lia|]. rewrite Hm. exists (nanargmin bics). auto.
Qed.
(** With room for every number of components there is an object; otherwise an exception. *)
Lemma one_covers_find k cands : one_covers k cands -> exists l, In l cands /\ covers k l = true.
Proof.
  intros (l & I & H). exists l. split; auto. unfold covers. apply forallb_forall. intros c Hc. apply in_seq in Hc. apply existsb_exists. exists c. split; [apply H; lia|apply Nat.eqb_refl].
Qed.
Lemma modes_total I0 cands cycle alpha w obs kmax : copies alpha w obs -> (2 <= kmax)%nat ->
  (forall k, (1 <= k <= length obs)%nat -> one_covers k (cands k)) ->
  if Nat.leb kmax (length obs) then exists md, circ_modes I0 cands cycle true alpha w kmax = Ok (Some md)
  else circ_modes I0 cands cycle true alpha w kmax = Err ValueError.
Proof.
  intros CP Hk OC. unfold circ_modes. destruct (Nat.leb_spec kmax 1) as [|_]; [lia|]. rewrite (copies_expand _ _ _ CP). cbn [bind].
  assert (T : forall k, (1 <= k <= length obs)%nat -> exists m, movm_fit I0 (modes_cfg cycle k) (false, None) (cands k) obs = Ok m).
  { intros k Hkk. apply movm_fit_total; cbn [modes_cfg c_K]; [lia|intros ->; cbn in Hkk; lia|apply one_covers_find; auto]. }
  destruct (Nat.leb_spec kmax (length obs)) as [Hle|Hgt].
  - destruct (rmap_ok_in (fun k => movm_fit I0 (modes_cfg cycle k) (false, None) (cands k) obs) (seq 1 kmax)) as [ms ->].
    { intros k Hin. apply in_seq in Hin. apply T. lia. }
    cbn [bind]. destruct (rmap_ok_in (fun km : nat * mix vm => movm_bic I0 (fst km) (Some (snd km))) (combine (seq 1 kmax) ms)) as [bs ->]; [intros [k m] _; cbn; eauto|].
    cbn [bind]. eauto.
  - replace kmax with (length obs + S (kmax - S (length obs)))%nat by lia. rewrite seq_app.
    assert (G : forall a b (f : nat -> res (mix vm)), (forall k, In k a -> exists m, f k = Ok m) -> f (hd 0%nat b) = Err ValueError -> b <> [] -> rmap f (a ++ b) = Err ValueError).
    { clear. induction a as [|x a IH]; intros b f H1 H2 H3; cbn [app rmap].
      - destruct b as [|y b]; [congruence|]. cbn [hd] in H2. cbn [rmap]. now rewrite H2.
      - destruct (H1 x (or_introl eq_refl)) as [m ->]. cbn [bind]. rewrite (IH b f); auto. intros; apply H1; now right. }
    rewrite G; [reflexivity| | |discriminate].
    + intros k Hin. apply in_seq in Hin. apply T. lia.
    + cbn [seq hd]. unfold movm_fit. destruct obs as [|x obs]; [reflexivity|]. rewrite to_rad_in, in_radians_length. cbn [modes_cfg c_K].
      destruct (Nat.ltb_spec (length (x :: obs)) (1 + length (x :: obs))); [reflexivity|lia].
Qed.
Lemma modes_float I0 cands cycle alpha w kmax : (2 <= kmax)%nat -> circ_modes I0 cands cycle false alpha w kmax = Err TypeError.
Proof. intros H. unfold circ_modes. destruct (Nat.leb_spec kmax 1); [lia|]. destruct kmax; [lia|]. reflexivity. Qed.

(** * A balanced sample is never reported unimodal *)
Lemma labelled_zero (obs : list R) labels : length labels = length obs -> Forall (fun c => (c < 1)%nat) labels -> labelled obs labels 0 = obs.
Proof.
  unfold labelled. revert labels. induction obs as [|x obs IH]; intros [|c l] L F; try discriminate; [reflexivity|]. inversion F as [|? ? F0 F1]; subst. cbn [combine filter snd].
  destruct (Nat.eqb_spec c 0); [|lia]. cbn [map fst]. f_equal. apply IH; auto.
Qed.
Lemma movm_one I0 cfg old cands X labels : pick (c_K cfg) cands = Ok labels -> movm_fit I0 cfg old cands X = movm_fit I0 cfg old [labels] X.
Proof.
  intros H. unfold movm_fit. destruct X; auto. assert (H' : pick (c_K cfg) [labels] = Ok labels).
  { unfold pick in *. destruct (find (covers (c_K cfg)) cands) as [l|] eqn:E; [|discriminate]. injection H as ->. apply find_some in E. cbn [find]. destruct E as [_ ->]. reflexivity. }
  now rewrite H, H'.
Qed.
Lemma modes_balanced I0 cands cycle alpha w obs kmax md : (forall x, 0 < I0 x) -> copies alpha w obs ->
  (forall k, drawn (length obs) k (cands k)) -> balanced obs -> circ_modes I0 cands cycle true alpha w kmax = Ok (Some md) ->
  nth_error (md_bic md) 0 = Some NaN /\ reported (Some md) <> Some 1%nat.
Proof.
  intros HI CP DR [B1 B2] E. destruct (modes_spec _ _ _ _ _ _ _ _ HI CP DR E) as (Hk & L1 & L2 & C & O).
  destruct (nth_error_ex (md_mix md) 0) as [m Hm]; [lia|]. destruct (nth_error_ex (md_bic md) 0) as [b Hb]; [lia|].
  destruct (C _ _ _ Hm Hb) as (F & _ & L & D). assert (b = NaN).
  { assert (exists labels, pick 1%nat (cands 1%nat) = Ok labels) as [labels P].
    { unfold movm_fit in F. destruct obs; [discriminate|]. destruct (Nat.ltb _ _); [discriminate|]. cbn [modes_cfg c_K] in F. destruct (pick 1%nat (cands 1%nat)); [eauto|discriminate]. }
    rewrite (movm_one I0 (modes_cfg cycle 1) _ (cands 1%nat) obs labels P) in F. destruct (pick_spec _ _ _ P) as [I _]. pose proof (DR 1%nat) as D1. unfold drawn in D1. rewrite Forall_forall in D1. destruct (D1 _ I) as [Ll Fl].
    assert (LZ := labelled_zero obs labels Ll Fl).
    destruct (movm_balanced I0 (modes_cfg cycle 1) (false, None) [labels] obs m labels 0 HI (modes_cfg_ok cycle 1 ltac:(lia)) eq_refl Ll ltac:(cbn; lia)) as (_ & N & _); auto.
    1,2: cbn [modes_cfg c_radian c_cycle in_radians]; now rewrite LZ.
    destruct D as [(ps & cs & _ & Ec & _)|[_ ->]]; [exfalso|reflexivity].
    destruct (mx_cs m) as [|c l]; [discriminate|]. inversion N as [|? ? N1 _]; subst. destruct cs as [|d cs]; [discriminate|]. cbn in Ec. unfold pars in N1. congruence. }
  subst b. split; [exact Hb|]. cbn [reported]. destruct (md_opt md) as [mo|]; [|discriminate]. destruct O as (i & Hi & v & Hv & _).
  destruct (C i mo (Fin v) Hi Hv) as (_ & _ & Lo & _). rewrite Lo. destruct i; [congruence|]. discriminate.
Qed.

(** * Turning the data *)
Lemma copies_moved t alpha alpha' w obs : copies alpha w obs -> moved t alpha alpha' -> exists obs', copies alpha' w obs' /\ moved t obs obs'.
Proof.
  intros C. revert alpha'. induction C as [|a k alpha w obs C IH]; intros al' M; inversion M as [|? b ? be H M']; subst; [exists []; split; constructor|].
  destruct (IH _ M') as (obs' & C' & M2). exists (repeat b k ++ obs'). split; [now constructor|]. apply Forall2_app; auto.
  clear -H. induction k; cbn; constructor; auto.
Qed.
Lemma modes_turned I0 cands cycle cycle' alpha alpha' w obs kmax md t : (forall x, 0 < I0 x) -> copies alpha w obs ->
  (forall k, drawn (length obs) k (cands k)) -> moved t alpha alpha' -> circ_modes I0 cands cycle true alpha w kmax = Ok (Some md) ->
  exists md', circ_modes I0 cands cycle' true alpha' w kmax = Ok (Some md') /\ md_bic md' = md_bic md /\ reported (Some md') = reported (Some md) /\
    Forall2 (fun m m' => mx_p m' = mx_p m /\ mx_labels m' = mx_labels m /\
      Forall2 (fun c c' => turned_fl t (vm_mu c) (vm_mu c') /\ vm_kappa c' = vm_kappa c) (mx_cs m) (mx_cs m')) (md_mix md) (md_mix md').
Proof.
  intros HI CP DR MV E. destruct (copies_moved _ _ _ _ _ CP MV) as (obs' & CP' & MV').
  unfold circ_modes in *. destruct (Nat.leb_spec kmax 1) as [|Hk]; [discriminate|]. rewrite (copies_expand _ _ _ CP) in E. rewrite (copies_expand _ _ _ CP'). cbn [bind] in *.
  match type of E with bind ?x _ = _ => destruct x as [ms|] eqn:E1; [|discriminate] end. cbn [bind] in E.
  match type of E with bind ?x _ = _ => destruct x as [bics|] eqn:E2; [|discriminate] end. cbn [bind] in E. injection E as <-. cbn [md_mix md_bic md_opt].
  set (Q := fun m m' : mix vm => mx_p m' = mx_p m /\ mx_labels m' = mx_labels m /\
      Forall2 (fun c c' => turned_fl t (vm_mu c) (vm_mu c') /\ vm_kappa c' = vm_kappa c) (mx_cs m) (mx_cs m')).
  assert (G : forall ks ms bics, Forall (fun k => (1 <= k)%nat) ks -> rmap (fun k => movm_fit I0 (modes_cfg cycle k) (false, None) (cands k) obs) ks = Ok ms ->
    rmap (fun km : nat * mix vm => movm_bic I0 (fst km) (Some (snd km))) (combine ks ms) = Ok bics ->
    exists ms', rmap (fun k => movm_fit I0 (modes_cfg cycle' k) (false, None) (cands k) obs') ks = Ok ms' /\
      rmap (fun km : nat * mix vm => movm_bic I0 (fst km) (Some (snd km))) (combine ks ms') = Ok bics /\ Forall2 Q ms ms').
  { clear -HI DR MV'. induction ks as [|k ks IH]; intros ms bics F A B; cbn [rmap] in *.
    - injection A as <-. exists []. auto.
    - inversion F as [|? ? F0 F1]; subst. destruct (movm_fit I0 (modes_cfg cycle k) (false, None) (cands k) obs) as [m|] eqn:Em; [|discriminate]. cbn [bind] in A.
      match type of A with bind ?x _ = _ => destruct x as [ms0|] eqn:E1; [|discriminate] end. cbn [bind] in A. injection A as <-. cbn [combine rmap fst snd] in B.
      destruct (movm_bic I0 k (Some m)) as [b|] eqn:Eb; [|discriminate]. cbn [bind] in B.
      match type of B with bind ?x _ = _ => destruct x as [bs|] eqn:E2; [|discriminate] end. cbn [bind] in B. injection B as <-.
      destruct (IH _ _ F1 eq_refl E2) as (ms' & -> & E3 & FQ).
      destruct (movm_turned I0 (modes_cfg cycle k) (modes_cfg cycle' k) (false, None) (cands k) obs obs' m t HI (modes_cfg_ok _ _ F0)) as (m' & -> & P1 & _ & P2 & _ & _ & P3 & P4); auto.
      { repeat split. }
      { exact (drawn_len _ _ _ (DR k)). }
      cbn [bind]. exists (m' :: ms'). cbn [combine rmap fst snd]. cbn [modes_cfg c_K] in P3. rewrite P3, Eb. cbn [bind]. rewrite E3. split; [reflexivity|]. split; [reflexivity|].
      constructor; auto. split; [auto|]. split; [auto|]. clear -P4. induction P4 as [|c c' l l' (X1 & _ & X2) P4 IH]; constructor; auto. }
  destruct (G (seq 1 kmax) ms bics) as (ms' & -> & E3 & FQ); auto.
  { apply Forall_forall. intros k Hin. apply in_seq in Hin. lia. }
  cbn [bind]. rewrite E3. cbn [bind]. eexists. split; [reflexivity|]. cbn [md_mix md_bic md_opt]. split; [reflexivity|]. split; [|exact FQ].
  cbn [reported md_opt]. destruct (forallb is_nan bics); [reflexivity|]. generalize (nanargmin bics). clear -FQ.
  induction FQ as [|m m' ms ms' (_ & _ & H) FQ IH]; intros [|i]; cbn; auto. f_equal. symmetry. exact (F2_length _ _ _ H).
Qed.
