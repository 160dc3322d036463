From Verif Require Import Prelude NpModel NpProofs CircleSpec UtilsModel UtilsProofs DescModel DescProofs
  DescSpec DescApi DescApi2 HypProofs HypMultiModel HypMulti2Model HypMultiSpec HypMultiProofs HypMulti7Proofs
  ClusModel ClusSpec ClusProofs Clus2Proofs.
From Coq Require Import Sorted.

(** * Positions by label *)
Lemma nth_error_enum {A} (l : list A) : forall k c, nth_error (combine (seq k (length l)) l) c =
  match nth_error l c with Some x => Some ((k + c)%nat, x) | None => None end.
Proof.
  induction l as [|x l IH]; intros k c; cbn [length seq combine]; [destruct c; reflexivity|].
  destruct c; cbn [nth_error]; [now rewrite Nat.add_0_r|]. rewrite IH.
  destruct (nth_error l c); auto. do 2 f_equal. lia.
Qed.
Lemma enum_length {A} (l : list A) k : length (combine (seq k (length l)) l) = length l.
Proof. rewrite combine_length, seq_length. lia. Qed.
Lemma where_in ls c i : In i (where_label ls c) <-> nth_error ls i = Some c.
Proof.
  unfold where_label. rewrite filter_In, in_seq, Nat.eqb_eq. split.
  - intros [H <-]. apply nth_error_nth'. lia.
  - intros H. assert (i < length ls)%nat by (apply nth_error_Some; congruence).
    split; [lia|]. now apply nth_error_nth.
Qed.
Lemma where_nil ls c : where_label ls c = [] <-> ~ In c ls.
Proof.
  split.
  - intros E I. apply In_nth_error in I. destruct I as [i I]. apply where_in in I. rewrite E in I. easy.
  - intros N. destruct (where_label ls c) as [|i w] eqn:E; auto. exfalso. apply N.
    assert (I : In i (where_label ls c)) by (rewrite E; left; auto). apply where_in in I. eapply nth_error_In; eauto.
Qed.
Lemma filter_map_S (p : nat -> bool) l : filter p (map S l) = map S (filter (fun i => p (S i)) l).
Proof. induction l as [|x l IH]; cbn; auto. rewrite IH. destruct (p (S x)); auto. Qed.
Lemma take_where (alpha : list R) : forall ls c, length alpha = length ls -> take alpha (where_label ls c) = labelled alpha ls c.
Proof.
  unfold where_label, take, labelled. induction alpha as [|a alpha IH]; intros [|l ls] c H; try discriminate; auto.
  injection H as H. specialize (IH ls c H). cbn [length seq combine filter]. rewrite <- seq_shift, filter_map_S.
  cbn [nth snd]. destruct (Nat.eqb l c); cbn [map fst at_ nth]; rewrite map_map; [f_equal|]; exact IH.
Qed.
Lemma filter_two {A} (p q : A -> bool) l : (forall x, In x l -> p x = true -> q x = false) ->
  Permutation (filter p l ++ filter q l) (filter (fun x => p x || q x) l).
Proof.
  induction l as [|x l IH]; intros H; cbn [filter]; auto.
  assert (IH' := IH (fun y Hy => H y (or_intror Hy))). pose proof (H x (or_introl eq_refl)) as Hx.
  destruct (p x) eqn:P.
  - rewrite (Hx eq_refl). cbn [orb app]. now apply perm_skip.
  - cbn [orb]. destruct (q x); auto. eapply Permutation_trans; [apply Permutation_sym, Permutation_middle|]. now apply perm_skip.
Qed.
Lemma filter_all {A} (p : A -> bool) l : (forall x, In x l -> p x = true) -> filter p l = l.
Proof. induction l as [|x l IH]; cbn; auto. intros H. rewrite (H x) by auto. rewrite IH; auto. Qed.
Lemma classes_perm (f : nat -> nat) l k :
  Permutation (concat (map (fun c => filter (fun i => Nat.eqb (f i) c) l) (seq 0 k))) (filter (fun i => Nat.ltb (f i) k) l).
Proof.
  induction k as [|k IH].
  - assert (E : filter (fun i => Nat.ltb (f i) 0) l = []) by (clear; induction l as [|x l IH]; auto). rewrite E. constructor.
  - rewrite seq_S, map_app, concat_app. cbn [plus map concat]. rewrite app_nil_r.
    eapply Permutation_trans; [apply Permutation_app_tail, IH|].
    eapply Permutation_trans; [apply filter_two|].
    + intros x _ H. apply Nat.ltb_lt in H. apply Nat.eqb_neq. lia.
    + erewrite filter_ext; [apply Permutation_refl|]. intros x. cbv beta.
      destruct (Nat.ltb_spec (f x) k), (Nat.eqb_spec (f x) k), (Nat.ltb_spec (f x) (S k)); cbn [orb]; auto; lia.
Qed.
Lemma where_perm ls k : Forall (fun l => l < k)%nat ls ->
  Permutation (concat (map (where_label ls) (seq 0 k))) (seq 0 (length ls)).
Proof.
  intros H. unfold where_label. eapply Permutation_trans; [apply classes_perm|].
  rewrite filter_all; auto. intros i Hi. apply in_seq in Hi. apply Nat.ltb_lt.
  rewrite Forall_forall in H. apply H. apply nth_In. lia.
Qed.

(** * One step of CircKMeans *)
Lemma assign_length m alpha cs : length (km_assign m alpha cs) = length alpha.
Proof. apply map_length. Qed.
Lemma assign_range m alpha cs : cs <> [] -> Forall (fun l => l < length cs)%nat (km_assign m alpha cs).
Proof.
  intros N. apply Forall_forall. intros l H. apply in_map_iff in H. destruct H as (a & <- & _).
  pose proof (fargmin_lt (km_dists m cs a)) as L. unfold km_dists in *. rewrite map_length in L. apply L.
  destruct cs; [congruence|discriminate].
Qed.
(** Every centre can be compared with every angle. *)
Definition comparable (m : metric) (alpha : list R) (cs : list fl) : Prop :=
  m <> Geodesic \/ (one_turn alpha /\ Forall (fun c => forall x, c = Fin x -> 0 <= x < 2 * PI) cs).
Lemma comparable_ok m alpha cs a x : comparable m alpha cs -> In a alpha -> In (Fin x) cs ->
  Rabs (circ_dist m a x) = measured m (angular_distance a x).
Proof.
  intros [H|[H1 H2]] Ha Hx; apply metric_measured; auto. right. unfold one_turn in H1. rewrite Forall_forall in H1, H2.
  specialize (H1 a Ha). specialize (H2 _ Hx x eq_refl). apply Rabs_le. lra.
Qed.
Lemma defined_fin cs : defined cs -> exists xs, cs = map Fin xs.
Proof.
  induction 1 as [|c cs [x ->] _ [xs ->]]; [exists []; auto|]. exists (x :: xs). reflexivity.
Qed.
Lemma assign_nearest m alpha cs : cs <> [] -> comparable m alpha cs -> defined cs -> nearest alpha cs (km_assign m alpha cs).
Proof.
  intros N C D. destruct (defined_fin cs D) as [xs ->]. assert (Nx : xs <> []) by (intros ->; apply N; reflexivity).
  unfold nearest, km_assign. 
  assert (G : forall a, In a alpha -> exists c, nth_error (map Fin xs) (fargmin (km_dists m (map Fin xs) a)) = Some (Fin c) /\ forall c' e e', In (Fin c') (map Fin xs) -> is_arc_dist a c e -> is_arc_dist a c' e' -> e <= e').
  { intros a Ha. unfold km_dists. rewrite map_map. cbn [fdist flabs].
    rewrite <- (map_map (fun x => Rabs (circ_dist m a x)) Fin), fargmin_fin by (destruct xs; [congruence|discriminate]).
    set (f := fun x => Rabs (circ_dist m a x)).
    destruct (argmin_spec (map f xs)) as (H1 & H2 & _); [destruct xs; [congruence|discriminate]|].
    set (b := argmin (map f xs)) in *. rewrite map_length in H1, H2.
    exists (nth b xs 0). split; [rewrite nth_error_map, (nth_error_nth' xs 0 H1); reflexivity|].
    intros c' e e' Ic He He'. apply arc_eq in He, He'. subst e e'.
    apply in_map_iff in Ic. destruct Ic as (x' & Ec & Ic). injection Ec as ->.
    apply In_nth with (d := 0) in Ic. destruct Ic as (j & Hj & Ej).
    specialize (H2 j Hj). rewrite (nth_indep _ 0 (f 0)), map_nth in H2 by (rewrite map_length; lia).
    rewrite (nth_indep (map f xs) 0 (f 0)), map_nth in H2 by (rewrite map_length; lia). rewrite Ej in H2. unfold f in H2.
    rewrite !(comparable_ok m alpha (map Fin xs)) in H2; auto.
    - eapply measured_le; eauto using angular_distance_range.
    - apply in_map_iff. exists c'. split; auto. subst c'. apply nth_In; auto.
    - apply in_map_iff. eexists. split; eauto. apply nth_In; auto. }
  clear C. induction alpha as [|a alpha IH]; cbn [map]; constructor.
  - apply G. left; auto.
  - apply IH. intros; apply G. right; auto.
Qed.
Lemma update_nth alpha cs ls c : nth_error (km_update alpha cs ls) c =
  match nth_error cs c with
  | Some x => Some (match where_label ls c with [] => x | idx => fst (circ_mean_and_r (take alpha idx) None) end)
  | None => None
  end.
Proof.
  unfold km_update. rewrite nth_error_map, nth_error_enum. destruct (nth_error cs c); reflexivity.
Qed.
Lemma update_length alpha cs ls : length (km_update alpha cs ls) = length cs.
Proof. unfold km_update. rewrite map_length. apply enum_length. Qed.
Lemma update_recentred alpha cs ls : length ls = length alpha -> recentred alpha ls cs (km_update alpha cs ls).
Proof.
  intros L. split; [apply update_length|]. intros c x x' H H'. rewrite update_nth, H in H'. injection H' as <-.
  split; intros I.
  - destruct (where_label ls c) as [|i w] eqn:E; [exfalso; apply where_nil in E; auto|].
    change (at_ alpha i :: take alpha w) with (take alpha (i :: w)). rewrite <- E, take_where by auto.
    apply centre_mr. rewrite <- take_where by auto. rewrite E. discriminate.
  - apply where_nil in I. now rewrite I.
Qed.
Lemma update_comparable m alpha cs ls : length ls = length alpha -> comparable m alpha cs -> comparable m alpha (km_update alpha cs ls).
Proof.
  intros L [H|[H1 H2]]; [left; auto|right]. split; auto. apply Forall_forall. intros c Hc x ->.
  apply In_nth_error in Hc. destruct Hc as [i Hi]. 
  destruct (update_recentred alpha cs ls L) as [_ U].
  assert (Hl : (i < length cs)%nat) by (rewrite <- (update_length alpha cs ls); apply nth_error_Some; congruence).
  destruct (nth_error cs i) as [y|] eqn:E; [|apply nth_error_None in E; lia].
  destruct (U i y (Fin x) E Hi) as [U1 U2]. destruct (in_dec Nat.eq_dec i ls) as [I|I].
  - eapply centre_fin_range, U1; auto.
  - rewrite Forall_forall in H2. specialize (U2 I). apply (H2 y); auto. eapply nth_error_In; eauto.
Qed.
Lemma step_ok m alpha cs : cs <> [] -> comparable m alpha cs ->
  lloyd_step alpha cs (km_assign m alpha cs) (km_update alpha cs (km_assign m alpha cs)).
Proof.
  intros N C. split; [now apply assign_nearest|]. split; [now apply assign_range|]. split; [apply assign_length|].
  apply update_recentred. apply assign_length.
Qed.
Lemma fsum_cons x l : fsum (x :: l) = match x, fsum l with Fin a, Fin b => Fin (a + b) | _, _ => NaN end.
Proof. reflexivity. Qed.
Lemma settled_shift tol cs cs' : fllt (km_shift cs cs') (Fin tol) = true <-> settled tol cs cs'.
Proof.
  unfold km_shift, settled. set (ps := combine cs cs'). clearbody ps.
  assert (G1 : forall s, fsum (map (fun p : fl * fl => flabs (fdist Center (fst p) (snd p))) ps) = Fin s ->
    exists ds, Forall2 (fun p d => exists x y, p = (Fin x, Fin y) /\ is_arc_dist x y d) ps ds /\ Rsum ds = s).
  { induction ps as [|[p q] ps IH]; intros s H.
    - injection H as <-. exists []. split; [constructor|reflexivity].
    - cbn [map] in H. rewrite fsum_cons in H. cbn [fst snd] in H.
      destruct p as [x| | |], q as [y| | |]; try discriminate. cbn [fdist flabs] in H.
      destruct (fsum (map (fun p : fl * fl => flabs (fdist Center (fst p) (snd p))) ps)) as [s'| | |]; try discriminate.
      injection H as <-. destruct (IH s' eq_refl) as (ds & F & E). exists (angular_distance x y :: ds). split.
      + constructor; auto. exists x, y. split; auto. apply angular_distance_arc.
      + rewrite Rsum_cons, E, center_abs. reflexivity. }
  assert (G2 : forall ds, Forall2 (fun p d => exists x y, p = (Fin x, Fin y) /\ is_arc_dist x y d) ps ds ->
    fsum (map (fun p : fl * fl => flabs (fdist Center (fst p) (snd p))) ps) = Fin (Rsum ds)).
  { clear G1. intros ds F. induction F as [|p d ps ds (x & y & -> & H) F IH]; [reflexivity|].
    cbn [map]. rewrite fsum_cons, IH. cbn [fst snd fdist flabs]. rewrite center_abs, (arc_eq _ _ _ H). reflexivity. }
  split.
  - destruct (fsum (map (fun p : fl * fl => flabs (fdist Center (fst p) (snd p))) ps)) as [s| | |] eqn:E; cbn; try discriminate.
    + intros H. apply Rltb_true in H. destruct (G1 s eq_refl) as (ds & F & <-). eauto.
    + intros _. exfalso. clear -E. destruct ps; cbn in E; [discriminate|].
      destruct (flabs (fdist Center (fst p) (snd p))); try discriminate.
      destruct (fold_right _ _ _); discriminate.
  - intros (ds & F & H). rewrite (G2 ds F). cbn. now apply Rltb_true.
Qed.
Lemma loop_run m tol alpha : forall iters cs ls, cs <> [] -> comparable m alpha cs -> (1 <= iters)%nat ->
  exists p prev, (p <= iters)%nat /\
    lloyd alpha tol p cs prev (snd (km_loop m tol alpha iters cs ls)) (fst (km_loop m tol alpha iters cs ls)) /\
    (p = iters \/ settled tol prev (fst (km_loop m tol alpha iters cs ls))).
Proof.
  induction iters as [|k IH]; intros cs ls N C H; [lia|]. cbn [km_loop].
  pose proof (step_ok m alpha cs N C) as ST.
  set (ls' := km_assign m alpha cs) in *. set (cs' := km_update alpha cs ls') in *.
  destruct (fllt (km_shift cs cs') (Fin tol)) eqn:E.
  - apply settled_shift in E. exists 1%nat, cs. split; [lia|]. split; [now constructor|]. right. exact E.
  - destruct k as [|k].
    + exists 1%nat, cs. split; [lia|]. split; [now constructor|left; auto].
    + assert (N' : cs' <> []) by (intros Z; apply N; assert (L : length cs' = length cs) by (apply update_length); rewrite Z in L; destruct cs; [auto|discriminate]).
      destruct (IH cs' ls' N') as (p & prev & H1 & H2 & H3).
      * apply update_comparable; auto. apply assign_length.
      * lia.
      * exists (S p), prev. split; [lia|]. split.
        { apply ll_more with ls' cs'; auto. intros Z. apply settled_shift in Z. congruence. }
        destruct H3; [left; lia|right; auto].
Qed.
