From Verif Require Import Prelude NpModel NpProofs CircleSpec UtilsModel UtilsProofs DescModel DescProofs
  DescSpec DescApi DescApi2 HypProofs HypMultiModel HypMulti2Model HypMultiSpec HypMultiProofs HypMulti7Proofs
  ClusModel ClusSpec ClusProofs Clus2Proofs Clus3Proofs.
From Coq Require Import Sorted.

(** * CircKMeans.fit *)
Lemma to_rad_in b fc X : to_rad b fc X = in_radians b fc X.
Proof. reflexivity. Qed.
Lemma in_radians_length b fc X : length (in_radians b fc X) = length X.
Proof. unfold in_radians. destruct b; auto. apply map_length. Qed.
Lemma km_fit_eq m b fc K it tol init X : (1 <= K)%nat -> (K <= length X)%nat ->
  let alpha := in_radians b fc X in
  let st := km_loop m tol alpha it (map (fun i => Fin (nth i alpha 0)) init) (repeat 0%nat (length X)) in
  km_fit m b fc K it tol init X =
  Ok {| km_centers := fst st; km_labels := snd st; km_inert := km_inertia m alpha (fst st) (snd st) |}.
Proof.
  intros H1 H2 alpha st. unfold km_fit. rewrite to_rad_in. fold alpha.
  assert (L : length alpha = length X) by apply in_radians_length. rewrite L.
  destruct (Nat.ltb_spec (length X) K); [lia|]. destruct (Nat.eqb_spec K 0); [lia|]. cbn [andb].
  unfold at_. fold st. destruct st; reflexivity.
Qed.
Lemma loop_shape m tol alpha : forall it cs ls, cs <> [] ->
  length (fst (km_loop m tol alpha it cs ls)) = length cs /\
  ((1 <= it)%nat -> length (snd (km_loop m tol alpha it cs ls)) = length alpha /\
    Forall (fun l => l < length cs)%nat (snd (km_loop m tol alpha it cs ls))).
Proof.
  induction it as [|k IH]; intros cs ls N; cbn [km_loop]; [split; [auto|lia]|].
  set (ls' := km_assign m alpha cs). set (cs' := km_update alpha cs ls').
  assert (L : length cs' = length cs) by apply update_length.
  assert (N' : cs' <> []) by (intros Z; rewrite Z in L; destruct cs; [auto|discriminate]).
  assert (A : length ls' = length alpha /\ Forall (fun l => l < length cs)%nat ls') by (split; [apply assign_length|now apply assign_range]).
  destruct (fllt (km_shift cs cs') (Fin tol)); cbn [fst snd]; [split; auto|].
  destruct k as [|k]; [cbn [km_loop fst snd]; split; auto|].
  destruct (IH cs' ls' N') as [B1 B2]. rewrite L in *. split; auto. intros _. apply B2. lia.
Qed.
Lemma draw_ne n K init (f : nat -> fl) : (1 <= K)%nat -> draw n K init -> map f init <> [].
Proof. intros H (L & _). destruct init; [cbn in L; lia|discriminate]. Qed.
Lemma km_shape m b fc K it tol init X k : (1 <= K <= length X)%nat -> (1 <= it)%nat -> draw (length X) K init ->
  km_fit m b fc K it tol init X = Ok k ->
  length (km_centers k) = K /\ length (km_labels k) = length X /\ Forall (fun l => l < K)%nat (km_labels k).
Proof.
  intros [H1 H2] Hi D. rewrite km_fit_eq by auto. cbv zeta. intros E. injection E as <-. cbn [km_centers km_labels].
  destruct (loop_shape m tol (in_radians b fc X) it (map (fun i => Fin (nth i (in_radians b fc X) 0)) init) (repeat 0%nat (length X))) as [A B].
  { apply (draw_ne (length X) K); auto. }
  destruct D as (D & _). rewrite map_length, D in *. rewrite in_radians_length in B. split; auto.
Qed.
Lemma init_comparable m alpha init : m <> Geodesic \/ one_turn alpha -> Forall (fun i => i < length alpha)%nat init ->
  comparable m alpha (map (fun i => Fin (nth i alpha 0)) init).
Proof.
  intros [H|H] F; [left; auto|right]. split; auto. apply Forall_forall. intros c Hc x ->.
  apply in_map_iff in Hc. destruct Hc as (i & E & Hi). injection E as <-. rewrite Forall_forall in F.
  unfold one_turn in H. rewrite Forall_forall in H. apply H. apply nth_In. auto.
Qed.
Lemma km_run m b fc K it tol init X k : (1 <= K <= length X)%nat -> (1 <= it)%nat -> draw (length X) K init ->
  m <> Geodesic \/ one_turn (in_radians b fc X) ->
  km_fit m b fc K it tol init X = Ok k ->
  exists p prev, (p <= it)%nat /\
    lloyd (in_radians b fc X) tol p (map (fun i => Fin (nth i (in_radians b fc X) 0)) init) prev (km_labels k) (km_centers k) /\
    (p = it \/ settled tol prev (km_centers k)).
Proof.
  intros [H1 H2] Hi D C. rewrite km_fit_eq by auto. cbv zeta. intros E. injection E as <-. cbn [km_centers km_labels].
  apply loop_run; auto.
  - apply (draw_ne (length X) K); auto.
  - apply init_comparable; auto. rewrite in_radians_length. apply D.
Qed.
Lemma lloyd_comparable m alpha tol p cs prev ls cs' : lloyd alpha tol p cs prev ls cs' -> comparable m alpha cs -> comparable m alpha cs'.
Proof.
  assert (G : forall cs ls cs', lloyd_step alpha cs ls cs' -> comparable m alpha cs -> comparable m alpha cs').
  { intros c l c' (_ & _ & L & (Lc & U)) [H|[H1 H2]]; [left; auto|right]. split; auto.
    apply Forall_forall. intros z Hz x ->. apply In_nth_error in Hz. destruct Hz as [i Hz].
    assert (Hl : (i < length c)%nat) by (rewrite <- Lc; apply nth_error_Some; congruence).
    destruct (nth_error c i) as [y|] eqn:E; [|apply nth_error_None in E; lia].
    destruct (U i y (Fin x) E Hz) as [U1 U2]. destruct (in_dec Nat.eq_dec i l) as [I|I].
    - eapply centre_fin_range, U1; auto.
    - rewrite Forall_forall in H2. specialize (U2 I). apply (H2 y); auto. eapply nth_error_In; eauto. }
  induction 1 as [|? ? ? ? ? ? ? H1 H2 H3 IH]; intros C; [eapply G; eauto|]. apply IH. eapply G; eauto.
Qed.

(** * Inertia *)
Lemma fsum_fin l : fsum (map Fin l) = Fin (Rsum l).
Proof. induction l as [|x l IH]; [reflexivity|]. cbn [map]. rewrite fsum_cons, IH. reflexivity. Qed.
Lemma map_seq_nth {A} (l : list A) d : map (fun i => nth i l d) (seq 0 (length l)) = l.
Proof.
  induction l as [|x l IH]; auto. cbn [length seq map nth]. f_equal. rewrite <- seq_shift, map_map. exact IH.
Qed.
Lemma inertia_eq m alpha xs ls : length ls = length alpha -> Forall (fun l => l < length xs)%nat ls ->
  km_inertia m alpha (map Fin xs) ls = Fin (Rsum (map (fun p => Rabs (circ_dist m (fst p) (nth (snd p) xs 0))) (combine alpha ls))).
Proof.
  intros L F. set (G := fun i => Rabs (circ_dist m (at_ alpha i) (nth (nth i ls 0%nat) xs 0))).
  assert (E : km_inertia m alpha (map Fin xs) ls = fsum (map Fin (map (fun c => Rsum (map G (where_label ls c))) (seq 0 (length xs))))).
  { unfold km_inertia. f_equal. rewrite map_map.
    assert (G1 : forall (g : nat -> fl) (h : nat * fl -> fl) (l : list fl) k,
      (forall c x, nth_error l c = Some x -> h ((k + c)%nat, x) = g (k + c)%nat) -> map h (combine (seq k (length l)) l) = map g (seq k (length l))).
    { clear. induction l as [|x l IH]; intros k H; auto. cbn [length seq combine map]. f_equal.
      - specialize (H 0%nat x eq_refl). rewrite Nat.add_0_r in H. exact H.
      - apply IH. intros c y Hc. specialize (H (S c) y Hc). replace (k + S c)%nat with (S k + c)%nat in H by lia. exact H. }
    rewrite <- (map_length Fin xs). apply G1. intros c x H. cbn [plus fst snd].
    rewrite nth_error_map in H. destruct (nth_error xs c) as [y|] eqn:Ey; [|discriminate]. injection H as <-.
    rewrite <- fsum_fin. f_equal. rewrite map_map. apply map_ext_in. intros i Hi. cbn [fdist flabs]. unfold G.
    apply where_in in Hi. apply nth_error_nth with (d := 0%nat) in Hi. rewrite Hi. do 3 f_equal. symmetry. now apply nth_error_nth. }
  rewrite E, fsum_fin. f_equal.
  transitivity (Rsum (map G (concat (map (where_label ls) (seq 0 (length xs)))))).
  { rewrite Rsum_map_concat, map_map. reflexivity. }
  rewrite (Rsum_perm _ _ (Permutation_map G (where_perm ls _ F))).
  f_equal. unfold G, at_. rewrite L.
  transitivity (map (fun p => Rabs (circ_dist m (fst p) (nth (snd p) xs 0))) (map (fun i => (nth i alpha 0, nth i ls 0%nat)) (seq 0 (length alpha)))).
  { rewrite map_map. reflexivity. }
  f_equal. rewrite <- (map_seq_nth (combine alpha ls) (0, 0%nat)). rewrite combine_length, L, Nat.min_id.
  apply map_ext. intros i. now rewrite combine_nth.
Qed.
Lemma inertia_ok m alpha cs ls : length ls = length alpha -> Forall (fun l => l < length cs)%nat ls -> comparable m alpha cs -> defined cs ->
  exists ds, Forall2 (fun p d => exists c e, nth_error cs (snd p) = Some (Fin c) /\ is_arc_dist (fst p) c e /\ d = measured m e)
               (combine alpha ls) ds /\
    km_inertia m alpha cs ls = Fin (Rsum ds) /\ 0 <= Rsum ds.
Proof.
  intros L F C D. destruct (defined_fin cs D) as [xs ->]. rewrite map_length in F.
  exists (map (fun p => Rabs (circ_dist m (fst p) (nth (snd p) xs 0))) (combine alpha ls)).
  split; [|split; [apply inertia_eq; auto|]].
  - assert (G : forall p, In p (combine alpha ls) -> exists c e, nth_error (map Fin xs) (snd p) = Some (Fin c) /\ is_arc_dist (fst p) c e /\
       Rabs (circ_dist m (fst p) (nth (snd p) xs 0)) = measured m e).
    { intros [a l] I. cbn [fst snd]. pose proof (in_combine_l _ _ _ _ I) as Ia. pose proof (in_combine_r _ _ _ _ I) as Il.
      rewrite Forall_forall in F. specialize (F l Il).
      exists (nth l xs 0), (angular_distance a (nth l xs 0)). split; [|split; [apply angular_distance_arc|]].
      - rewrite nth_error_map, (nth_error_nth' xs 0 F). reflexivity.
      - apply comparable_ok with alpha (map Fin xs); auto. apply in_map. now apply nth_In. }
    revert G. generalize (combine alpha ls). clear. intros l G. induction l as [|p l IH]; cbn [map]; constructor.
    + apply G. left; auto.
    + apply IH. intros; apply G. right; auto.
  - apply Rsum_map_nonneg. intros; apply Rabs_pos.
Qed.
Lemma lloyd_shape alpha tol p cs prev ls cs' : lloyd alpha tol p cs prev ls cs' ->
  length ls = length alpha /\ length cs' = length cs /\ Forall (fun l => l < length cs')%nat ls /\ length prev = length cs.
Proof.
  induction 1 as [cs ls cs' (A & B & C & (D & _))|p cs l0 mid prev ls cs' (A & B & C & (D & _)) NS H IH].
  - rewrite D. auto.
  - destruct IH as (E1 & E2 & E3 & E4). rewrite <- D. auto.
Qed.

(** * CircKMeans.predict *)
Lemma firstn_len {A} (l : list A) : firstn (length l) l = l.
Proof. apply firstn_all. Qed.
Lemma km_predict_ok m b fc K k Y : (1 <= K)%nat -> length (km_centers k) = K -> defined (km_centers k) ->
  comparable m (in_radians b fc Y) (km_centers k) ->
  exists ls, km_predict m b fc K (Some k) Y = Ok ls /\ nearest (in_radians b fc Y) (km_centers k) ls.
Proof.
  intros H1 L D C. unfold km_predict. rewrite to_rad_in, L, Nat.ltb_irrefl. destruct (Nat.eqb_spec K 0); [lia|].
  assert (E : firstn K (km_centers k) = km_centers k) by (rewrite <- L; apply firstn_len). rewrite E.
  eexists. split; [reflexivity|]. apply assign_nearest; auto.
  intros Z. rewrite Z in L. cbn in L. lia.
Qed.
Lemma km_predict_few m b fc K it tol init X k Y : (length X < K)%nat ->
  km_fit m b fc K it tol init X = Ok k ->
  km_labels k = seq 0 (length X) /\ km_predict m b fc K (Some k) Y = Err IndexError.
Proof.
  intros H. unfold km_fit. rewrite to_rad_in, in_radians_length. destruct (Nat.ltb_spec (length X) K); [|lia].
  intros E. injection E as <-. split; auto. unfold km_predict. cbn [km_centers].
  rewrite map_length, in_radians_length. destruct (Nat.ltb_spec (length X) K); [auto|lia].
Qed.
