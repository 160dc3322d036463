(** The statements of ClusProps.v assembled. *)
From Verif Require Import Prelude NpModel NpProofs CircleSpec UtilsModel UtilsProofs DescModel DescProofs
  DescSpec DescApi DescApi2 HypProofs HypMultiModel HypMulti2Model HypMultiSpec HypMultiProofs HypMulti7Proofs
  CorrSpec ClusModel ClusSpec ClusProofs Clus2Proofs Clus3Proofs Clus4Proofs Clus5Proofs Clus6Proofs Clus7Proofs Clus8Proofs.
From Coq Require Import Sorted.

Lemma hac_total m b fc K ni seed X : hac_args_ok K ni -> X <> [] -> exists h, hac_fit m b fc K ni seed X = Ok h.
Proof.
  intros [HK Hi] N. destruct X as [|x X]; [congruence|]. unfold hac_fit. cbv zeta.
  set (a := to_rad b fc (x :: X)). destruct (Nat.leb (length a) K); [eexists; reflexivity|].
  assert (H : exists cl, hac_init m ni seed a = Ok cl).
  { unfold hac_init. destruct ni as [k|]; [|eexists; reflexivity]. destruct (Nat.leb_spec (length a) k); [eexists; reflexivity|].
    rewrite km_fit_eq by lia. cbn [bind]. match goal with |- exists cl, match ?x with _ => _ end = _ => destruct x end; eexists; reflexivity. }
  destruct H as [cl ->]. cbn [bind]. match goal with |- exists h, (let (_, _) := ?x in _) = _ => destruct x end. eexists; reflexivity.
Qed.
Lemma hac_partition m b fc K ni seed X h : hac_args_ok K ni -> seed_ok (length X) ni seed ->
  hac_fit m b fc K ni seed X = Ok h ->
  let alpha := in_radians b fc X in
  exists init next final,
    splits (length X) next init /\
    history (distance_of_centres m alpha) next init (map row_of (h_merges h)) final /\
    splits (length X) (next + length (h_merges h)) final /\
    labels_of final (length X) (h_labels h) /\
    (1 <= length final)%nat /\ (forall l, In l (h_labels h) <-> (l < length final)%nat) /\
    (length final + length (h_merges h) = length init)%nat /\
    (length final = Nat.min (length init) K \/ ((K < length final)%nat /\ stuck alpha final)) /\
    ((K < length X)%nat -> Forall2 (fun c x => centre (angles_at alpha (snd c)) x) final (h_centers h)) /\
    ((length X <= K)%nat -> h_centers h = map Fin alpha) /\
    Forall2 (fun c r => r * INR (length (snd c)) = resultant (angles_at alpha (snd c))) final (h_r h) /\
    (ni = None -> init = map (fun i => (i, [i])) (seq 0 (length X))).
Proof.
  intros HA HS E alpha. assert (NX : X <> []) by (intros ->; discriminate).
  destruct (hac_fit_ok _ _ _ _ _ _ _ _ HA HS E) as (_ & init & next & final & S0 & I0 & H0 & S1 & _ & L1 & C1 & C2 & C3 & C4 & C5).
  fold alpha in S0, I0, H0, S1, L1, C1, C2, C3, C4, C5.
  assert (LN : length alpha = length X) by apply in_radians_length. rewrite LN in *.
  assert (U : forall l, In l (h_labels h) <-> (l < length final)%nat).
  { apply (labels_used final (length X)); auto.
    - destruct S1 as (F & _ & _). eapply Forall_impl; [|exact F]. cbn. intros c [? _]. auto.
    - apply perm_valid. apply S1. }
  exists init, next, final. split; auto. split.
  { eapply history_weaken; [|exact H0]. intros s A B d [G _]. exact G. }
  split; auto. split; auto. split.
  { destruct final as [|c final]; [|cbn; lia]. destruct S1 as (_ & _ & P). cbn in P. apply Permutation_nil in P.
    destruct X; [congruence|discriminate]. }
  split; auto. split; auto. split; auto. split; auto. split; [intros G; apply C4; auto|]. split; auto.
  intros ->. exact I0.
Qed.
Lemma hac_closest m b fc K ni seed X h : m <> Center -> hac_args_ok K ni -> seed_ok (length X) ni seed ->
  hac_fit m b fc K ni seed X = Ok h ->
  exists init next final,
    splits (length X) next init /\ labels_of final (length X) (h_labels h) /\
    history (closest_pair (in_radians b fc X)) next init (map row_of (h_merges h)) final.
Proof.
  intros Hm HA HS E.
  destruct (hac_fit_ok _ _ _ _ _ _ _ _ HA HS E) as (_ & init & next & final & S0 & I0 & H0 & S1 & _ & L1 & C1 & C2 & C3 & C4 & C5).
  assert (LN : length (in_radians b fc X) = length X) by apply in_radians_length. rewrite LN in *.
  exists init, next, final. split; auto. split; auto.
  eapply history_weaken; [|exact H0]. intros s A B d [_ G]. auto.
Qed.
Lemma one_turn_b t : one_turn t -> forall a, In a t -> 0 <= a < 2 * PI.
Proof. intros H. apply Forall_forall. exact H. Qed.
Lemma km_end_comparable m b fc K it tol init X k Y : (1 <= K <= length X)%nat -> (1 <= it)%nat -> draw (length X) K init ->
  m <> Geodesic \/ one_turn (in_radians b fc X) /\ one_turn (in_radians b fc Y) ->
  km_fit m b fc K it tol init X = Ok k -> comparable m (in_radians b fc Y) (km_centers k).
Proof.
  intros HK Hi D C E. destruct C as [C|[C1 C2]]; [left; auto|].
  destruct (km_run _ _ _ _ _ _ _ _ _ HK Hi D (or_intror C1) E) as (p & prev & _ & L & _).
  assert (C0 : comparable m (in_radians b fc X) (map (fun i => Fin (nth i (in_radians b fc X) 0)) init)).
  { apply init_comparable; auto. rewrite in_radians_length. apply D. }
  destruct (lloyd_comparable m _ _ _ _ _ _ _ L C0) as [G|[_ G]]; [left; auto|right; auto].
Qed.
Lemma km_inertia_thm m b fc K it tol init X k : (1 <= K <= length X)%nat -> (1 <= it)%nat -> draw (length X) K init ->
  m <> Geodesic \/ one_turn (in_radians b fc X) -> km_fit m b fc K it tol init X = Ok k -> defined (km_centers k) ->
  exists ds, Forall2 (fun p d => exists c e, nth_error (km_centers k) (snd p) = Some (Fin c) /\ is_arc_dist (fst p) c e /\ d = measured m e)
               (combine (in_radians b fc X) (km_labels k)) ds /\
    km_inert k = Fin (Rsum ds) /\ 0 <= Rsum ds.
Proof.
  intros HK Hi D C E Df. destruct (km_shape _ _ _ _ _ _ _ _ _ HK Hi D E) as (S1 & S2 & S3).
  assert (C' : comparable m (in_radians b fc X) (km_centers k)) by (eapply km_end_comparable; eauto; tauto).
  pose proof E as E'. rewrite km_fit_eq in E' by apply HK. cbv zeta in E'. injection E' as E'.
  assert (EI : km_inert k = km_inertia m (in_radians b fc X) (km_centers k) (km_labels k)) by (rewrite <- E'; reflexivity).
  rewrite EI. apply inertia_ok; auto.
  - now rewrite in_radians_length.
  - now rewrite S1.
Qed.
Lemma km_predict_thm m b fc K it tol init X k Y : (1 <= K <= length X)%nat -> (1 <= it)%nat -> draw (length X) K init ->
  m <> Geodesic \/ one_turn (in_radians b fc X) /\ one_turn (in_radians b fc Y) ->
  km_fit m b fc K it tol init X = Ok k -> defined (km_centers k) ->
  exists ls, km_predict m b fc K (Some k) Y = Ok ls /\ nearest (in_radians b fc Y) (km_centers k) ls.
Proof.
  intros HK Hi D C E Df. apply km_predict_ok; auto; [apply HK| |eapply km_end_comparable; eauto].
  destruct (km_shape _ _ _ _ _ _ _ _ _ HK Hi D E) as (S1 & _). exact S1.
Qed.
Lemma hac_predict_thm m b fc K ni seed X h Y : hac_args_ok K ni -> seed_ok (length X) ni seed ->
  hac_fit m b fc K ni seed X = Ok h -> m <> Geodesic \/ one_turn (in_radians b fc X) /\ one_turn (in_radians b fc Y) ->
  defined (h_centers h) ->
  exists ls, hac_predict m b fc (Some h) Y = Ok ls /\ nearest (in_radians b fc Y) (h_centers h) ls.
Proof.
  intros HA HS E C Df. eexists. split; [reflexivity|]. rewrite (to_rad_in b fc Y).
  destruct (hac_partition _ _ _ _ _ _ _ _ HA HS E) as (init & next & final & _ & _ & _ & _ & F1 & _ & _ & _ & F2 & F3 & _ & _).
  assert (NX : X <> []) by (intros ->; discriminate).
  apply assign_nearest; auto.
  - destruct (Nat.lt_ge_cases K (length X)) as [L|L].
    + specialize (F2 L). intros Z. rewrite Z in F2. inversion F2; subst. cbn in F1. lia.
    + rewrite (F3 L). intros Z. apply map_eq_nil in Z. pose proof (in_radians_length b fc X) as Q. rewrite Z in Q. destruct X; [congruence|discriminate].
  - destruct C as [C|[C1 C2]]; [left; auto|right]. split; auto.
    destruct (Nat.lt_ge_cases K (length X)) as [L|L].
    + specialize (F2 L). clear -F2. induction F2 as [|c x final cs H F IH]; constructor; auto. intros y ->. eapply centre_fin_range; eauto.
    + rewrite (F3 L). apply Forall_forall. intros z Hz x ->. apply in_map_iff in Hz. destruct Hz as (a & Ea & Hz). injection Ea as ->.
      exact (one_turn_b _ C1 _ Hz).
Qed.

(** * Witnesses *)
Lemma draw2 n : (2 <= n)%nat -> draw n 2 [0; 1]%nat.
Proof. intros H. split; [reflexivity|]. split; [repeat constructor; cbn; intuition discriminate|repeat constructor; lia]. Qed.
Lemma x013_turn : one_turn x013.
Proof. pose proof PI_gt3. repeat constructor; lra. Qed.
Lemma x3_turn : one_turn x3.
Proof. pose proof PI_gt3. repeat constructor; lra. Qed.
Lemma count_refuted : exists X K k seed h, hac_args_ok K (Some k) /\ seed_ok (length X) (Some k) seed /\
  hac_fit Geodesic true 360 K (Some k) seed X = Ok h /\ (forall i, In i X -> 0 <= i < 2 * PI) /\
  (forall l, In l (h_labels h) -> l = 0%nat) /\ length (h_centers h) = 1%nat /\ Nat.min (length X) K = 2%nat.
Proof.
  destruct hac_few as (h & E & L & F). exists x013, 2%nat, 1%nat, [0%nat], h.
  split; [split; lia|]. split. { intros _. split; [reflexivity|]. split; [repeat constructor; auto|]. constructor; [cbn; lia|constructor]. }
  split; auto. split; [apply one_turn_b, x013_turn|]. split; [|split; auto]. rewrite F. cbn. intuition.
Qed.
Lemma closest_refuted : exists X K h, hac_args_ok K None /\ hac_fit Center true 360 K None [] X = Ok h /\
  ~ exists next final, history (closest_pair X) next (map (fun i => (i, [i])) (seq 0 (length X))) (map row_of (h_merges h)) final.
Proof.
  destruct closest_fails as (h & E & N). exists x013, 2%nat, h. split; [split; auto|]. split; auto.
Qed.
Lemma nan_refuted : exists X, one_turn X /\ forall m max_iter tol, (2 <= max_iter)%nat -> exists k,
  draw (length X) 2 [0; 1]%nat /\ km_fit m true 360 2 max_iter tol [0; 1]%nat X = Ok k /\
  km_centers k = [NaN; Fin 0] /\ In 0 X /\ (forall l, In l (km_labels k) -> l = 0%nat) /\
  km_predict m true 360 2 (Some k) [0] = Ok [0]%nat /\ km_inert k = NaN.
Proof.
  exists x0pp. pose proof PI_gt3. split; [repeat constructor; lra|]. intros m it tol Hi.
  destruct (km_nan m it tol Hi) as (k & E & C & L & I). exists k. split; [apply draw2; cbn; lia|]. split; auto. split; auto.
  split; [left; auto|]. split; [rewrite L; cbn; intuition|]. split; auto. unfold km_predict. rewrite C. reflexivity.
Qed.
Lemma few_refuted : exists X K init Y k, (length X < K)%nat /\ km_fit AngSep true 360 K 100 (/ 1000000) init X = Ok k /\
  km_labels k = [0]%nat /\ km_predict AngSep true 360 K (Some k) Y = Err IndexError.
Proof.
  exists [1], 2%nat, [0%nat], [1]. eexists. split; [cbn; lia|]. split; [reflexivity|]. split; reflexivity.
Qed.
Lemma lag_refuted : exists X K init max_iter k ls, one_turn X /\ draw (length X) K init /\
  km_fit Geodesic true 360 K max_iter (/ 1000000) init X = Ok k /\ km_predict Geodesic true 360 K (Some k) X = Ok ls /\ ls <> km_labels k.
Proof.
  destruct km_lag as (k & ls & E & L & P & Q). exists x3, 2%nat, [0; 1]%nat, 1%nat, k, ls.
  split; [apply x3_turn|]. split; [apply draw2; cbn; lia|]. split; auto. split; auto. rewrite L, Q. discriminate.
Qed.
Lemma sil_each : forall i v, nth_error [2/3; 1/2; 0] i = Some v -> silhouette_at (circ_dist Geodesic) x013 [1; 1; 0]%nat i v.
Proof.
  pose proof PI_gt3 as Hp.
  assert (L1 : labelled x013 [1; 1; 0]%nat 1 = [0; 1]) by reflexivity.
  assert (L0 : labelled x013 [1; 1; 0]%nat 0 = [3]) by reflexivity.
  assert (G : forall x y d, Rabs (x - y) = d -> d <= PI -> circ_dist Geodesic x y = d).
  { intros x y d <- H. now rewrite geo_near. }
  assert (Oth : forall l', l' <> 1%nat -> In l' [1; 1; 0]%nat -> l' = 0%nat) by (intros l' N I; cbn in I; lia).
  intros [|[|[|i]]] v E; cbn in E; try (destruct i; discriminate); injection E as <-.
  - exists 0, 1%nat. split; auto. split; auto. cbv zeta. rewrite L1. right. split; [cbn; lia|]. exists 1, 3, 0%nat.
    rewrite L0. unfold Rsum. cbn [map fold_right length]. rewrite (G 0 0 0), (G 0 1 1), (G 0 3 3) by (rabs; lra).
    split; [simpl; ring|]. split; [auto|]. split; [cbn; auto|]. split; [simpl; ring|]. split; [|rewrite Rmax_right by lra; field].
    intros l'' b' N I. rewrite (Oth l'' N I), L0. cbn [map fold_right length]. rewrite (G 0 3 3) by (rabs; lra). simpl. lra.
  - exists 1, 1%nat. split; auto. split; auto. cbv zeta. rewrite L1. right. split; [cbn; lia|]. exists 1, 2, 0%nat.
    rewrite L0. unfold Rsum. cbn [map fold_right length]. rewrite (G 1 0 1), (G 1 1 0), (G 1 3 2) by (rabs; lra).
    split; [simpl; ring|]. split; [auto|]. split; [cbn; auto|]. split; [simpl; ring|]. split; [|rewrite Rmax_right by lra; field].
    intros l'' b' N I. rewrite (Oth l'' N I), L0. cbn [map fold_right length]. rewrite (G 1 3 2) by (rabs; lra). simpl. lra.
  - exists 3, 0%nat. split; [reflexivity|]. split; [reflexivity|]. left. split; reflexivity.
Qed.
Lemma silhouette_refuted : exists X K h s, one_turn X /\ hac_fit Geodesic true 360 K None [] X = Ok h /\ silhouette_score Geodesic h = Fin s /\
  (exists ss, length ss = length X /\ forall i v, nth_error ss i = Some v -> silhouette_at (circ_dist Geodesic) X (h_labels h) i v) /\
  forall ss, length ss = length X ->
    (forall i v, nth_error ss i = Some v -> silhouette_at (circ_dist Geodesic) X (h_labels h) i v) -> s * INR (length X) <> Rsum ss.
Proof.
  destruct sil_geo as (h & E & L & S). exists x013, 2%nat, h, (31 / 36). split; [apply x013_turn|]. split; auto. split; auto.
  split; [exists [2/3; 1/2; 0]; split; [reflexivity|]; rewrite L; exact sil_each|].
  intros ss LS H. destruct ss as [|s0 [|s1 [|s2 [|? ?]]]]; try discriminate LS.
  pose proof (H 0%nat s0 eq_refl) as H0. pose proof (H 1%nat s1 eq_refl) as H1. pose proof (H 2%nat s2 eq_refl) as H2. rewrite L in *.
  assert (C : forall i v, (i < 3)%nat -> silhouette_at (circ_dist Geodesic) x013 [1; 1; 0]%nat i v -> silhouette_at (fun x y => Rabs (x - y)) x013 [1; 1; 0]%nat i v).
  { pose proof PI_gt3 as Hp.
    assert (GG : forall x l, In x x013 -> map (circ_dist Geodesic x) (labelled x013 [1; 1; 0]%nat l) = map (fun y => Rabs (x - y)) (labelled x013 [1; 1; 0]%nat l)).
    { intros x l Hx. apply map_ext_in. intros y Hy. apply geo_near.
      assert (Iy : In y x013). { unfold labelled in Hy. apply in_map_iff in Hy. destruct Hy as ([y' l'] & <- & Hy). apply filter_In in Hy. destruct Hy as [Hy _]. eapply in_combine_l; eauto. }
      cbn in Hx, Iy. apply Rabs_le. intuition lra. }
    intros i v Hi (x & l & Ex & El & G). exists x, l. split; auto. split; auto. assert (Hx : In x x013) by (eapply nth_error_In; eauto).
    cbv zeta in *. destruct G as [G|(G1 & a & b & l' & G2 & G3 & G4 & G5 & G6 & G7)]; [left; auto|right]. split; auto. exists a, b, l'.
    rewrite GG in G2, G5 by auto. split; auto. split; auto. split; auto. split; auto. split; auto.
    intros l'' b' N I Q. apply (G6 l''); auto. now rewrite GG. }
  pose proof (sil_std s0 s1 s2 (C 0%nat s0 ltac:(lia) H0) (C 1%nat s1 ltac:(lia) H1) (C 2%nat s2 ltac:(lia) H2)) as Q.
  cbn [length x013 INR Rsum fold_right]. lra.
Qed.
