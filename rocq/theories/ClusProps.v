(** Property theorems for CircHAC and CircKMeans (C49-C52, C96-C100). *)
From Verif Require Import Prelude NpModel CircleSpec UtilsModel DescModel HypMultiModel HypMulti2Model HypMultiSpec
  CorrSpec ClusModel ClusSpec ClusProofs Clus2Proofs Clus3Proofs Clus4Proofs Clus5Proofs Clus6Proofs Clus7Proofs Clus8Proofs Clus9Proofs.

(** The rows of merges_ as tuples. *)
Definition rows (h : hac) : list mrow := map (fun r => (mg_a r, mg_b r, mg_dist r, mg_size r)) (h_merges h).

(** C49 *)
Theorem C49_fit_succeeds : forall m b fc K ni seed X, hac_args_ok K ni -> X <> [] ->
  exists h, hac_fit m b fc K ni seed X = Ok h.
Proof. exact hac_total. Qed.
Print Assumptions C49_fit_succeeds.
(** The labels are those of a partition that the recorded merges produce from a starting
    partition; the sizes and distances are the true ones (see [history]). *)
Theorem C49_partition : forall m b fc K ni seed X h, hac_args_ok K ni -> seed_ok (length X) ni seed ->
  hac_fit m b fc K ni seed X = Ok h ->
  let alpha := in_radians b fc X in
  exists init next final,
    splits (length X) next init /\
    history (distance_of_centres m alpha) next init (rows h) final /\
    splits (length X) (next + length (h_merges h)) final /\
    labels_of final (length X) (h_labels h) /\
    (1 <= length final)%nat /\ (forall l, In l (h_labels h) <-> (l < length final)%nat) /\
    (length final + length (h_merges h) = length init)%nat /\
    (length final = Nat.min (length init) K \/ ((K < length final)%nat /\ stuck alpha final)) /\
    ((K < length X)%nat -> Forall2 (fun c x => centre (angles_at alpha (snd c)) x) final (h_centers h)) /\
    ((length X <= K)%nat -> h_centers h = map Fin alpha) /\
    Forall2 (fun c r => r * INR (length (snd c)) = resultant (angles_at alpha (snd c))) final (h_r h) /\
    (ni = None -> init = map (fun i => (i, [i])) (seq 0 (length X))).
Proof. exact hac_partition. Qed.
Print Assumptions C49_partition.
Example C49_example : hac_args_ok 2 None /\ seed_ok (length x013) None [] /\
  exists h, hac_fit Geodesic true 360 2 None [] x013 = Ok h /\ h_labels h = [1; 1; 0]%nat /\ rows h = [(0, 1, Fin 1, 2)]%nat.
Proof.
  split; [split; auto|]. split; [exact I|]. destruct hac_geo as (h & E & L & _ & M). exists h. split; auto. split; auto.
  unfold rows. rewrite M. reflexivity.
Qed.
(** With n_init_clusters < n_clusters < n there are fewer clusters than asked for. *)
Theorem C49_count_refuted : exists X K k seed h, hac_args_ok K (Some k) /\ seed_ok (length X) (Some k) seed /\
  hac_fit Geodesic true 360 K (Some k) seed X = Ok h /\ (forall i, In i X -> 0 <= i < 2 * PI) /\
  (forall l, In l (h_labels h) -> l = 0%nat) /\ length (h_centers h) = 1%nat /\ Nat.min (length X) K = 2%nat.
Proof. exact count_refuted. Qed.
Print Assumptions C49_count_refuted.

(** C50 *)
Theorem C50_closest_pair : forall m b fc K ni seed X h, m <> Center -> hac_args_ok K ni -> seed_ok (length X) ni seed ->
  hac_fit m b fc K ni seed X = Ok h ->
  exists init next final,
    splits (length X) next init /\ labels_of final (length X) (h_labels h) /\
    history (closest_pair (in_radians b fc X)) next init (rows h) final.
Proof. exact hac_closest. Qed.
Print Assumptions C50_closest_pair.
Example C50_example : Geodesic <> Center /\ hac_args_ok 2 None /\
  exists h, hac_fit Geodesic true 360 2 None [] x013 = Ok h /\ rows h = [(0, 1, Fin 1, 2)]%nat.
Proof. split; [discriminate|]. split; [split; auto|]. destruct hac_geo as (h & E & L & _ & M). exists h. split; auto. unfold rows. rewrite M. reflexivity. Qed.
(** metric="center" is signed: of 0, 1, 3 the pair 0, 3 is merged first. *)
Theorem C50_center_refuted : exists X K h, hac_args_ok K None /\ hac_fit Center true 360 K None [] X = Ok h /\
  ~ exists next final, history (closest_pair X) next (map (fun i => (i, [i])) (seq 0 (length X))) (rows h) final.
Proof. exact closest_refuted. Qed.
Print Assumptions C50_center_refuted.

(** C51 *)
Theorem C51_fit_run : forall m b fc K max_iter tol init X k, (1 <= K <= length X)%nat -> (1 <= max_iter)%nat -> draw (length X) K init ->
  m <> Geodesic \/ one_turn (in_radians b fc X) ->
  km_fit m b fc K max_iter tol init X = Ok k ->
  exists p prev, (p <= max_iter)%nat /\
    lloyd (in_radians b fc X) tol p (map (fun i => Fin (nth i (in_radians b fc X) 0)) init) prev (km_labels k) (km_centers k) /\
    (p = max_iter \/ settled tol prev (km_centers k)).
Proof. exact km_run. Qed.
Print Assumptions C51_fit_run.
Theorem C51_shape : forall m b fc K max_iter tol init X k, (1 <= K <= length X)%nat -> (1 <= max_iter)%nat -> draw (length X) K init ->
  km_fit m b fc K max_iter tol init X = Ok k ->
  length (km_centers k) = K /\ length (km_labels k) = length X /\ Forall (fun l => l < K)%nat (km_labels k).
Proof. exact km_shape. Qed.
Print Assumptions C51_shape.
Theorem C51_inertia : forall m b fc K max_iter tol init X k, (1 <= K <= length X)%nat -> (1 <= max_iter)%nat -> draw (length X) K init ->
  m <> Geodesic \/ one_turn (in_radians b fc X) -> km_fit m b fc K max_iter tol init X = Ok k -> defined (km_centers k) ->
  exists ds, Forall2 (fun p d => exists c e, nth_error (km_centers k) (snd p) = Some (Fin c) /\ is_arc_dist (fst p) c e /\ d = measured m e)
               (combine (in_radians b fc X) (km_labels k)) ds /\
    km_inert k = Fin (Rsum ds) /\ 0 <= Rsum ds.
Proof. exact km_inertia_thm. Qed.
Print Assumptions C51_inertia.
Theorem C51_predict : forall m b fc K max_iter tol init X k Y, (1 <= K <= length X)%nat -> (1 <= max_iter)%nat -> draw (length X) K init ->
  m <> Geodesic \/ one_turn (in_radians b fc X) /\ one_turn (in_radians b fc Y) ->
  km_fit m b fc K max_iter tol init X = Ok k -> defined (km_centers k) ->
  exists ls, km_predict m b fc K (Some k) Y = Ok ls /\ nearest (in_radians b fc Y) (km_centers k) ls.
Proof. exact km_predict_thm. Qed.
Print Assumptions C51_predict.
Example C51_example : (1 <= 2 <= length x3)%nat /\ draw (length x3) 2 [0; 1]%nat /\ one_turn (in_radians true 360 x3) /\
  exists k, km_fit Geodesic true 360 2 1 (/ 1000000) [0; 1]%nat x3 = Ok k /\ km_labels k = [0; 1; 1]%nat.
Proof.
  split; [cbn; lia|]. split; [apply draw2; cbn; lia|]. split; [apply x3_turn|].
  destruct km_lag as (k & ls & E & L & _). exists k. auto.
Qed.
(** A centre that becomes undefined (a balanced cluster) takes every observation, for every
    metric and every number of iterations, although another centre is at distance 0. *)
Theorem C51_nan_centre_refuted : exists X, one_turn X /\ forall m max_iter tol, (2 <= max_iter)%nat -> exists k,
  draw (length X) 2 [0; 1]%nat /\ km_fit m true 360 2 max_iter tol [0; 1]%nat X = Ok k /\
  km_centers k = [NaN; Fin 0] /\ In 0 X /\ (forall l, In l (km_labels k) -> l = 0%nat) /\
  km_predict m true 360 2 (Some k) [0] = Ok [0]%nat /\ km_inert k = NaN.
Proof. exact nan_refuted. Qed.
Print Assumptions C51_nan_centre_refuted.

(** C52 *)
Theorem C52_predict_raises : forall m b fc K max_iter tol init X k Y, (length X < K)%nat ->
  km_fit m b fc K max_iter tol init X = Ok k ->
  km_labels k = seq 0 (length X) /\ km_predict m b fc K (Some k) Y = Err IndexError.
Proof. exact km_predict_few. Qed.
Print Assumptions C52_predict_raises.
Theorem C52_refuted : exists X K init Y k, (length X < K)%nat /\ km_fit AngSep true 360 K 100 (/ 1000000) init X = Ok k /\
  km_labels k = [0]%nat /\ km_predict AngSep true 360 K (Some k) Y = Err IndexError.
Proof. exact few_refuted. Qed.
Print Assumptions C52_refuted.

(** C96 *)
Theorem C96_hac_rotation : forall m b fc b' fc' K seed seed' X X' h t,
  moved t (in_radians b fc X) (in_radians b' fc' X') -> hac_fit m b fc K None seed X = Ok h ->
  exists h', hac_fit m b' fc' K None seed' X' = Ok h' /\
    h_labels h' = h_labels h /\ h_merges h' = h_merges h /\ h_r h' = h_r h /\ Forall2 (turned_fl t) (h_centers h) (h_centers h').
Proof. exact hac_turned. Qed.
Print Assumptions C96_hac_rotation.
Example C96_example : moved 1 (in_radians true 360 x013) (in_radians false 360 [180 / PI; 360 / PI; 720 / PI]) /\
  exists h, hac_fit Geodesic true 360 2 None [] x013 = Ok h.
Proof.
  pose proof PI_RGT_0. split; [|destruct hac_geo as (h & E & _); eauto].
  repeat constructor; exists 0%Z; cbn [IZR]; field; lra.
Qed.
(** C97 *)
Theorem C97_kmeans_rotation : forall m b fc b' fc' K max_iter tol init X X' k t, m <> Geodesic -> (1 <= max_iter)%nat ->
  draw (length X) K init ->
  moved t (in_radians b fc X) (in_radians b' fc' X') -> km_fit m b fc K max_iter tol init X = Ok k ->
  exists k', km_fit m b' fc' K max_iter tol init X' = Ok k' /\ km_labels k' = km_labels k /\ km_inert k' = km_inert k /\
    Forall2 (turned_fl t) (km_centers k) (km_centers k').
Proof. exact km_turned. Qed.
Print Assumptions C97_kmeans_rotation.
Example C97_example : Center <> Geodesic /\ draw (length x3) 2 [0; 1]%nat /\ moved 7 (in_radians true 360 x3) (in_radians true 360 [7; 79/10; 99/10]) /\
  exists k, km_fit Center true 360 2 5 (/ 1000000) [0; 1]%nat x3 = Ok k.
Proof.
  split; [discriminate|]. split; [apply draw2; cbn; lia|]. split; [repeat constructor; exists 0%Z; cbn [IZR]; field|].
  rewrite km_fit_eq by (cbn; lia). eexists; reflexivity.
Qed.
(** C98 *)
Theorem C98_labels_refuted : exists X K init max_iter k ls, one_turn X /\ draw (length X) K init /\
  km_fit Geodesic true 360 K max_iter (/ 1000000) init X = Ok k /\ km_predict Geodesic true 360 K (Some k) X = Ok ls /\ ls <> km_labels k.
Proof. exact lag_refuted. Qed.
Print Assumptions C98_labels_refuted.
(** What predict returns instead, when tol stops nothing: the labels of the next iteration. *)
Theorem C98_lag : forall m b fc K max_iter tol init X k k', (1 <= K <= length X)%nat -> draw (length X) K init -> tol <= 0 ->
  km_fit m b fc K max_iter tol init X = Ok k -> km_fit m b fc K (S max_iter) tol init X = Ok k' ->
  km_predict m b fc K (Some k) X = Ok (km_labels k') /\
  (km_centers k' = km_centers k -> km_predict m b fc K (Some k') X = Ok (km_labels k')).
Proof. exact predict_lag. Qed.
Print Assumptions C98_lag.
Example C98_example : (1 <= 2 <= length x3)%nat /\ draw (length x3) 2 [0; 1]%nat /\
  exists k k', km_fit Geodesic true 360 2 1 0 [0; 1]%nat x3 = Ok k /\ km_fit Geodesic true 360 2 2 0 [0; 1]%nat x3 = Ok k'.
Proof.
  split; [cbn; lia|]. split; [apply draw2; cbn; lia|].
  do 2 eexists. rewrite !km_fit_eq by (cbn; lia). split; reflexivity.
Qed.
(** C99 *)
Theorem C99_silhouette : forall m h, length (h_labels h) = length (h_alpha h) ->
  ((length (h_alpha h) < 2)%nat -> silhouette_score m h = Fin 0) /\
  ((2 <= length (h_alpha h))%nat -> (forall l l', In l (h_labels h) -> In l' (h_labels h) -> l = l') -> silhouette_score m h = NaN) /\
  (forall l l', In l (h_labels h) -> In l' (h_labels h) -> l <> l' -> exists s, silhouette_score m h = Fin s /\ -1 <= s <= 1).
Proof. exact silhouette_ok. Qed.
Print Assumptions C99_silhouette.
Example C99_example : exists h, hac_fit Geodesic true 360 2 None [] x013 = Ok h /\ length (h_labels h) = length (h_alpha h) /\
  silhouette_score Geodesic h = Fin (31 / 36).
Proof.
  destruct sil_geo as (h & E & L & S). exists h. split; auto. split; auto. destruct hac_geo as (h' & E' & _ & A & _).
  rewrite E in E'. injection E' as <-. rewrite L, A. reflexivity.
Qed.
Theorem C99_standard_refuted : exists X K h s, one_turn X /\ hac_fit Geodesic true 360 K None [] X = Ok h /\ silhouette_score Geodesic h = Fin s /\
  (exists ss, length ss = length X /\ forall i v, nth_error ss i = Some v -> silhouette_at (circ_dist Geodesic) X (h_labels h) i v) /\
  forall ss, length ss = length X ->
    (forall i v, nth_error ss i = Some v -> silhouette_at (circ_dist Geodesic) X (h_labels h) i v) -> s * INR (length X) <> Rsum ss.
Proof. exact silhouette_refuted. Qed.
Print Assumptions C99_standard_refuted.
(** C100 *)
Theorem C100_hac_predict : forall m b fc K ni seed X h Y, hac_args_ok K ni -> seed_ok (length X) ni seed ->
  hac_fit m b fc K ni seed X = Ok h -> m <> Geodesic \/ one_turn (in_radians b fc X) /\ one_turn (in_radians b fc Y) ->
  defined (h_centers h) ->
  exists ls, hac_predict m b fc (Some h) Y = Ok ls /\ nearest (in_radians b fc Y) (h_centers h) ls.
Proof. exact hac_predict_thm. Qed.
Print Assumptions C100_hac_predict.
Example C100_example : exists h, hac_fit AngSep true 360 3 None [] x013 = Ok h /\ defined (h_centers h) /\ h_centers h = map Fin x013.
Proof. eexists. split; [reflexivity|]. split; [repeat constructor; eauto|reflexivity]. Qed.
