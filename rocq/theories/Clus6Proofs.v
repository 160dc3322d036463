From Verif Require Import Prelude NpModel NpProofs CircleSpec UtilsModel UtilsProofs DescModel DescProofs
  DescSpec DescApi DescApi2 HypProofs HypMultiModel HypMulti2Model HypMultiSpec HypMultiProofs HypMulti7Proofs
  CorrSpec ClusModel ClusSpec ClusProofs Clus2Proofs Clus3Proofs Clus4Proofs Clus5Proofs.

(** * Turning the data *)
(** x' is x turned by t; NaN stays NaN. *)
Lemma diff_dir t x x' y y' : same_dir (x + t) x' -> same_dir (y + t) y' -> same_dir (x - y) (x' - y').
Proof. intros Hx Hy. replace (x - y) with (x + t - (y + t)) by ring. now apply same_dir_sub. Qed.
Lemma center_diff x y : circ_dist Center x y = arctan2 (sin (x - y)) (cos (x - y)).
Proof.
  cbn [circ_dist]. unfold circ_dist_center. pose proof (sin2_cos2 y) as P. unfold Rsqr in P.
  replace (cos y * cos y + sin y * sin y) with 1 by lra. rewrite sin_minus, cos_minus. f_equal; field.
Qed.
Lemma dist_turned m t x x' y y' : same_dir (x + t) x' -> same_dir (y + t) y' ->
  m <> Geodesic \/ (Rabs (x - y) <= 2 * PI /\ Rabs (x' - y') <= 2 * PI) -> circ_dist m x' y' = circ_dist m x y.
Proof.
  intros Hx Hy H. pose proof (diff_dir t x x' y y' Hx Hy) as D.
  assert (Cs : cos (x' - y') = cos (x - y)) by (symmetry; now apply same_dir_cos).
  assert (Sn : sin (x' - y') = sin (x - y)) by (symmetry; now apply same_dir_sin).
  destruct m.
  - now rewrite !center_diff, Cs, Sn.
  - destruct H as [H|[H1 H2]]; [congruence|].
    apply (UtilsProofs.arc_dist_unique x' y'); [now apply geodesic_spec|].
    rewrite (arc_eq _ _ _ (geodesic_spec x y H1)).
    rewrite <- (angular_distance_rot x y t).
    rewrite (angular_distance_dir _ x' _ y' Hx Hy). apply angular_distance_arc.
  - cbn [circ_dist]. unfold circ_dist_angsep. now rewrite Cs.
  - cbn [circ_dist]. unfold circ_dist_chord. now rewrite Cs.
Qed.
Lemma moved_sums t g g' : moved t g g' ->
  Rsum (map cos g') = Rsum (map cos g) * cos t - Rsum (map sin g) * sin t /\
  Rsum (map sin g') = Rsum (map sin g) * cos t + Rsum (map cos g) * sin t /\ length g' = length g.
Proof.
  induction 1 as [|x x' g g' H _ (E1 & E2 & E3)]; [cbn; repeat split; ring|].
  cbn [map length]. rewrite !Rsum_cons, E1, E2, E3, <- (same_dir_cos _ _ H), <- (same_dir_sin _ _ H), cos_plus, sin_plus.
  repeat split; ring.
Qed.
Lemma moved_resultant t g g' : moved t g g' -> resultant g' = resultant g.
Proof.
  intros H. destruct (moved_sums t g g' H) as (E1 & E2 & _). unfold resultant. f_equal. rewrite E1, E2.
  pose proof (sin2_cos2 t) as P. unfold Rsqr in P.
  transitivity ((sin t * sin t + cos t * cos t) * (Rsum (map cos g) ^ 2 + Rsum (map sin g) ^ 2)); [ring|rewrite P; ring].
Qed.
Lemma centre_moved t g g' x x' : g <> [] -> moved t g g' -> centre g x -> centre g' x' -> turned_fl t x x'.
Proof.
  intros N H C C'. pose proof (len_pos g N) as L. destruct (moved_sums t g g' H) as (E1 & E2 & E3). pose proof (moved_resultant t g g' H) as E.
  unfold centre in C'. rewrite E, E3, E1, E2 in C'.
  destruct C as [[A ->]|[A (c & -> & Rc & F1 & F2)]], C' as [[B ->]|[B (c' & -> & Rc' & F1' & F2')]]; try lra.
  - left; auto.
  - right. exists c, c'. split; auto. split; auto. assert (R0 : 0 < resultant g) by nra.
    apply cos_sin_same_dir; apply Rmult_eq_reg_l with (resultant g); try lra.
    + rewrite cos_plus. rewrite <- F1', F1, F2. ring.
    + rewrite sin_plus. rewrite <- F2', F1, F2. ring.
Qed.
Lemma moved_length t a a' : moved t a a' -> length a' = length a.
Proof. induction 1; cbn; auto. Qed.
Lemma moved_nth t a a' : moved t a a' -> forall i, (i < length a)%nat -> same_dir (nth i a 0 + t) (nth i a' 0).
Proof. induction 1 as [|x x' a a' H _ IH]; intros [|i] Hi; cbn in *; try lia; auto. apply IH. lia. Qed.
Lemma moved_take t a a' idx : moved t a a' -> Forall (fun i => i < length a)%nat idx -> moved t (take a idx) (take a' idx).
Proof. intros H F. induction F as [|i idx Hi F IH]; cbn; constructor; auto. apply (moved_nth t a a' H i Hi). Qed.
Lemma mr_moved t g g' : moved t g g' -> turned_fl t (fst (circ_mean_and_r g None)) (fst (circ_mean_and_r g' None)) /\
  snd (circ_mean_and_r g' None) = snd (circ_mean_and_r g None).
Proof.
  intros H. destruct g as [|x g].
  - inversion H; subst. split; auto. left. split; (unfold circ_mean_and_r;
      destruct (circ_mean_and_r_s_cases (combine (@nil R) (weights [] None))) as [[_ E]|[Z _]]; [now rewrite E|]; exfalso;
      unfold circ_r_s in Z; cbn in Z; unfold compute_C, compute_S, wtotal in Z; cbn in Z; unfold Rdiv in Z; rewrite !Rmult_0_l, ?Rplus_0_r, sqrt_0 in Z; lra).
  - assert (N : x :: g <> []) by discriminate. assert (N' : g' <> []) by (inversion H; discriminate).
    split.
    + apply (centre_moved t (x :: g) g'); auto; now apply centre_mr.
    + rewrite !mr_snd. apply Rmult_eq_reg_r with (INR (length (x :: g))); [|pose proof (len_pos _ N); lra].
      rewrite (circ_r_resultant _ N), <- (moved_length _ _ _ H), (circ_r_resultant _ N'). now apply moved_resultant with t.
Qed.
Lemma mr_range g c : fst (circ_mean_and_r g None) = Fin c -> 0 <= c < 2 * PI.
Proof.
  unfold circ_mean_and_r. destruct (circ_mean_and_r_s_cases (combine g (weights g None))) as [[_ ->]|[_ ->]]; [discriminate|].
  intros E. injection E as <-. apply mean_dir_range.
Qed.

(** ** CircHAC *)
Definition same_dists (m : metric) (l l' : list (nat * fl)) : Prop :=
  Forall2 (fun p q => fst p = fst q) l l' /\
  forall p p' q q', In (p, p') (combine l l') -> In (q, q') (combine l l') -> fdist m (snd p') (snd q') = fdist m (snd p) (snd q).
Lemma scan_row_same m ci x x' l l' : Forall2 (fun p q => fst p = fst q) l l' ->
  (forall q q', In (q, q') (combine l l') -> fdist m x' (snd q') = fdist m x (snd q)) ->
  forall best, scan_row m ci x' l' best = scan_row m ci x l best.
Proof.
  induction 1 as [|[cj y] [cj' y'] l l' E F IH]; intros H best; auto. cbn [fst] in E. subst cj'. cbn [scan_row].
  pose proof (H (cj, y) (cj, y') (or_introl eq_refl)) as D. cbn [snd] in D. rewrite D. apply IH.
  intros q q' I. apply H. right. exact I.
Qed.
Lemma scan_same m l l' : same_dists m l l' -> forall best, scan m l' best = scan m l best.
Proof.
  intros [F H]. induction F as [|[ci x] [ci' x'] l l' E F IH]; intros best; auto. cbn [fst] in E. subst ci'. cbn [scan].
  rewrite (scan_row_same m ci x x' l l' F).
  - apply IH. intros p p' q q' Hp Hq. apply H; right; auto.
  - intros q q' I. apply (H (ci, x) (ci, x') q q'); [left; auto|right; auto].
Qed.
Definition valid (n : nat) (cl : clusters) : Prop := Forall (fun c => Forall (fun i => i < n)%nat (snd c)) cl.
Lemma means_same m t a a' cl : moved t a a' -> valid (length a) cl -> same_dists m (hac_means a cl) (hac_means a' cl).
Proof.
  intros H V. split.
  - unfold hac_means. clear. induction cl; cbn [map]; constructor; auto.
  - assert (G : forall p p', In (p, p') (combine (hac_means a cl) (hac_means a' cl)) -> turned_fl t (snd p) (snd p') /\
       (forall c, snd p = Fin c -> 0 <= c < 2 * PI) /\ (forall c, snd p' = Fin c -> 0 <= c < 2 * PI)).
    { unfold hac_means. induction V as [|c cl Hc V IH]; [easy|]. intros p p' [E|I]; [|now apply IH].
      injection E as <- <-. cbn [snd]. split; [apply mr_moved; now apply moved_take|]. split; apply mr_range. }
    intros [? p] [? p'] [? q] [? q'] Hp Hq. apply G in Hp, Hq. cbn [snd] in *.
    destruct Hp as ([[-> ->]|(c & c' & -> & -> & D1)] & R1 & R1'); [reflexivity|].
    destruct Hq as ([[-> ->]|(d & d' & -> & -> & D2)] & R2 & R2'); [reflexivity|].
    cbn [fdist]. f_equal. apply dist_turned with t; auto. right.
    specialize (R1 c eq_refl). specialize (R1' c' eq_refl). specialize (R2 d eq_refl). specialize (R2' d' eq_refl).
    split; apply Rabs_le; lra.
Qed.
Lemma lookup_valid n cl c : valid n cl -> Forall (fun i => i < n)%nat (lookup cl c).
Proof.
  intros V. unfold lookup. destruct (find (fun p => Nat.eqb (fst p) c) cl) as [p|] eqn:E; [|constructor].
  apply find_some in E. unfold valid in V. rewrite Forall_forall in V. apply V. tauto.
Qed.
Lemma del_valid n cl c : valid n cl -> valid n (del c cl).
Proof. intros V. unfold valid, del in *. rewrite Forall_forall in *. intros p Hp. apply filter_In in Hp. apply V. tauto. Qed.
Lemma loop_same m t a a' K : moved t a a' -> forall fuel cl next, valid (length a) cl ->
  hac_loop m a' K fuel cl next = hac_loop m a K fuel cl next.
Proof.
  intros H. induction fuel as [|fuel IH]; intros cl next V; cbn [hac_loop]; auto.
  destruct (Nat.leb (length cl) K); auto. rewrite (scan_same m _ _ (means_same m t a a' cl H V)).
  destruct (scan m (hac_means a cl) (PInf, None)) as [d [[ci cj]|]]; auto.
  rewrite IH; auto. unfold valid. apply Forall_app. split; [apply del_valid, del_valid, V|].
  constructor; [|constructor]. cbn [snd]. apply Forall_app. split; now apply lookup_valid.
Qed.
Lemma loop_valid m a n K : forall fuel cl next, valid n cl -> valid n (fst (hac_loop m a K fuel cl next)).
Proof.
  induction fuel as [|fuel IH]; intros cl next V; cbn [hac_loop]; auto.
  destruct (Nat.leb (length cl) K); auto.
  destruct (scan m (hac_means a cl) (PInf, None)) as [d [[ci cj]|]]; auto.
  match goal with |- context [hac_loop m a K fuel ?c ?k] => specialize (IH c k); destruct (hac_loop m a K fuel c k) as [cl' ms] end.
  cbn [fst] in *. apply IH. unfold valid. apply Forall_app. split; [apply del_valid, del_valid, V|].
  constructor; [|constructor]. cbn [snd]. apply Forall_app. split; now apply lookup_valid.
Qed.
Lemma singletons_valid n : valid n (singletons n).
Proof.
  apply Forall_forall. intros c H. apply in_map_iff in H. destruct H as (i & <- & H). apply in_seq in H. cbn. constructor; [lia|constructor].
Qed.
Lemma hac_turned m b fc b' fc' K seed seed' X X' h t :
  moved t (in_radians b fc X) (in_radians b' fc' X') -> hac_fit m b fc K None seed X = Ok h ->
  exists h', hac_fit m b' fc' K None seed' X' = Ok h' /\
    h_labels h' = h_labels h /\ h_merges h' = h_merges h /\ h_r h' = h_r h /\ Forall2 (turned_fl t) (h_centers h) (h_centers h').
Proof.
  intros H. unfold hac_fit. rewrite !to_rad_in.
  assert (L1 : length (in_radians b fc X) = length X) by apply in_radians_length.
  assert (L2 : length (in_radians b' fc' X') = length X') by apply in_radians_length.
  pose proof (moved_length _ _ _ H) as L. destruct X as [|x X]; [discriminate|]. destruct X' as [|x' X']; [exfalso; rewrite L1, L2 in L; discriminate|].
  cbv zeta iota. change (to_rad b' fc' (x' :: X')) with (in_radians b' fc' (x' :: X')). set (a := in_radians b fc (x :: X)) in *. set (a' := in_radians b' fc' (x' :: X')) in *. rewrite L. clearbody a a'.
  destruct (Nat.leb (length a) K).
  - intros E. injection E as <-. eexists. split; [reflexivity|]. cbn [h_labels h_merges h_r h_centers]. repeat split; auto.
    + clear -L. revert a' L. induction a as [|y a IH]; intros [|y' a'] L; try discriminate; cbn; auto. f_equal. apply IH. now injection L.
    + clear -H. induction H as [|y y' a a' D H IH]; cbn [map]; constructor; auto. right. eauto.
  - unfold hac_init. rewrite L. cbn [bind].
    pose proof (singletons_valid (length a)) as V. rewrite (loop_same m t a a' K H _ _ _ V).
    pose proof (loop_valid m a (length a) K (length (singletons (length a))) (singletons (length a)) (S (list_max (map fst (singletons (length a))))) V) as V'.
    destruct (hac_loop m a K (length (singletons (length a))) (singletons (length a)) (S (list_max (map fst (singletons (length a)))))) as [cl ms].
    cbn [fst] in V'. intros E. injection E as <-. eexists. split; [reflexivity|]. cbn [h_labels h_merges h_r h_centers]. repeat split; auto.
    + rewrite !map_map. apply map_ext_in. intros c Hc. unfold valid in V'. rewrite Forall_forall in V'.
      apply (mr_moved t). apply moved_take; auto.
    + rewrite !map_map. clear -H V'. induction V' as [|c cl Hc V IH]; cbn [map]; constructor; auto.
      apply mr_moved. now apply moved_take.
Qed.

(** ** CircKMeans *)
Lemma dists_turned m t a a' cs cs' : m <> Geodesic -> same_dir (a + t) a' -> Forall2 (turned_fl t) cs cs' -> km_dists m cs' a' = km_dists m cs a.
Proof.
  intros Hm D. unfold km_dists. induction 1 as [|c c' cs cs' [[-> ->]|(x & x' & -> & -> & Dx)] F IH]; cbn [map]; auto; f_equal; auto.
  cbn [fdist flabs]. do 2 f_equal. apply dist_turned with t; auto.
Qed.
Lemma assign_turned m t a a' cs cs' : m <> Geodesic -> moved t a a' -> Forall2 (turned_fl t) cs cs' -> km_assign m a' cs' = km_assign m a cs.
Proof.
  intros Hm H F. unfold km_assign. induction H as [|x x' a a' D H IH]; cbn [map]; auto. f_equal; auto.
  f_equal. now apply dists_turned with t.
Qed.
Lemma where_valid ls c n : length ls = n -> Forall (fun i => i < n)%nat (where_label ls c).
Proof.
  intros <-. apply Forall_forall. intros i Hi. apply where_in in Hi. apply nth_error_Some. congruence.
Qed.
Lemma update_turned t a a' cs cs' ls : moved t a a' -> length ls = length a -> Forall2 (turned_fl t) cs cs' ->
  Forall2 (turned_fl t) (km_update a cs ls) (km_update a' cs' ls).
Proof.
  intros H L. unfold km_update. generalize 0%nat. intros k F. revert k. 
  induction F as [|c c' cs cs' D F IH]; intros k; cbn [length seq combine map]; constructor; [|apply IH].
  cbn [fst snd]. destruct (where_label ls k) as [|i w] eqn:E; auto.
  apply (mr_moved t (take a (i :: w)) (take a' (i :: w))). apply moved_take; auto. rewrite <- E. now apply where_valid.
Qed.
Lemma shift_turned t cs cs' ds ds' : Forall2 (turned_fl t) cs cs' -> Forall2 (turned_fl t) ds ds' -> km_shift cs' ds' = km_shift cs ds.
Proof.
  intros F. unfold km_shift. intros G. f_equal. revert ds ds' G.
  induction F as [|c c' cs cs' D F IH]; intros ds ds' G; auto. inversion G as [|d d' ? ? D' G']; subst; auto.
  cbn [combine map fst snd]. f_equal; auto.
  destruct D as [[-> ->]|(x & x' & -> & -> & Dx)]; auto. destruct D' as [[-> ->]|(y & y' & -> & -> & Dy)]; auto.
  cbn [fdist flabs]. do 2 f_equal. apply dist_turned with t; auto. left; discriminate.
Qed.
Lemma kloop_turned m t tol a a' : m <> Geodesic -> moved t a a' -> forall it cs cs' ls, Forall2 (turned_fl t) cs cs' ->
  snd (km_loop m tol a' it cs' ls) = snd (km_loop m tol a it cs ls) /\
  Forall2 (turned_fl t) (fst (km_loop m tol a it cs ls)) (fst (km_loop m tol a' it cs' ls)).
Proof.
  intros Hm H. induction it as [|k IH]; intros cs cs' ls F; cbn [km_loop]; [split; auto|].
  rewrite (assign_turned m t a a' cs cs' Hm H F).
  pose proof (update_turned t a a' cs cs' (km_assign m a cs) H (assign_length m a cs) F) as U.
  rewrite (shift_turned t cs cs' _ _ F U). destruct (fllt _ _); cbn [fst snd]; auto.
Qed.
Lemma inertia_turned m t a a' cs cs' ls : m <> Geodesic -> moved t a a' -> length ls = length a -> Forall2 (turned_fl t) cs cs' ->
  km_inertia m a' cs' ls = km_inertia m a cs ls.
Proof.
  intros Hm H L F. unfold km_inertia. f_equal. generalize 0%nat. 
  induction F as [|c c' cs cs' D F IH]; intros k; cbn [length seq combine map]; auto. f_equal; [|apply IH].
  cbn [fst snd]. f_equal. apply map_ext_in. intros i Hi.
  pose proof (where_valid ls k (length a) L) as V. rewrite Forall_forall in V. specialize (V i Hi).
  destruct D as [[-> ->]|(x & x' & -> & -> & Dx)]; auto. cbn [fdist flabs]. do 2 f_equal. apply dist_turned with t; auto.
  apply (moved_nth t a a' H i V).
Qed.
Lemma km_turned m b fc b' fc' K it tol init X X' k t : m <> Geodesic -> (1 <= it)%nat ->
  draw (length X) K init ->
  moved t (in_radians b fc X) (in_radians b' fc' X') -> km_fit m b fc K it tol init X = Ok k ->
  exists k', km_fit m b' fc' K it tol init X' = Ok k' /\ km_labels k' = km_labels k /\ km_inert k' = km_inert k /\
    Forall2 (turned_fl t) (km_centers k) (km_centers k').
Proof.
  intros Hm Hi D H. unfold km_fit. rewrite !to_rad_in. pose proof (moved_length _ _ _ H) as L.
  pose proof (in_radians_length b fc X) as L1. rewrite <- L1 in D.
  cbv zeta. change (to_rad b' fc' X') with (in_radians b' fc' X'). set (a := in_radians b fc X) in *. set (a' := in_radians b' fc' X') in *. rewrite L. clearbody a a'.
  destruct (Nat.ltb_spec (length a) K).
  - intros E. injection E as <-. eexists. split; [reflexivity|]. cbn. repeat split; auto.
    clear -H. induction H as [|y y' a a' D H IH]; cbn [map]; constructor; auto. right. eauto.
  - destruct (Nat.eqb K 0 && negb (Nat.eqb it 0)) eqn:EK; [discriminate|].
    assert (K0 : (1 <= K)%nat).
    { destruct (Nat.eqb_spec K 0), (Nat.eqb_spec it 0); cbn in EK; try discriminate; lia. }
    set (cs0 := map (fun i => Fin (at_ a i)) init). set (cs0' := map (fun i => Fin (at_ a' i)) init).
    assert (F : Forall2 (turned_fl t) cs0 cs0').
    { destruct D as (_ & _ & D). unfold cs0, cs0'. clear -D H. induction D as [|i init Hi D IH]; cbn [map]; constructor; auto.
      right. exists (at_ a i), (at_ a' i). repeat split; auto. now apply (moved_nth t a a' H i Hi). }
    destruct (kloop_turned m t tol a a' Hm H it cs0 cs0' (repeat 0%nat (length a)) F) as [E1 E2].
    destruct (loop_shape m tol a it cs0 (repeat 0%nat (length a))) as [_ LS].
    { unfold cs0. apply (draw_ne (length a) K); auto. }
    specialize (LS Hi). destruct LS as [LS _].
    destruct (km_loop m tol a it cs0 (repeat 0%nat (length a))) as [cs ls].
    destruct (km_loop m tol a' it cs0' (repeat 0%nat (length a))) as [cs' ls']. cbn [fst snd] in *. subst ls'.
    intros E. injection E as <-. eexists. split; [reflexivity|]. cbn [km_labels km_inert km_centers]. repeat split; auto.
    apply inertia_turned with t; auto.
Qed.
