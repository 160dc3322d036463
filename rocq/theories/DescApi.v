(** Lemmas about the API functions of descriptive.py, from the pair-list ones. *)
From Verif Require Import Prelude NpModel NpProofs CircleSpec UtilsModel UtilsProofs
  DescModel DescProofs DescSpec.

Lemma weights_eff alpha w : weights alpha w = eff_weights alpha w.
Proof.
  destruct w; simpl; [reflexivity|]. unfold ones.
  induction alpha as [|a l IH]; simpl; [reflexivity|]. now rewrite IH.
Qed.
Definition smp (alpha : list R) (w : option (list R)) : wsample :=
  combine alpha (weights alpha w).

Lemma combine_fst_snd {A B} (l : list A) (m : list B) :
  length m = length l -> map fst (combine l m) = l /\ map snd (combine l m) = m.
Proof.
  revert m. induction l as [|a l IH]; intros [|b m] H; simpl in *; try lia; auto.
  injection H as H. destruct (IH m H) as [E1 E2]. now rewrite E1, E2.
Qed.
Lemma Rsum_repeat_pos n : (0 < n)%nat -> 0 < Rsum (repeat 1 n).
Proof.
  induction n as [|n IH]; [lia|]. intros _. simpl. rewrite ?Rsum_cons.
  destruct n as [|n]; [simpl; rewrite ?Rsum_nil; lra|]. specialize (IH ltac:(lia)). lra.
Qed.
Lemma eff_length alpha w : valid_sample alpha w -> length (eff_weights alpha w) = length alpha.
Proof. intros [_ H]. destruct w; simpl; [apply H|apply repeat_length]. Qed.
Lemma eff_nonneg alpha w : valid_sample alpha w -> forall x, In x (eff_weights alpha w) -> 0 <= x.
Proof.
  intros [_ H] x Hx. destruct w; simpl in *.
  - destruct H as (_ & H & _). rewrite Forall_forall in H. apply H, Hx.
  - apply repeat_spec in Hx. lra.
Qed.
Lemma eff_total alpha w : valid_sample alpha w -> 0 < Rsum (eff_weights alpha w).
Proof.
  intros [H0 H]. destruct w; simpl in *; [apply H|].
  apply Rsum_repeat_pos. destruct alpha; [congruence|simpl; lia].
Qed.
Lemma wtotal_smp alpha w : length (eff_weights alpha w) = length alpha ->
  wtotal (smp alpha w) = Rsum (eff_weights alpha w).
Proof.
  intros H. unfold wtotal, smp. rewrite weights_eff.
  destruct (combine_fst_snd alpha (eff_weights alpha w) H) as [_ ->]. reflexivity.
Qed.
Lemma smp_posw alpha w : valid_sample alpha w -> posw (smp alpha w).
Proof.
  intros H [a x] Hx. simpl. apply (eff_nonneg alpha w H).
  unfold smp in Hx. rewrite weights_eff in Hx. eapply in_combine_r; eauto.
Qed.
Lemma smp_pos alpha w : valid_sample alpha w -> 0 < wtotal (smp alpha w).
Proof. intros H. rewrite wtotal_smp by (apply eff_length, H). apply eff_total, H. Qed.
Lemma wsum_eq f alpha w :
  wsum f alpha w = Rsum (map (fun x => snd x * f (fst x)) (combine alpha w)).
Proof.
  revert w. induction alpha as [|a l IH]; intros [|x w]; simpl; rewrite ?Rsum_nil; auto.
  rewrite ?Rsum_cons, IH. reflexivity.
Qed.
Lemma sample_sum_eq f alpha w :
  sample_sum f alpha w = Rsum (map (fun x => snd x * f (fst x)) (smp alpha w)).
Proof. unfold sample_sum, smp. rewrite weights_eff. apply wsum_eq. Qed.
Lemma sample_size_eq alpha w : sample_size alpha w = wtotal (smp alpha w).
Proof.
  unfold sample_size. rewrite sample_sum_eq. unfold wtotal. apply Rsum_map_ext.
  intros; ring.
Qed.
Lemma observed_smp alpha w a :
  observed alpha w a <-> exists x, In (a, x) (smp alpha w) /\ 0 < x.
Proof. unfold observed, smp. rewrite weights_eff. reflexivity. Qed.

(** transformations *)
Definition shift (t : R) (alpha : list R) : list R := map (fun a => a + t) alpha.
Lemma combine_map_l {A A' B} (f : A -> A') (l : list A) (m : list B) :
  combine (map f l) m = map (fun p => (f (fst p), snd p)) (combine l m).
Proof.
  revert m. induction l as [|a l IH]; intros [|b m]; simpl; auto. now rewrite IH.
Qed.
Lemma eff_weights_map f alpha w : eff_weights (map f alpha) w = eff_weights alpha w.
Proof. destruct w; simpl; auto. now rewrite map_length. Qed.
Lemma smp_shift t alpha w : smp (map (fun a => a + t) alpha) w = rot t (smp alpha w).
Proof.
  unfold smp, rot. rewrite !weights_eff, eff_weights_map, combine_map_l. reflexivity.
Qed.
Lemma smp_opp alpha w : smp (map Ropp alpha) w = refl (smp alpha w).
Proof. unfold smp, refl. rewrite !weights_eff, eff_weights_map, combine_map_l. reflexivity. Qed.
Lemma smp_turned alpha alpha' w : turned alpha alpha' ->
  same_dirs (smp alpha w) (smp alpha' w).
Proof.
  intros H. unfold smp, same_dirs. rewrite !weights_eff.
  assert (L : length alpha = length alpha') by (induction H; simpl; congruence).
  assert (E : eff_weights alpha w = eff_weights alpha' w) by (destruct w; simpl; congruence).
  rewrite E. generalize (eff_weights alpha' w). clear E L.
  induction H as [|x y l m Hxy H IH]; intros [|b v]; simpl; constructor; auto.
Qed.
Lemma smp_reordered alpha w alpha' w' : reordered alpha w alpha' w' ->
  Permutation (smp alpha w) (smp alpha' w').
Proof. intros (_ & _ & H). unfold smp. rewrite !weights_eff. exact H. Qed.
Lemma smp_scale c alpha w :
  smp alpha (Some (map (fun x => c * x) w)) = scalew c (smp alpha (Some w)).
Proof.
  unfold smp, scalew. simpl. revert w. induction alpha as [|a l IH]; intros [|x w]; simpl; auto.
  now rewrite IH.
Qed.

(** C07 *)
Lemma circ_r_range alpha w : valid_sample alpha w -> 0 <= circ_r alpha w <= 1.
Proof. intros H. apply circ_r_s_range; [apply smp_posw, H|apply smp_pos, H]. Qed.
Lemma circ_var_simple alpha w : valid_sample alpha w ->
  match w with Some w => all_same w = true | None => True end ->
  circ_var (Some alpha) w None None = Ok (1 - circ_r alpha w).
Proof.
  intros H Hs. destruct w as [[|x t]|]; unfold circ_var; cbn [bind]; auto.
  - destruct H as (Hn & Hl & _). destruct alpha; [congruence|discriminate].
  - rewrite Hs. reflexivity.
Qed.
Lemma circ_var_range alpha w v : valid_sample alpha w ->
  match w with Some w => all_same w = true | None => True end ->
  circ_var (Some alpha) w None None = Ok v -> 0 <= v <= 1.
Proof.
  intros H Hs E. rewrite (circ_var_simple alpha w H Hs) in E. injection E as <-.
  pose proof (circ_r_range alpha w H). lra.
Qed.
Lemma all_same_repeat x n : all_same (repeat x n) = true.
Proof.
  destruct n; simpl; auto. apply forallb_forall. intros y Hy. apply repeat_spec in Hy.
  apply Reqb_true. exact Hy.
Qed.
Lemma circ_var_total alpha w : valid_sample alpha w ->
  match w with Some w => exists x, w = repeat x (length alpha) | None => True end ->
  exists v, circ_var (Some alpha) w None None = Ok v /\ 0 <= v <= 1 /\
            angular_var (Some alpha) w None None = Ok (2 * v) /\
            v = 1 - circ_r alpha w.
Proof.
  intros H Hs.
  assert (Hs' : match w with Some w => all_same w = true | None => True end).
  { destruct w; auto. destruct Hs as [x ->]. apply all_same_repeat. }
  exists (1 - circ_r alpha w). unfold angular_var. rewrite (circ_var_simple alpha w H Hs').
  pose proof (circ_r_range alpha w H). repeat split; auto; lra.
Qed.

(** C08 *)
Lemma circ_r_one alpha w : valid_sample alpha w ->
  (circ_r alpha w = 1 <->
   forall a b, observed alpha w a -> observed alpha w b -> same_dir a b).
Proof.
  intros H. unfold circ_r. fold (smp alpha w).
  rewrite (circ_r_s_one _ (smp_posw _ _ H) (smp_pos _ _ H)). split.
  - intros [t Ht] a b Ha Hb. rewrite observed_smp in Ha, Hb.
    destruct Ha as (x & Hx & Px). destruct Hb as (y & Hy & Py).
    apply same_dir_trans with t; [apply (Ht (a, x)); auto|].
    apply same_dir_sym. apply (Ht (b, y)); auto.
  - intros Hs.
    assert (E : exists p, In p (smp alpha w) /\ 0 < snd p).
    { pose proof (smp_pos alpha w H) as P. pose proof (smp_posw alpha w H) as Q.
      unfold wtotal in P. revert P Q. generalize (smp alpha w). intros s.
      induction s as [|p s IH]; simpl; intros P Q; [rewrite ?Rsum_nil in P; lra|].
      rewrite ?Rsum_cons in P.
      destruct (Rlt_dec 0 (snd p)); [exists p; auto|].
      destruct IH as (q & Hq & Pq); [|intros x Hx; apply Q; right; exact Hx|exists q; auto].
      assert (0 <= snd p) by (apply Q; left; reflexivity). lra. }
    destruct E as ([a x] & Ha & Px). exists a. intros [b y] Hb Py. simpl in *.
    apply Hs; rewrite observed_smp; eauto.
Qed.

(** C09 *)
Lemma valid_map f alpha w : valid_sample alpha w -> valid_sample (map f alpha) w.
Proof.
  intros [H0 H]. split; [destruct alpha; simpl in *; congruence|].
  destruct w; auto. now rewrite map_length.
Qed.
Lemma api_rot t alpha w : valid_sample alpha w ->
  circ_r (map (fun a => a + t) alpha) w = circ_r alpha w.
Proof.
  intros H. unfold circ_r. fold (smp alpha w) (smp (map (fun a => a + t) alpha) w).
  rewrite smp_shift. apply circ_r_rot, smp_pos, H.
Qed.
Lemma api_refl alpha w : circ_r (map Ropp alpha) w = circ_r alpha w.
Proof.
  unfold circ_r. fold (smp alpha w) (smp (map Ropp alpha) w).
  rewrite smp_opp. apply circ_r_refl.
Qed.
Lemma api_turned alpha alpha' w : turned alpha alpha' ->
  circ_mean alpha w = circ_mean alpha' w /\
  circ_mean_and_r alpha w = circ_mean_and_r alpha' w /\ circ_r alpha w = circ_r alpha' w.
Proof.
  intros H. apply circ_mean_s_CS, CS_eq, compute_dirs, smp_turned, H.
Qed.
Lemma api_reordered alpha w alpha' w' : reordered alpha w alpha' w' ->
  circ_mean alpha w = circ_mean alpha' w' /\
  circ_mean_and_r alpha w = circ_mean_and_r alpha' w' /\ circ_r alpha w = circ_r alpha' w'.
Proof. intros H. apply circ_mean_s_CS, CS_eq, compute_perm, smp_reordered, H. Qed.
Lemma api_scale c alpha w : 0 < c -> valid_sample alpha (Some w) ->
  circ_mean alpha (Some (map (fun x => c * x) w)) = circ_mean alpha (Some w) /\
  circ_mean_and_r alpha (Some (map (fun x => c * x) w)) = circ_mean_and_r alpha (Some w) /\
  circ_r alpha (Some (map (fun x => c * x) w)) = circ_r alpha (Some w).
Proof.
  intros Hc H. unfold circ_mean, circ_mean_and_r, circ_r.
  fold (smp alpha (Some w)) (smp alpha (Some (map (fun x => c * x) w))).
  rewrite smp_scale. apply circ_mean_s_CS, CS_scale; auto. apply smp_pos, H.
Qed.
Lemma circ_r_invariant :
  (forall alpha w t, valid_sample alpha w -> circ_r (map (fun a => a + t) alpha) w = circ_r alpha w) /\
  (forall alpha w, valid_sample alpha w -> circ_r (map Ropp alpha) w = circ_r alpha w) /\
  (forall alpha alpha' w, turned alpha alpha' -> circ_r alpha w = circ_r alpha' w) /\
  (forall alpha w alpha' w', reordered alpha w alpha' w' -> circ_r alpha w = circ_r alpha' w') /\
  (forall alpha w c, 0 < c -> valid_sample alpha (Some w) ->
     circ_r alpha (Some (map (fun x => c * x) w)) = circ_r alpha (Some w)).
Proof.
  repeat split; intros.
  - now apply api_rot.
  - apply api_refl.
  - now apply api_turned.
  - now apply api_reordered.
  - now apply api_scale.
Qed.

(** C10 *)
Lemma Rsum_repeat (x : R) n : Rsum (repeat x n) = INR n * x.
Proof.
  induction n as [|n IH]; [simpl; rewrite ?Rsum_nil; ring|].
  rewrite S_INR. simpl. rewrite ?Rsum_cons, IH. ring.
Qed.
Lemma map_repeat' {A B} (f : A -> B) x n : map f (repeat x n) = repeat (f x) n.
Proof. induction n; simpl; congruence. Qed.
Lemma ones_sum f l : Rsum (map (fun x => snd x * f (fst x)) (smp l None)) = Rsum (map f l).
Proof.
  unfold smp, weights, ones. induction l as [|a l IH]; simpl; auto.
  rewrite ?Rsum_cons, IH. simpl. ring.
Qed.
Lemma expand_sum f alpha w : length w = length alpha ->
  Rsum (map (fun x => snd x * f (fst x)) (smp alpha (Some (map INR w)))) =
  Rsum (map f (np_repeat alpha w)).
Proof.
  unfold smp, weights. revert w. induction alpha as [|a l IH]; intros [|k w] H; simpl in *;
    rewrite ?Rsum_nil; auto; try discriminate.
  rewrite map_app, Rsum_app, ?Rsum_cons, map_repeat', Rsum_repeat. simpl. rewrite IH by lia. ring.
Qed.
Lemma expand_CS alpha w : length w = length alpha ->
  Csum (smp alpha (Some (map INR w))) = Csum (smp (np_repeat alpha w) None) /\
  Ssum (smp alpha (Some (map INR w))) = Ssum (smp (np_repeat alpha w) None) /\
  wtotal (smp alpha (Some (map INR w))) = wtotal (smp (np_repeat alpha w) None).
Proof.
  intros H. unfold Csum, Ssum.
  assert (T : forall s, wtotal s = Rsum (map (fun x => snd x * (fun _ => 1) (fst x)) s)).
  { intros s. unfold wtotal. apply Rsum_map_ext. intros; ring. }
  rewrite !T. split; [|split].
  - rewrite (expand_sum cos alpha w H), (ones_sum cos). reflexivity.
  - rewrite (expand_sum sin alpha w H), (ones_sum sin). reflexivity.
  - rewrite (expand_sum (fun _ => 1) alpha w H), (ones_sum (fun _ => 1)). reflexivity.
Qed.
Lemma grouped_expanded alpha w : length w = length alpha ->
  circ_mean alpha (Some (map INR w)) = circ_mean (np_repeat alpha w) None /\
  circ_mean_and_r alpha (Some (map INR w)) = circ_mean_and_r (np_repeat alpha w) None /\
  circ_r alpha (Some (map INR w)) = circ_r (np_repeat alpha w) None.
Proof. intros H. apply circ_mean_s_CS, CS_eq, expand_CS, H. Qed.

(** C11 *)
Lemma circ_mean_cases alpha w :
  (circ_r alpha w <= / 100000000 /\ circ_mean alpha w = NaN) \/
  (/ 100000000 < circ_r alpha w /\ circ_mean alpha w = Fin (mean_dir (smp alpha w))).
Proof. apply circ_mean_s_cases. Qed.
Lemma circ_mean_defined alpha w m : circ_mean alpha w = Fin m ->
  / 100000000 < circ_r alpha w /\ m = mean_dir (smp alpha w).
Proof.
  intros E. destruct (circ_mean_cases alpha w) as [[H1 H2]|[H1 H2]]; rewrite E in H2;
    [discriminate|]. injection H2 as ->. auto.
Qed.
Lemma circ_mean_rot alpha w t : valid_sample alpha w ->
  (circ_mean alpha w = NaN -> circ_mean (map (fun a => a + t) alpha) w = NaN) /\
  (forall m, circ_mean alpha w = Fin m ->
     exists m', circ_mean (map (fun a => a + t) alpha) w = Fin m' /\
                0 <= m' < 2 * PI /\ same_dir m' (m + t)).
Proof.
  intros H. pose proof (api_rot t alpha w H) as Er.
  destruct (circ_mean_cases alpha w) as [[H1 H2]|[H1 H2]];
  destruct (circ_mean_cases (map (fun a => a + t) alpha) w) as [[H3 H4]|[H3 H4]];
  rewrite ?Er in *; try lra; split; try congruence; intros m Hm; rewrite H2 in Hm; try discriminate.
  injection Hm as <-. exists (angmod0 (mean_dir (smp alpha w) + t)). rewrite H4, smp_shift.
  rewrite mean_dir_rot.
  - split; [reflexivity|]. split; [apply angmod0_range|apply angmod0_same_dir].
  - apply smp_pos, H.
  - unfold circ_r in H1. fold (smp alpha w) in H1. lra.
Qed.
Lemma circ_mean_reflect alpha w : valid_sample alpha w ->
  (circ_mean alpha w = NaN -> circ_mean (map Ropp alpha) w = NaN) /\
  (forall m, circ_mean alpha w = Fin m ->
     exists m', circ_mean (map Ropp alpha) w = Fin m' /\
                0 <= m' < 2 * PI /\ same_dir m' (- m)).
Proof.
  intros H. pose proof (api_refl alpha w) as Er.
  destruct (circ_mean_cases alpha w) as [[H1 H2]|[H1 H2]];
  destruct (circ_mean_cases (map Ropp alpha) w) as [[H3 H4]|[H3 H4]];
  rewrite ?Er in *; try lra; split; try congruence; intros m Hm; rewrite H2 in Hm; try discriminate.
  injection Hm as <-. exists (angmod0 (- mean_dir (smp alpha w))). rewrite H4, smp_opp.
  rewrite mean_dir_refl.
  - split; [reflexivity|]. split; [apply angmod0_range|apply angmod0_same_dir].
  - apply smp_pos, H.
  - unfold circ_r in H1. fold (smp alpha w) in H1. lra.
Qed.
Lemma circ_mean_range alpha w m : circ_mean alpha w = Fin m -> 0 <= m < 2 * PI.
Proof. intros E. destruct (circ_mean_defined _ _ _ E) as [_ ->]. apply mean_dir_range. Qed.
Lemma circ_mean_invariant :
  (forall alpha alpha' w, turned alpha alpha' -> circ_mean alpha w = circ_mean alpha' w) /\
  (forall alpha w alpha' w', reordered alpha w alpha' w' -> circ_mean alpha w = circ_mean alpha' w') /\
  (forall alpha w c, 0 < c -> valid_sample alpha (Some w) ->
     circ_mean alpha (Some (map (fun x => c * x) w)) = circ_mean alpha (Some w)).
Proof.
  repeat split; intros; [now apply api_turned|now apply api_reordered|now apply api_scale].
Qed.

(** C12 *)
Lemma mean_r_pos alpha w m : circ_mean alpha w = Fin m -> 0 < circ_r_s (smp alpha w).
Proof.
  intros E. destruct (circ_mean_defined _ _ _ E) as [H _]. unfold circ_r in H.
  fold (smp alpha w) in H. lra.
Qed.
Lemma mean_balances alpha w m : valid_sample alpha w -> circ_mean alpha w = Fin m ->
  sample_sum (fun a => sin (a - m)) alpha w = 0 /\
  sample_sum (fun a => cos (a - m)) alpha w = circ_r alpha w * sample_size alpha w /\
  0 < sample_sum (fun a => cos (a - m)) alpha w.
Proof.
  intros H E. pose proof (mean_r_pos _ _ _ E) as Hr.
  destruct (circ_mean_defined _ _ _ E) as [_ ->].
  pose proof (smp_pos _ _ H) as Hw.
  destruct (mean_dir_polar _ Hw Hr) as (_ & _ & Hl).
  rewrite !sample_sum_eq, (proj_mean _ _ Hw Hr), (orth_mean _ _ Hw Hr), sample_size_eq.
  rewrite (Rminus_eq_0 (mean_dir (smp alpha w))), sin_0, cos_0. unfold circ_r. fold (smp alpha w).
  rewrite circ_r_s_eq by exact Hw. repeat split; [ring|field; lra|lra].
Qed.
Lemma mean_maximises alpha w m t : valid_sample alpha w -> circ_mean alpha w = Fin m ->
  sample_sum (fun a => cos (a - t)) alpha w <= sample_sum (fun a => cos (a - m)) alpha w /\
  (sample_sum (fun a => cos (a - t)) alpha w = sample_sum (fun a => cos (a - m)) alpha w ->
   same_dir t m).
Proof.
  intros H E. pose proof (mean_r_pos _ _ _ E) as Hr.
  destruct (circ_mean_defined _ _ _ E) as [_ ->].
  pose proof (smp_pos _ _ H) as Hw.
  destruct (mean_dir_polar _ Hw Hr) as (_ & _ & Hl).
  rewrite !sample_sum_eq, !(proj_mean _ _ Hw Hr), (Rminus_eq_0 (mean_dir (smp alpha w))), cos_0.
  pose proof (COS_bound (mean_dir (smp alpha w) - t)) as [_ B]. split; [nra|].
  intros Ec. apply Rmult_eq_reg_l in Ec; [|lra].
  destruct (cos_eq_1 _ Ec) as [k Hk]. exists (- k)%Z. rewrite opp_IZR. lra.
Qed.
Lemma wsum_angsep t alpha w :
  sample_sum (fun a => circ_dist AngSep a t) alpha w =
  sample_size alpha w - sample_sum (fun a => cos (a - t)) alpha w.
Proof.
  unfold sample_size. rewrite !sample_sum_eq, <- Rsum_map_minus. apply Rsum_map_ext.
  intros x _. simpl. unfold circ_dist_angsep. ring.
Qed.
Lemma mean_min_angsep alpha w m t : valid_sample alpha w -> circ_mean alpha w = Fin m ->
  sample_sum (fun a => circ_dist AngSep a m) alpha w <=
  sample_sum (fun a => circ_dist AngSep a t) alpha w.
Proof.
  intros H E. rewrite !wsum_angsep. destruct (mean_maximises _ _ _ t H E) as [B _]. lra.
Qed.

(** C13 *)
Lemma mean_agree alpha w :
  snd (circ_mean_and_r alpha w) = circ_r alpha w /\
  (circ_r alpha w <= / 1000000000000 \/ / 100000000 < circ_r alpha w ->
   fst (circ_mean_and_r alpha w) = circ_mean alpha w).
Proof.
  destruct (circ_mean_and_r_s_cases (smp alpha w)) as [[H1 H2]|[H1 H2]];
  destruct (circ_mean_cases alpha w) as [[H3 H4]|[H3 H4]];
  unfold circ_mean_and_r; fold (smp alpha w); rewrite H2; simpl; split; auto;
  intros H; rewrite H4; auto; unfold circ_r in *; fold (smp alpha w) in *; exfalso; lra.
Qed.
Lemma mean_disagree :
  exists alpha w, valid_sample alpha (Some w) /\
    circ_mean alpha (Some w) = NaN /\ fst (circ_mean_and_r alpha (Some w)) = Fin 0.
Proof.
  set (e := / 1000000000).
  exists [0; PI], [1 + e; 1 - e].
  assert (He : 0 < e < 1) by (unfold e; lra).
  assert (V : valid_sample [0; PI] (Some [1 + e; 1 - e])).
  { split; [discriminate|]. split; [reflexivity|]. split; [|simpl; lra].
    apply Forall_cons; [lra|]. apply Forall_cons; [lra|]. apply Forall_nil. }
  assert (EC : compute_C (smp [0; PI] (Some [1 + e; 1 - e])) 1 0 = e).
  { unfold compute_C, wtotal, smp. simpl. rewrite ?Rsum_cons, ?Rsum_nil, !Rminus_0_r, !Rmult_1_l, cos_0, cos_PI. field; lra. }
  assert (ES : compute_S (smp [0; PI] (Some [1 + e; 1 - e])) 1 0 = 0).
  { unfold compute_S, wtotal, smp. simpl. rewrite ?Rsum_cons, ?Rsum_nil, !Rminus_0_r, !Rmult_1_l, sin_0, sin_PI. field; lra. }
  assert (Er : circ_r_s (smp [0; PI] (Some [1 + e; 1 - e])) = e).
  { unfold circ_r_s. rewrite EC, ES. replace (e ^ 2 + 0 ^ 2) with (e * e) by ring.
    apply sqrt_square. lra. }
  split; [exact V|]. split.
  - destruct (circ_mean_cases [0; PI] (Some [1 + e; 1 - e])) as [[H1 H2]|[H1 H2]]; auto.
    unfold circ_r in H1. fold (smp [0; PI] (Some [1 + e; 1 - e])) in H1. rewrite Er in H1.
    unfold e in H1. lra.
  - destruct (circ_mean_and_r_s_cases (smp [0; PI] (Some [1 + e; 1 - e]))) as [[H1 H2]|[H1 H2]].
    + rewrite Er in H1. unfold e in H1. lra.
    + unfold circ_mean_and_r. fold (smp [0; PI] (Some [1 + e; 1 - e])). rewrite H2. simpl.
      unfold mean_dir. rewrite EC, ES. f_equal.
      replace (arctan2 0 e) with 0.
      * rewrite angmod0_eq. apply pymod_small; pose proof PI_pos; lra.
      * unfold arctan2. destruct (Rltb_spec 0 e); [|lra].
        unfold Rdiv. rewrite Rmult_0_l, atan_0. reflexivity.
Qed.
