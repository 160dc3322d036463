From Verif Require Import Prelude NpModel NpProofs CircleSpec UtilsModel UtilsProofs DescModel DescProofs
  DescSpec DescApi DescApi2 HypProofs HypMultiModel HypMulti2Model HypMultiSpec HypMultiProofs HypMulti7Proofs
  CorrSpec ClusModel ClusSpec ClusProofs Clus2Proofs Clus3Proofs Clus4Proofs Clus5Proofs Clus6Proofs Clus7Proofs.
From Coq Require Import Sorted.

(** * Concrete data *)
Lemma PI_gt3 : 3 < PI.
Proof. pose proof PI2_3_2; unfold PI2 in *; lra. Qed.
Lemma centre_single x : 0 <= x < 2 * PI -> centre [x] (Fin x).
Proof.
  intros H. right. rewrite resultant_one. cbn [length]. split; [simpl; lra|]. exists x. split; auto. split; auto. cbn. split; ring.
Qed.
Lemma mr_single x : 0 <= x < 2 * PI -> circ_mean_and_r [x] None = (Fin x, 1).
Proof.
  intros H. rewrite (surjective_pairing (circ_mean_and_r [x] None)). f_equal.
  - apply centre_is; [discriminate|now apply centre_single].
  - rewrite mr_snd. assert (N : [x] <> []) by discriminate. pose proof (circ_r_resultant [x] N) as E. rewrite resultant_one in E.
    cbn in E. lra.
Qed.
Lemma center_near x y : - PI < x - y <= PI -> circ_dist Center x y = x - y.
Proof.
  intros H. destruct (center_spec x y) as [A B]. apply (same_dir_unique_r (- PI)); auto; lra.
Qed.
Lemma geo_near x y : Rabs (x - y) <= PI -> circ_dist Geodesic x y = Rabs (x - y).
Proof.
  intros H. cbn [circ_dist]. unfold circ_dist_geodesic. rewrite (Rabs_right (PI - Rabs (x - y))); lra.
Qed.
Lemma arc_near x y : Rabs (x - y) <= PI -> is_arc_dist x y (Rabs (x - y)).
Proof. intros H. rewrite <- geo_near by auto. apply geodesic_spec. pose proof PI_pos. lra. Qed.
Lemma fllt_fin a b : fllt (Fin a) (Fin b) = Rltb a b.
Proof. reflexivity. Qed.

Ltac rabs := repeat match goal with |- context [Rabs ?x] => first [rewrite (Rabs_right x) by lra | rewrite (Rabs_left x) by lra] end.

(** [0, 1, 3] into two clusters with the signed metric: 0 and 3 are merged. *)
Definition x013 : list R := [0; 1; 3].
Lemma hac_center : exists h, hac_fit Center true 360 2 None [] x013 = Ok h /\
  h_merges h = [{| mg_a := 0; mg_b := 2; mg_dist := Fin 3; mg_size := 2 |}].
Proof.
  pose proof PI_gt3 as Hp. unfold hac_fit, x013. cbn [to_rad length Nat.leb hac_init bind].
  change (singletons 3) with [(0%nat, [0%nat]); (1%nat, [1%nat]); (2%nat, [2%nat])].
  cbn [length map fst list_max fold_right Nat.max hac_loop Nat.leb].
  unfold hac_means, take, at_. cbn [map nth fst snd]. rewrite !mr_single by lra. cbn [fst].
  cbn [scan scan_row fdist]. rewrite !center_near by lra.
  replace (0 - 1) with (-1) by ring. replace (0 - 3) with (-3) by ring. replace (1 - 3) with (-2) by ring.
  cbn [fst fllt]. rewrite (proj2 (Rltb_true (-3) (-1))) by lra. cbn [fst]. rewrite (proj2 (Rltb_false (-2) (-3))) by lra.
  eexists. split; [reflexivity|]. cbn [h_merges]. do 2 f_equal. cbn [flabs]. rabs. f_equal; try ring.
Qed.
Lemma closest_fails : exists h, hac_fit Center true 360 2 None [] x013 = Ok h /\
  ~ exists next final, history (closest_pair x013) next [(0, [0]); (1, [1]); (2, [2])]%nat (map row_of (h_merges h)) final.
Proof.
  pose proof PI_gt3 as Hp. destruct hac_center as (h & E & M). exists h. split; auto. intros (next & final & H). rewrite M in H.
  cbn in H. inversion H as [|? ? a A b B d rest rows st' P G H']; subst.
  match goal with E' : length (A ++ B) = 2%nat |- _ => rewrite E' in P, G; clear E' end.
  assert (EA : A = [0%nat]).
  { assert (I : In (0%nat, A) [(0, [0]); (1, [1]); (2, [2])]%nat) by (eapply Permutation_in; [apply Permutation_sym, P|left; auto]).
    cbn in I. destruct I as [I|[I|[I|[]]]]; injection I; intros; subst; auto; discriminate. }
  assert (EB : B = [2%nat]).
  { assert (I : In (2%nat, B) [(0, [0]); (1, [1]); (2, [2])]%nat) by (eapply Permutation_in; [apply Permutation_sym, P|right; left; auto]).
    cbn in I. destruct I as [I|[I|[I|[]]]]; injection I; intros; subst; auto; discriminate. }
  subst A B. destruct G as (x & y & e & Cx & Cy & Ae & G).
  assert (x = 0). { assert (F : Fin x = Fin 0); [|now injection F]. eapply centre_unique; [|exact Cx|apply centre_single; lra]. discriminate. }
  assert (y = 3). { assert (F : Fin y = Fin 3); [|now injection F]. eapply centre_unique; [|exact Cy|apply centre_single; lra]. discriminate. }
  subst x y. assert (e = 3).
  { apply arc_eq in Ae. rewrite <- (arc_eq _ _ _ (arc_near 0 3 ltac:(rabs; lra))) in Ae. rewrite Ae. rabs. ring. }
  subst e. assert (A1 : is_arc_dist 0 1 1). { replace 1 with (Rabs (0 - 1)) at 2 by (rabs; ring). apply arc_near. rabs. lra. }
  specialize (G (0, [0])%nat (1, [1])%nat [(2, [2])]%nat 0 1 1 (Permutation_refl _)).
  assert (3 <= 1); [|lra]. apply G; auto; apply centre_single; lra.
Qed.

(** The unsigned metric merges 0 and 1. *)
Lemma hac_geo : exists h, hac_fit Geodesic true 360 2 None [] x013 = Ok h /\ h_labels h = [1; 1; 0]%nat /\ h_alpha h = x013 /\
  h_merges h = [{| mg_a := 0; mg_b := 1; mg_dist := Fin 1; mg_size := 2 |}].
Proof.
  pose proof PI_gt3 as Hp. unfold hac_fit, x013. cbn [to_rad length Nat.leb hac_init bind].
  change (singletons 3) with [(0%nat, [0%nat]); (1%nat, [1%nat]); (2%nat, [2%nat])].
  cbn [length map fst list_max fold_right Nat.max hac_loop Nat.leb].
  unfold hac_means, take, at_. cbn [map nth fst snd]. rewrite !mr_single by lra. cbn [fst].
  cbn [scan scan_row fdist].
  replace (circ_dist Geodesic 0 1) with 1 by (rewrite geo_near; rabs; lra).
  replace (circ_dist Geodesic 0 3) with 3 by (rewrite geo_near; rabs; lra).
  replace (circ_dist Geodesic 1 3) with 2 by (rewrite geo_near; rabs; lra).
  cbn [fst fllt]. rewrite (proj2 (Rltb_false 3 1)) by lra. cbn [fst]. rewrite (proj2 (Rltb_false 2 1)) by lra.
  eexists. split; [reflexivity|]. cbn [h_merges h_labels h_alpha]. split; [reflexivity|]. split; [reflexivity|].
  do 2 f_equal. cbn [flabs]. rabs. f_equal; try ring.
Qed.
Lemma sil_value_fin a b : 0 < Rmax a b -> sil_value a (Fin b) = Fin ((b - a) / Rmax a b).
Proof. intros H. cbn. destruct (Rltb_spec 0 (Rmax a b)); [auto|lra]. Qed.
Lemma sil_geo : exists h, hac_fit Geodesic true 360 2 None [] x013 = Ok h /\ h_labels h = [1; 1; 0]%nat /\
  silhouette_score Geodesic h = Fin (31 / 36).
Proof.
  destruct hac_geo as (h & E & L & A & _). exists h. split; auto. split; auto.
  pose proof PI_gt3 as Hp. unfold silhouette_score. rewrite L, A. unfold x013. cbn [length Nat.ltb Nat.leb combine map fst snd].
  unfold sil_a, sil_b. change (nuniq [1; 1; 0]%nat) with [0; 1]%nat.
  change (where_label [1; 1; 0]%nat 1) with [0; 1]%nat. change (where_label [1; 1; 0]%nat 0) with [2]%nat.
  cbn [length Nat.ltb Nat.leb fold_left Nat.eqb]. unfold avg_dist.
  change (where_label [1; 1; 0]%nat 1) with [0; 1]%nat. change (where_label [1; 1; 0]%nat 0) with [2]%nat.
  cbn [map]. unfold at_. cbn [nth].
  assert (G : forall x y d, Rabs (x - y) = d -> d <= PI -> Rabs (circ_dist Geodesic x y) = d).
  { intros x y d <- H. rewrite geo_near by auto. apply Rabs_Rabsolu. }
  rewrite (G 0 0 0), (G 0 1 1), (G 1 0 1), (G 1 1 0), (G 3 0 3), (G 3 1 2), (G 0 3 3), (G 1 3 2) by (rabs; lra).
  cbn [fllt]. unfold mean. cbn [length Rsum fold_right INR].
  unfold fmean.
  assert (V1 : sil_value ((0 + (1 + 0)) / (1 + 1)) (Fin ((3 + 0) / 1)) = Fin (5 / 6)).
  { rewrite sil_value_fin; rewrite Rmax_right; try lra. f_equal. field. }
  assert (V2 : sil_value ((1 + (0 + 0)) / (1 + 1)) (Fin ((2 + 0) / 1)) = Fin (3 / 4)).
  { rewrite sil_value_fin; rewrite Rmax_right; try lra. f_equal. field. }
  assert (V3 : sil_value 0 (Fin ((3 + (2 + 0)) / (1 + 1))) = Fin 1).
  { rewrite sil_value_fin; rewrite Rmax_right; try lra. f_equal. field. }
  rewrite V1, V2, V3. cbn [first_nan is_nan map fval]. f_equal. unfold mean. cbn. field.
Qed.
Lemma sil_std : forall s0 s1 s2, silhouette_at (fun x y => Rabs (x - y)) x013 [1; 1; 0]%nat 0 s0 ->
  silhouette_at (fun x y => Rabs (x - y)) x013 [1; 1; 0]%nat 1 s1 -> silhouette_at (fun x y => Rabs (x - y)) x013 [1; 1; 0]%nat 2 s2 ->
  (s0 + s1 + s2) / 3 = 7 / 18.
Proof.
  assert (L1 : labelled x013 [1; 1; 0]%nat 1 = [0; 1]) by reflexivity.
  assert (L0 : labelled x013 [1; 1; 0]%nat 0 = [3]) by reflexivity.
  assert (G : forall x own other s a b, a = own -> b = other -> 0 <= a <= b -> 0 < b -> s * Rmax own other = other - own -> x = (b - a) / b -> s = x).
  { intros x own other s a b -> -> H H' E ->. rewrite Rmax_right in E by lra. apply Rmult_eq_reg_r with other; [|lra]. rewrite E. field. lra. }
  assert (Oth : forall l l' : nat, l' <> l -> In l' [1; 1; 0]%nat -> (l = 1%nat -> l' = 0%nat)) by (intros l l' N I ->; cbn in I; lia).
  intros s0 s1 s2 H0 H1 H2.
  assert (E0 : s0 = 2 / 3).
  { destruct H0 as (x & l & Ex & El & H0). injection Ex as <-. injection El as <-. cbv zeta in H0. rewrite L1 in H0. cbn [length] in H0.
    destruct H0 as [[Z _]|(_ & a & b & l' & Ha & Nl & Il & Hb & _ & Hs)]; [discriminate|].
    rewrite (Oth _ _ Nl Il eq_refl), L0 in Hb. cbn in Ha, Hb. revert Ha Hb. rabs. intros Ha Hb.
    apply (G (2/3) a b s0 1 3); auto; lra. }
  assert (E1 : s1 = 1 / 2).
  { destruct H1 as (x & l & Ex & El & H1). injection Ex as <-. injection El as <-. cbv zeta in H1. rewrite L1 in H1. cbn [length] in H1.
    destruct H1 as [[Z _]|(_ & a & b & l' & Ha & Nl & Il & Hb & _ & Hs)]; [discriminate|].
    rewrite (Oth _ _ Nl Il eq_refl), L0 in Hb. cbn in Ha, Hb. revert Ha Hb. rabs. intros Ha Hb.
    apply (G (1/2) a b s1 1 2); auto; lra. }
  assert (E2 : s2 = 0).
  { destruct H2 as (x & l & Ex & El & H2). injection Ex as <-. injection El as <-. cbv zeta in H2. rewrite L0 in H2. cbn [length] in H2.
    destruct H2 as [[_ Z]|(Z & _)]; [auto|lia]. }
  subst. field.
Qed.

(** Fewer initial clusters than clusters. *)
Lemma hac_few : exists h, hac_fit Geodesic true 360 2 (Some 1%nat) [0%nat] x013 = Ok h /\ length (h_centers h) = 1%nat /\ h_labels h = [0; 0; 0]%nat.
Proof.
  unfold hac_fit, x013. cbn [to_rad length Nat.leb]. unfold hac_init. cbn [length Nat.leb].
  destruct (km_fit Geodesic true 360 1 100 (/ 1000000) [0%nat] [0; 1; 3]) as [km|e] eqn:E.
  - assert (S : length (km_centers km) = 1%nat /\ length (km_labels km) = length [0; 1; 3] /\ Forall (fun l => l < 1)%nat (km_labels km)).
    { apply (km_shape Geodesic true 360 1 100 (/ 1000000) [0%nat]); auto; cbn; try lia.
      split; [reflexivity|]. split; [repeat constructor; auto|repeat constructor]. }
    destruct S as (_ & L & F). cbn [bind].
    assert (Z : km_labels km = [0; 0; 0]%nat).
    { destruct (km_labels km) as [|a [|b [|c [|d l]]]]; cbn in L; try lia.
      inversion F as [|? ? Fa F1]; subst. inversion F1 as [|? ? Fb F2]; subst. inversion F2 as [|? ? Fc F3]; subst.
      repeat f_equal; lia. }
    rewrite Z. change (map (fun c => (c, where_label [0; 0; 0]%nat c)) (seq 0 1)) with [(0, [0; 1; 2])]%nat.
    cbn [filter snd length Nat.eqb negb map fst list_max fold_right hac_loop Nat.leb]. eexists. split; [reflexivity|]. cbn. auto.
  - rewrite km_fit_eq in E by (cbn; lia). discriminate.
Qed.

(** Two opposite pairs: an undefined centre takes every point. *)
Definition x0pp : list R := [0; 0; PI; PI].
Lemma mr_balanced : fst (circ_mean_and_r (take x0pp [0; 1; 2; 3]%nat) None) = NaN.
Proof.
  apply centre_is; [discriminate|]. left. split; auto. cbn. unfold resultant. cbn. rewrite cos_0, sin_0, cos_PI, sin_PI.
  match goal with |- sqrt ?x <= _ => replace x with 0 by ring end. rewrite sqrt_0. lra.
Qed.
Lemma km_nan_loop m tol : forall it ls, (1 <= it)%nat -> km_loop m tol x0pp it [NaN; Fin 0] ls = ([NaN; Fin 0], [0; 0; 0; 0]%nat).
Proof.
  assert (A : km_assign m x0pp [NaN; Fin 0] = [0; 0; 0; 0]%nat) by reflexivity.
  assert (U : km_update x0pp [NaN; Fin 0] [0; 0; 0; 0]%nat = [NaN; Fin 0]).
  { unfold km_update. cbn [length seq combine map fst snd].
    change (where_label [0; 0; 0; 0]%nat 0) with [0; 1; 2; 3]%nat. change (where_label [0; 0; 0; 0]%nat 1) with (@nil nat).
    cbv iota. rewrite mr_balanced. reflexivity. }
  induction it as [|k IH]; intros ls H; [lia|]. cbn [km_loop]. rewrite A, U.
  change (fllt (km_shift [NaN; Fin 0] [NaN; Fin 0]) (Fin tol)) with false. cbv iota.
  destruct k as [|k]; [reflexivity|]. apply IH. lia.
Qed.
Lemma km_nan m it tol : (2 <= it)%nat -> exists k, km_fit m true 360 2 it tol [0; 1]%nat x0pp = Ok k /\
  km_centers k = [NaN; Fin 0] /\ km_labels k = [0; 0; 0; 0]%nat /\ km_inert k = NaN.
Proof.
  intros H. rewrite km_fit_eq by (cbn; lia). cbv zeta. cbn [in_radians length x0pp repeat map nth].
  fold x0pp. destruct it as [|it]; [lia|].
  assert (A : km_assign m x0pp [Fin 0; Fin 0] = [0; 0; 0; 0]%nat).
  { unfold km_assign, km_dists, x0pp. cbn [map fdist flabs].
    assert (G : forall d, fargmin [Fin d; Fin d] = 0%nat).
    { intros d. change [Fin d; Fin d] with (map Fin [d; d]). rewrite fargmin_fin by discriminate. cbn.
      destruct (Rltb_spec d d); [lra|reflexivity]. }
    rewrite !G. reflexivity. }
  assert (U : km_update x0pp [Fin 0; Fin 0] [0; 0; 0; 0]%nat = [NaN; Fin 0]).
  { unfold km_update. cbn [length seq combine map fst snd].
    change (where_label [0; 0; 0; 0]%nat 0) with [0; 1; 2; 3]%nat. change (where_label [0; 0; 0; 0]%nat 1) with (@nil nat).
    cbv iota. rewrite mr_balanced. reflexivity. }
  cbn [km_loop]. rewrite A, U. change (fllt (km_shift [Fin 0; Fin 0] [NaN; Fin 0]) (Fin tol)) with false. cbv iota.
  rewrite km_nan_loop by lia. eexists. split; [reflexivity|]. cbn [km_centers km_labels km_inert fst snd]. repeat split; auto.
Qed.

(** labels_ against predict, after one iteration. *)
Definition x3 : list R := [0; 9/10; 29/10].
Lemma cos1_half : 1 / 2 < cos 1.
Proof.
  pose proof PI_gt3. rewrite <- cos_PI3. apply cos_decreasing_1; lra.
Qed.
Lemma centre_mid a b : 0 <= (a + b) / 2 < 2 * PI -> 1 / 2 < cos ((a - b) / 2) -> centre [a; b] (Fin ((a + b) / 2)).
Proof.
  intros R1 H. set (c := (a + b) / 2) in *. set (d := (a - b) / 2) in *.
  assert (Ea : a = c + d) by (unfold c, d; field). assert (Eb : b = c - d) by (unfold c, d; field).
  assert (C : Rsum (map cos [a; b]) = 2 * cos d * cos c) by (rewrite Ea, Eb; cbn; rewrite cos_plus, cos_minus; ring).
  assert (S : Rsum (map sin [a; b]) = 2 * cos d * sin c) by (rewrite Ea, Eb; cbn; rewrite sin_plus, sin_minus; ring).
  assert (Rr : resultant [a; b] = 2 * cos d).
  { unfold resultant. rewrite C, S. pose proof (sin2_cos2 c) as P. unfold Rsqr in P.
    replace ((2 * cos d * cos c) ^ 2 + (2 * cos d * sin c) ^ 2) with ((2 * cos d) * (2 * cos d) * (sin c * sin c + cos c * cos c)) by ring.
    rewrite P, Rmult_1_r. apply sqrt_square. lra. }
  right. rewrite Rr, C, S. split; [simpl; lra|]. exists c. auto.
Qed.
Lemma km_lag : exists k ls, km_fit Geodesic true 360 2 1 (/ 1000000) [0; 1]%nat x3 = Ok k /\ km_labels k = [0; 1; 1]%nat /\
  km_predict Geodesic true 360 2 (Some k) x3 = Ok ls /\ ls = [0; 0; 1]%nat.
Proof.
  pose proof PI_gt3 as Hp. 
  assert (G : forall x y d, Rabs (x - y) = d -> d <= PI -> Rabs (circ_dist Geodesic x y) = d).
  { intros x y d <- H. rewrite geo_near by auto. apply Rabs_Rabsolu. }
  assert (AM : forall a b, argmin [a; b] = if Rltb b a then 1%nat else 0%nat) by (intros; reflexivity).
  assert (A : km_assign Geodesic x3 [Fin 0; Fin (9/10)] = [0; 1; 1]%nat).
  { unfold km_assign, km_dists, x3. cbn [map fdist flabs].
    rewrite (G 0 0 0), (G 0 (9/10) (9/10)), (G (9/10) 0 (9/10)), (G (9/10) (9/10) 0), (G (29/10) 0 (29/10)), (G (29/10) (9/10) 2) by (rabs; lra).
    assert (Q : forall a b, fargmin [Fin a; Fin b] = if Rltb b a then 1%nat else 0%nat).
    { intros a b. change [Fin a; Fin b] with (map Fin [a; b]). rewrite fargmin_fin by discriminate. apply AM. }
    rewrite !Q. rewrite (proj2 (Rltb_false (9/10) 0)), (proj2 (Rltb_true 0 (9/10))), (proj2 (Rltb_true 2 (29/10))) by lra. reflexivity. }
  assert (U : km_update x3 [Fin 0; Fin (9/10)] [0; 1; 1]%nat = [Fin 0; Fin (19/10)]).
  { unfold km_update. cbn [length seq combine map fst snd].
    change (where_label [0; 1; 1]%nat 0) with [0]%nat. change (where_label [0; 1; 1]%nat 1) with [1; 2]%nat.
    cbv iota. unfold take, at_, x3. cbn [map nth]. rewrite mr_single by lra. cbn [fst]. do 2 f_equal.
    rewrite (centre_is [9/10; 29/10] (Fin ((9/10 + 29/10) / 2))); [f_equal; field|discriminate|].
    apply centre_mid; [lra|]. replace ((9/10 - 29/10) / 2) with (- (1)) by field. rewrite cos_neg. apply cos1_half. }
  rewrite km_fit_eq by (cbn; lia). cbv zeta. cbn [in_radians length x3 repeat map nth].
  change (@Datatypes.cons R 0 _) with x3. cbn [km_loop]. rewrite A, U.
  assert (E : forall (b : bool) (p q : list fl * list nat), p = q -> (if b then p else q) = p) by (intros [] p q ->; auto).
  rewrite E by reflexivity. eexists. eexists. split; [reflexivity|]. split; [reflexivity|].
  split; [reflexivity|].
  cbn [fst km_centers firstn to_rad]. unfold km_assign, km_dists, x3. cbn [map fdist flabs].
  rewrite (G 0 0 0), (G 0 (19/10) (19/10)), (G (9/10) 0 (9/10)), (G (9/10) (19/10) 1), (G (29/10) 0 (29/10)), (G (29/10) (19/10) 1) by (rabs; lra).
  assert (Q : forall a b, fargmin [Fin a; Fin b] = if Rltb b a then 1%nat else 0%nat).
  { intros a b. change [Fin a; Fin b] with (map Fin [a; b]). rewrite fargmin_fin by discriminate. apply AM. }
  rewrite !Q. rewrite (proj2 (Rltb_false (19/10) 0)), (proj2 (Rltb_false 1 (9/10))), (proj2 (Rltb_true 1 (29/10))) by lra. reflexivity.
Qed.
