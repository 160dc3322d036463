From Verif Require Import Prelude NpModel NpProofs CircleSpec UtilsModel UtilsProofs DescModel DescProofs
  DescSpec DescApi DescApi2 HypProofs HypMultiModel HypMulti2Model HypMultiSpec HypMultiProofs HypMulti7Proofs
  CorrSpec ClusModel ClusSpec ClusProofs Clus2Proofs Clus3Proofs Clus4Proofs Clus5Proofs Clus6Proofs.
From Coq Require Import Sorted.

(** * Silhouettes *)
Lemma mean_nonneg l : (forall x, In x l -> 0 <= x) -> 0 <= mean l.
Proof.
  intros H. unfold mean. pose proof (Rsum_nonneg l H) as P. destruct l as [|x l].
  - cbn. unfold Rdiv. rewrite Rmult_0_l. lra.
  - unfold Rdiv. apply Rmult_le_pos; auto. apply Rlt_le, Rinv_0_lt_compat, len_pos. discriminate.
Qed.
Lemma avg_nonneg m a ls x c : 0 <= avg_dist m a ls x c.
Proof. apply mean_nonneg. intros y H. apply in_map_iff in H. destruct H as (i & <- & _). apply Rabs_pos. Qed.
Lemma sil_a_nonneg m a ls x c : 0 <= sil_a m a ls x c.
Proof. unfold sil_a. destruct (Nat.ltb _ _); [apply avg_nonneg|lra]. Qed.
Lemma nuniq_in ls c : In c (nuniq ls) <-> In c ls.
Proof.
  unfold nuniq. rewrite filter_In, existsb_In, in_seq. split; [tauto|]. intros H. split; auto.
  assert (F : Forall (fun k => k <= list_max ls)%nat ls) by (apply list_max_le; lia).
  rewrite Forall_forall in F. specialize (F c H). lia.
Qed.
Lemma sil_fold m a ls x c l : forall b, (b = PInf \/ exists r, b = Fin r /\ 0 <= r) ->
  let b' := fold_left (fun b c' => if Nat.eqb c' c then b else let d := Fin (avg_dist m a ls x c') in if fllt d b then d else b) l b in
  (b' = PInf /\ b = PInf /\ forall c', In c' l -> c' = c) \/ exists r, b' = Fin r /\ 0 <= r /\ ((exists c', In c' l /\ c' <> c) \/ b = Fin r).
Proof.
  induction l as [|c0 l IH]; intros b Hb; cbn [fold_left]; cbv zeta.
  - destruct Hb as [->|(r & -> & Hr)]; [left; repeat split; easy|right; eauto].
  - destruct (Nat.eqb_spec c0 c) as [->|N].
    + specialize (IH b Hb). cbv zeta in IH. destruct IH as [(E1 & E2 & E3)|(r & E1 & E2 & E3)].
      * left. repeat split; auto. intros c' [<-|I]; auto.
      * right. exists r. repeat split; auto. destruct E3 as [(c' & I & Nc)|E3]; auto. left. exists c'. split; [right; auto|auto].
    + right. match goal with |- exists r, fold_left _ l ?b0 = _ /\ _ => assert (Hb' : b0 = PInf \/ exists r, b0 = Fin r /\ 0 <= r) end.
      { right. destruct Hb as [->|(r & -> & Hr)]; cbn [fllt].
        - exists (avg_dist m a ls x c0). split; auto. apply avg_nonneg.
        - destruct (Rltb (avg_dist m a ls x c0) r); [exists (avg_dist m a ls x c0); split; auto; apply avg_nonneg|eauto]. }
      specialize (IH _ Hb'). cbv zeta in IH. destruct IH as [(E1 & E2 & E3)|(r & E1 & E2 & E3)].
      * exfalso. destruct Hb as [->|(r & -> & Hr)]; cbn [fllt] in E2; [discriminate|]. destruct (Rltb _ r); discriminate.
      * exists r. repeat split; auto. left. exists c0. split; [left; auto|auto].
Qed.
Lemma sil_b_cases m a ls x c : (sil_b m a ls x c = PInf /\ forall c', In c' ls -> c' = c) \/
  (exists r, sil_b m a ls x c = Fin r /\ 0 <= r /\ exists c', In c' ls /\ c' <> c).
Proof.
  unfold sil_b. destruct (sil_fold m a ls x c (nuniq ls) PInf (or_introl eq_refl)) as [(E1 & _ & E3)|(r & E1 & E2 & [(c' & I & N)|E3])].
  - left. split; auto. intros c' I. apply E3. now apply nuniq_in.
  - right. exists r. repeat split; auto. exists c'. split; auto. now apply nuniq_in.
  - discriminate.
Qed.
Lemma sil_value_range a b : 0 <= a -> 0 <= b -> exists s, sil_value a (Fin b) = Fin s /\ -1 <= s <= 1.
Proof.
  intros Ha Hb. unfold sil_value. destruct (Rltb_spec 0 (Rmax a b)) as [H|H]; [|exists 0; split; auto; lra].
  eexists. split; [reflexivity|]. pose proof (Rmax_l a b). pose proof (Rmax_r a b).
  split; apply Rmult_le_reg_r with (Rmax a b); auto; unfold Rdiv; rewrite Rmult_assoc, Rinv_l by lra; lra.
Qed.
Lemma mean_range l lo hi : l <> [] -> (forall x, In x l -> lo <= x <= hi) -> lo <= mean l <= hi.
Proof.
  intros N H. pose proof (len_pos l N) as L. unfold mean.
  assert (A : lo * INR (length l) <= Rsum l).
  { rewrite <- (Rsum_map_const lo l). rewrite <- (map_id l) at 2. apply Rsum_map_le. intros; apply H; auto. }
  assert (B : Rsum l <= hi * INR (length l)).
  { rewrite <- (Rsum_map_const hi l). rewrite <- (map_id l) at 1. apply Rsum_map_le. intros; apply H; auto. }
  split; apply Rmult_le_reg_r with (INR (length l)); auto; unfold Rdiv; rewrite Rmult_assoc, Rinv_l by lra; lra.
Qed.
Lemma silhouette_ok m h : length (h_labels h) = length (h_alpha h) ->
  ((length (h_alpha h) < 2)%nat -> silhouette_score m h = Fin 0) /\
  ((2 <= length (h_alpha h))%nat -> (forall l l', In l (h_labels h) -> In l' (h_labels h) -> l = l') -> silhouette_score m h = NaN) /\
  (forall l l', In l (h_labels h) -> In l' (h_labels h) -> l <> l' -> exists s, silhouette_score m h = Fin s /\ -1 <= s <= 1).
Proof.
  intros L. unfold silhouette_score. split; [|split].
  - intros H. destruct (Nat.ltb_spec (length (h_alpha h)) 2); [auto|lia].
  - intros H U. destruct (Nat.ltb_spec (length (h_alpha h)) 2); [lia|].
    destruct (h_alpha h) as [|x a] eqn:Ea; [cbn in H; lia|]. destruct (h_labels h) as [|l ls] eqn:El; [discriminate|].
    cbn [combine map fst snd]. destruct (sil_b_cases m (x :: a) (l :: ls) x l) as [[E _]|(r & _ & _ & c' & I & N)].
    + rewrite E. cbn [sil_value]. unfold fmean. cbn [first_nan is_nan]. reflexivity.
    + exfalso. apply N. apply U; [auto|left; auto].
  - intros l l' Hl Hl' N. destruct (Nat.ltb_spec (length (h_alpha h)) 2); [exists 0; split; auto; lra|].
    set (vs := map _ _).
    assert (V : exists rs, vs = map Fin rs /\ forall r, In r rs -> -1 <= r <= 1).
    { assert (G : forall p, In p (combine (h_alpha h) (h_labels h)) -> exists r,
        sil_value (sil_a m (h_alpha h) (h_labels h) (fst p) (snd p)) (sil_b m (h_alpha h) (h_labels h) (fst p) (snd p)) = Fin r /\ -1 <= r <= 1).
      { intros [x c] I. cbn [fst snd]. destruct (sil_b_cases m (h_alpha h) (h_labels h) x c) as [[_ U]|(r & E & Hr & _)].
        - exfalso. apply N. rewrite (U l Hl), (U l' Hl'). reflexivity.
        - rewrite E. apply sil_value_range; auto. apply sil_a_nonneg. }
      subst vs. revert G. generalize (combine (h_alpha h) (h_labels h)). intros ps. generalize (h_alpha h) (h_labels h). intros al la.
      induction ps as [|p ps IH]; intros G; [exists []; split; easy|].
      destruct (G p (or_introl eq_refl)) as (r & E & Hr). destruct IH as (rs & E' & Hrs); [intros; apply G; right; auto|].
      exists (r :: rs). cbn [map]. rewrite E, E'. split; auto. intros r' [<-|I]; auto. }
    destruct V as (rs & E & Hr). assert (Nr : rs <> []).
    { intros ->. assert (Z : length vs = 0%nat) by (rewrite E; auto). subst vs. rewrite map_length, combine_length in Z. lia. }
    rewrite E. exists (mean rs). split; [|now apply mean_range].
    unfold fmean. rewrite (proj2 (first_nan_none (map Fin rs) 0)).
    + rewrite map_map. cbn [fval]. now rewrite map_id.
    + intros x Hx. apply in_map_iff in Hx. destruct Hx as (? & <- & _). discriminate.
Qed.

(** * predict lags behind labels_ *)
Lemma kloop_more m tol a : tol <= 0 -> forall it cs ls,
  km_loop m tol a (S it) cs ls =
  let st := km_loop m tol a it cs ls in let ls' := km_assign m a (fst st) in (km_update a (fst st) ls', ls').
Proof.
  intros Ht. assert (NB : forall c c', fllt (km_shift c c') (Fin tol) = false).
  { intros c c'. destruct (fllt (km_shift c c') (Fin tol)) eqn:E; auto. apply settled_shift in E. destruct E as (ds & F & S).
    exfalso. assert (P : 0 <= Rsum ds).
    { apply Rsum_nonneg. intros d Hd. clear -F Hd. induction F as [|p d0 ps ds (x & y & _ & A) F IH]; [easy|].
      destruct Hd as [<-|Hd]; auto. apply arc_eq in A. subst. apply angular_distance_range. }
    lra. }
  assert (ST : forall k cs ls, km_loop m tol a (S k) cs ls = km_loop m tol a k (km_update a cs (km_assign m a cs)) (km_assign m a cs)).
  { intros k cs ls. cbn [km_loop]. now rewrite NB. }
  induction it as [|k IH]; intros cs ls.
  - rewrite ST. reflexivity.
  - rewrite ST, IH, (ST k). reflexivity.
Qed.
Lemma predict_lag m b fc K it tol init X k k' : (1 <= K <= length X)%nat -> draw (length X) K init -> tol <= 0 ->
  km_fit m b fc K it tol init X = Ok k -> km_fit m b fc K (S it) tol init X = Ok k' ->
  km_predict m b fc K (Some k) X = Ok (km_labels k') /\
  (km_centers k' = km_centers k -> km_predict m b fc K (Some k') X = Ok (km_labels k')).
Proof.
  intros [H1 H2] D Ht. rewrite !km_fit_eq by auto. cbv zeta. rewrite kloop_more by auto. cbv zeta.
  set (a := in_radians b fc X). set (st := km_loop m tol a it _ _).
  intros E E'. injection E as <-. injection E' as <-. cbn [km_labels km_centers fst snd].
  assert (L : length (fst st) = K).
  { unfold st. destruct (loop_shape m tol a it (map (fun i => Fin (nth i a 0)) init) (repeat 0%nat (length X))) as [Q _].
    { apply (draw_ne (length X) K); auto. }
    rewrite Q, map_length. apply D. }
  assert (F : firstn K (fst st) = fst st) by (rewrite <- L; apply firstn_len).
  assert (G : km_predict m b fc K (Some {| km_centers := fst st; km_labels := snd st; km_inert := km_inertia m a (fst st) (snd st) |}) X = Ok (km_assign m a (fst st))).
  { unfold km_predict. cbn [km_centers]. rewrite L, Nat.ltb_irrefl. destruct (Nat.eqb_spec K 0); [lia|]. rewrite F. reflexivity. }
  split; [exact G|]. intros C. rewrite C. unfold km_predict in *. exact G.
Qed.
