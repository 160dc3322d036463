From Verif Require Import Prelude NpModel NpProofs CircleSpec UtilsModel UtilsProofs DescModel DescProofs
  DescSpec DescApi DescApi2 HypProofs HypMultiModel HypMulti2Model HypMultiSpec HypMultiProofs HypMulti7Proofs
  ClusModel ClusSpec ClusProofs.
From Coq Require Import Sorted.

(** * Lists of clusters *)
Lemma SS_app l1 l2 : StronglySorted lt (l1 ++ l2) <->
  StronglySorted lt l1 /\ StronglySorted lt l2 /\ forall x y, In x l1 -> In y l2 -> (x < y)%nat.
Proof.
  induction l1 as [|a l1 IH]; cbn [app].
  - split; [intros H|intros (_ & H & _); auto]. split; [constructor|]. split; auto. easy.
  - split.
    + intros H. inversion H as [|? ? H1 H2]; subst. apply IH in H1. destruct H1 as (A1 & A2 & A3).
      rewrite Forall_app in H2. destruct H2 as [B1 B2]. split; [constructor; auto|]. split; auto.
      intros x y [<-|Hx] Hy; [|auto]. rewrite Forall_forall in B2. auto.
    + intros (A1 & A2 & A3). inversion A1 as [|? ? H1 H2]; subst. constructor.
      * apply IH. repeat split; auto. intros; apply A3; auto. right; auto.
      * apply Forall_app. split; auto. apply Forall_forall. intros y Hy. apply A3; auto. left; auto.
Qed.
Lemma SS_nodup l : StronglySorted lt l -> NoDup l.
Proof.
  induction 1 as [|a l H IH F]; constructor; auto. intros I. rewrite Forall_forall in F. specialize (F a I). lia.
Qed.
Lemma del_cons c p l : del c (p :: l) = if Nat.eqb (fst p) c then del c l else p :: del c l.
Proof. cbn. destruct (Nat.eqb (fst p) c); reflexivity. Qed.
Lemma del_notin c l : ~ In c (map fst l) -> del c l = l.
Proof.
  induction l as [|p l IH]; auto. cbn [map In]. intros H. rewrite del_cons. destruct (Nat.eqb_spec (fst p) c) as [E|E]; [tauto|].
  rewrite IH by tauto. reflexivity.
Qed.
Lemma del_app c l1 l2 : del c (l1 ++ l2) = del c l1 ++ del c l2.
Proof. apply filter_app. Qed.
Lemma lookup_in cl c A : NoDup (map fst cl) -> In (c, A) cl -> lookup cl c = A.
Proof.
  unfold lookup. induction cl as [|[d D] cl IH]; cbn; [easy|]. intros N I. inversion N as [|? ? N1 N2]; subst.
  destruct (Nat.eqb_spec d c) as [->|E].
  - destruct I as [I|I]; [now injection I|]. exfalso. apply N1. apply in_map_iff. exists (c, A). auto.
  - destruct I as [I|I]; [injection I; congruence|]. apply IH; auto.
Qed.
Lemma cut_pair l1 l2 l3 a A b B : NoDup (map fst (l1 ++ (a, A) :: l2 ++ (b, B) :: l3)) ->
  let cl := l1 ++ (a, A) :: l2 ++ (b, B) :: l3 in
  lookup cl a = A /\ lookup cl b = B /\ del b (del a cl) = l1 ++ l2 ++ l3.
Proof.
  intros N cl. split; [apply lookup_in; auto; apply in_or_app; right; left; auto|].
  split; [apply lookup_in; auto; apply in_or_app; right; right; apply in_or_app; right; left; auto|].
  unfold cl. rewrite !map_app in N. cbn [map fst] in N. rewrite map_app in N. cbn [map fst] in N.
  pose proof (NoDup_remove_2 _ _ _ N) as Na. rewrite app_comm_cons, app_assoc in N.
  pose proof (NoDup_remove_2 _ _ _ N) as Nb.
  rewrite !in_app_iff in Na. rewrite !in_app_iff in Nb. cbn [In] in Na, Nb.
  rewrite (del_app a), (del_cons a). cbn [fst]. rewrite Nat.eqb_refl, (del_app a), (del_cons a). cbn [fst].
  destruct (Nat.eqb_spec b a) as [E|E]; [subst b; tauto|].
  rewrite (del_notin a l1), (del_notin a l2), (del_notin a l3) by tauto.
  rewrite !del_app, del_cons. cbn [fst]. rewrite Nat.eqb_refl.
  rewrite (del_notin b l1), (del_notin b l2), (del_notin b l3) by tauto. reflexivity.
Qed.

(** * The merging loop *)
Definition wf (next : nat) (cl : clusters) : Prop :=
  StronglySorted lt (map fst cl) /\ Forall (fun c => snd c <> [] /\ (fst c < next)%nat) cl.
Definition row_of (r : merge) : mrow := (mg_a r, mg_b r, mg_dist r, mg_size r).

Lemma means_pairs m alpha cl q : In q (pairs (hac_means alpha cl)) -> exists C D,
  In (C, D) (pairs cl) /\ fst (fst q) = fst C /\ fst (snd q) = fst D /\
  qdist m q = fdist m (fst (circ_mean_and_r (take alpha (snd C)) None)) (fst (circ_mean_and_r (take alpha (snd D)) None)).
Proof.
  unfold hac_means. rewrite pairs_map, in_map_iff. intros ([C D] & <- & H). exists C, D. auto.
Qed.
Lemma means_pairs_in alpha cl C D : In (C, D) (pairs cl) ->
  In ((fst C, fst (circ_mean_and_r (take alpha (snd C)) None)), (fst D, fst (circ_mean_and_r (take alpha (snd D)) None))) (pairs (hac_means alpha cl)).
Proof. unfold hac_means. rewrite pairs_map, in_map_iff. intros H. exists (C, D). auto. Qed.
Lemma take_ne alpha A : A <> [] -> take alpha A <> [].
Proof. destruct A; [congruence|discriminate]. Qed.

(** The result of the scan, in terms of clusters. *)
Lemma scan_ok m alpha next cl : wf next cl ->
  match scan m (hac_means alpha cl) (PInf, None) with
  | (_, None) => stuck alpha cl
  | (d, Some (a, b)) => exists l1 A l2 B l3 x y, cl = l1 ++ (a, A) :: l2 ++ (b, B) :: l3 /\
      centre (angles_at alpha A) (Fin x) /\ centre (angles_at alpha B) (Fin y) /\ d = Fin (circ_dist m x y) /\
      forall C D u v, In (C, D) (pairs cl) -> centre (angles_at alpha (snd C)) (Fin u) -> centre (angles_at alpha (snd D)) (Fin v) ->
        circ_dist m x y <= circ_dist m u v
  end.
Proof.
  intros [_ W]. rewrite Forall_forall in W.
  assert (WP : forall C D, In (C, D) (pairs cl) -> snd C <> [] /\ snd D <> []).
  { intros C D H. apply pairs_split in H. destruct H as (l1 & l2 & l3 & ->). split.
    - apply (W C). apply in_or_app; right; left; auto.
    - apply (W D). apply in_or_app; right; right. apply in_or_app; right; left; auto. }
  assert (WM : forall C : nat * list nat, snd C <> [] -> forall z, centre (angles_at alpha (snd C)) z -> fst (circ_mean_and_r (take alpha (snd C)) None) = z).
  { intros C N z Hz. apply centre_is; auto. now apply take_ne. }
  assert (WC : forall C : nat * list nat, snd C <> [] -> centre (angles_at alpha (snd C)) (fst (circ_mean_and_r (take alpha (snd C)) None))).
  { intros C N. apply centre_mr. now apply take_ne. }
  rewrite scan_fold. destruct (scan_steps m (pairs (hac_means alpha cl)) (PInf, None)) as [[E H]|(q & I & E & L & H)]; rewrite E.
  - intros C D rest P. apply perm_pairs in P.
    assert (G : forall C D, In (C, D) (pairs cl) -> centre (angles_at alpha (snd C)) NaN \/ centre (angles_at alpha (snd D)) NaN).
    { clear C D P. intros C D P. destruct (WP _ _ P) as [N1 N2].
      specialize (H _ (means_pairs_in alpha cl C D P)). unfold qdist in H. cbn [fst snd] in H.
      pose proof (WC C N1) as K1. pose proof (WC D N2) as K2.
      destruct (fst (circ_mean_and_r (take alpha (snd C)) None)) eqn:E1; auto;
        try (destruct K1 as [[_ K1]|[_ (? & K1 & _)]]; discriminate).
      destruct (fst (circ_mean_and_r (take alpha (snd D)) None)) eqn:E2; auto;
        try (destruct K2 as [[_ K2]|[_ (? & K2 & _)]]; discriminate). }
    destruct P as [P|P]; apply G in P; tauto.
  - destruct (means_pairs m alpha cl q I) as ([a A] & [b B] & P & Ea & Eb & Eq). cbn [fst snd] in *.
    destruct (WP _ _ P) as [N1 N2]. cbn [fst snd] in *.
    pose proof (WC (a, A) N1) as K1. pose proof (WC (b, B) N2) as K2. cbn [snd] in K1, K2.
    rewrite Eq in L, H |- *. rewrite Ea, Eb.
    destruct (fst (circ_mean_and_r (take alpha A) None)) as [x| | |]; try discriminate.
    destruct (fst (circ_mean_and_r (take alpha B) None)) as [y| | |]; try discriminate.
    apply pairs_split in P. destruct P as (l1 & l2 & l3 & P).
    exists l1, A, l2, B, l3, x, y. repeat split; auto.
    intros C D u v Q Hu Hv. destruct (WP _ _ Q) as [M1 M2].
    specialize (H _ (means_pairs_in alpha cl C D Q)). unfold qdist in H. cbn [fst snd] in H.
    rewrite (WM C M1 _ Hu), (WM D M2 _ Hv) in H. cbn in H. now apply Rltb_false in H.
Qed.

Definition hac_good (m : metric) (alpha : list R) (st : forest) (A B : list nat) (d : fl) : Prop :=
  distance_of_centres m alpha st A B d /\ (m <> Center -> closest_pair alpha st A B d).
Lemma good_scan m alpha cl A B a b x y :
  (forall C D u v, In (C, D) (pairs cl) -> centre (angles_at alpha (snd C)) (Fin u) -> centre (angles_at alpha (snd D)) (Fin v) ->
        circ_dist m x y <= circ_dist m u v) ->
  centre (angles_at alpha A) (Fin x) -> centre (angles_at alpha B) (Fin y) ->
  forall st, Permutation st cl -> In ((a, A), (b, B)) (pairs cl) -> hac_good m alpha st A B (Fin (Rabs (circ_dist m x y))).
Proof.
  intros H Hx Hy st P I.
  assert (RG : forall g h u v, centre g (Fin u) -> centre h (Fin v) -> Rabs (u - v) <= 2 * PI).
  { intros g h u v U V. apply centre_fin_range in U, V. apply Rabs_le. lra. }
  split.
  - exists x, y, (angular_distance x y). split; auto. split; auto. split; [apply angular_distance_arc|].
    f_equal. apply metric_measured. right. eapply RG; eauto.
  - intros Hm. exists x, y, (angular_distance x y). split; auto. split; auto. split; [apply angular_distance_arc|].
    assert (G : forall C D u v, In (C, D) (pairs cl) -> centre (angles_at alpha (snd C)) (Fin u) -> centre (angles_at alpha (snd D)) (Fin v) ->
      angular_distance x y <= angular_distance u v).
    { intros C D u v Q Hu Hv. specialize (H C D u v Q Hu Hv).
      rewrite <- (metric_abs_nonneg m x y), <- (metric_abs_nonneg m u v) in H by (auto; eapply RG; eauto).
      rewrite !metric_measured in H by (right; eapply RG; eauto).
      eapply measured_le; eauto using angular_distance_range. }
    intros C D rest u v e' Q Hu Hv He. apply arc_eq in He. subst e'.
    assert (Q' : Permutation cl (C :: D :: rest)) by (eapply Permutation_trans; [apply Permutation_sym, P|exact Q]).
    apply perm_pairs in Q'. destruct Q' as [Q'|Q'].
    + eapply G; eauto.
    + rewrite (angular_distance_sym u v). eapply G; eauto.
Qed.

Lemma loop_ok m alpha k : forall fuel cl next cl' ms, (1 <= k)%nat ->
  wf next cl -> (length cl <= fuel)%nat -> hac_loop m alpha k fuel cl next = (cl', ms) ->
  (forall st, Permutation st cl -> history (hac_good m alpha) next st (map row_of ms) cl') /\
  wf (next + length ms) cl' /\
  (length cl' + length ms = length cl)%nat /\
  Permutation (concat (map snd cl')) (concat (map snd cl)) /\
  ((length cl' = Nat.min (length cl) k)%nat \/ ((k < length cl')%nat /\ stuck alpha cl')).
Proof.
  induction fuel as [|fuel IH]; intros cl next cl' ms Hk W L H; cbn [hac_loop] in H.
  - injection H as <- <-. destruct cl; [|cbn in L; lia]. cbn. rewrite Nat.add_0_r. repeat split; auto; try apply W.
    intros st P. constructor. auto.
  - destruct (Nat.leb_spec (length cl) k) as [Lk|Lk].
    + injection H as <- <-. cbn. rewrite !Nat.add_0_r. repeat split; auto; try apply W.
      * intros st P. constructor. auto.
      * left. lia.
    + pose proof (scan_ok m alpha next cl W) as SC.
      destruct (scan m (hac_means alpha cl) (PInf, None)) as [d [[a b]|]].
      * destruct SC as (l1 & A & l2 & B & l3 & x & y & E & Cx & Cy & -> & SC).
        assert (ND : NoDup (map fst cl)) by (apply SS_nodup, W).
        rewrite E in ND. destruct (cut_pair l1 l2 l3 a A b B ND) as (La & Lb & Ld).
        rewrite <- E in La, Lb, Ld, ND. rewrite La, Lb, Ld in H.
        destruct (hac_loop m alpha k fuel ((l1 ++ l2 ++ l3) ++ [(next, A ++ B)]) (S next)) as [cl'' ms'] eqn:F.
        injection H as <- <-.
        assert (PM : Permutation cl ((a, A) :: (b, B) :: (l1 ++ l2 ++ l3))).
        { rewrite E. eapply Permutation_trans; [apply Permutation_sym, Permutation_middle|]. apply perm_skip.
          rewrite app_assoc. eapply Permutation_trans; [apply Permutation_sym, Permutation_middle|].
          rewrite <- app_assoc. apply Permutation_refl. }
        assert (W' : wf (S next) ((l1 ++ l2 ++ l3) ++ [(next, A ++ B)])).
        { destruct W as [W1 W2]. rewrite E in W1, W2. split.
          - rewrite map_app. rewrite !map_app in *. cbn [map fst] in *. rewrite map_app in W1. cbn [map fst] in W1.
            apply SS_app in W1. destruct W1 as (A1 & A2 & A3). inversion A2 as [|? ? A4 A5]; subst.
            apply SS_app in A4. destruct A4 as (B1 & B2 & B3). inversion B2 as [|? ? B4 B5]; subst.
            apply SS_app. split.
            + apply SS_app. split; auto. split.
              * apply SS_app. split; auto. split; auto. intros; apply B3; auto. right; auto.
              * intros u v Hu Hv. apply A3; auto. right. apply in_or_app. apply in_app_or in Hv. destruct Hv; auto. right; right; auto.
            + split; [constructor; constructor|]. intros u v Hu [<-|[]].
              rewrite <- !map_app in Hu. apply in_map_iff in Hu. destruct Hu as (c & <- & Hc).
              rewrite Forall_forall in W2. apply W2. apply in_app_or in Hc. apply in_or_app.
              destruct Hc as [Hc|Hc]; auto. right; right. apply in_app_or in Hc. apply in_or_app. destruct Hc; auto. right; right; auto.
          - rewrite !Forall_app in *. destruct W2 as [A1 A2]. inversion A2 as [|? ? A3 A4]; subst.
            rewrite Forall_app in A4. destruct A4 as [A4 A5]. inversion A5 as [|? ? A6 A7]; subst. cbn [fst snd] in *.
            repeat split; try (eapply Forall_impl; [|eassumption]; intros c [N ?]; split; auto; fail).
            constructor; [|constructor]. cbn. split; [|lia]. destruct A3 as [A3 _]. intros Z. apply app_eq_nil in Z. tauto. }
        assert (LE : length cl = S (length ((l1 ++ l2 ++ l3) ++ [(next, A ++ B)]))).
        { apply Permutation_length in PM. rewrite PM, (app_length (l1 ++ l2 ++ l3)). cbn. lia. }
        destruct (IH _ _ _ _ Hk W' ltac:(lia) F) as (H1 & H2 & H3 & H4 & H5). split; [|split; [|split; [|split]]].
        { intros st P. cbn [map]. unfold row_of at 1. cbn [mg_a mg_b mg_dist mg_size flabs].
          apply h_join with (rest := l1 ++ l2 ++ l3).
          - eapply Permutation_trans; eauto.
          - apply (good_scan m alpha cl A B a b x y SC Cx Cy st P). apply pairs_split. eauto.
          - apply H1. apply Permutation_cons_append. }
        { cbn [length]. replace (next + S (length ms'))%nat with (S next + length ms')%nat by lia. exact H2. }
        { cbn [length]. lia. }
        { eapply Permutation_trans; [exact H4|]. rewrite map_app, concat_app. cbn [map concat snd]. rewrite app_nil_r.
          rewrite E, !map_app. cbn [map snd]. rewrite !map_app. cbn [map snd]. rewrite !concat_app. cbn [concat]. rewrite !concat_app. cbn [concat].
          set (c1 := concat (map snd l1)). set (c2 := concat (map snd l2)). set (c3 := concat (map snd l3)).
          rewrite <- !app_assoc. apply Permutation_app_head.
          eapply Permutation_trans with (A ++ B ++ c2 ++ c3).
          - rewrite (app_assoc c2 c3), (app_assoc A B), (app_assoc (A ++ B) c2 c3), <- (app_assoc (A ++ B) c2 c3).
            apply Permutation_app_comm.
          - apply Permutation_app_head. rewrite !app_assoc. apply Permutation_app_tail. apply Permutation_app_comm. }
        { destruct H5 as [H5|H5]; auto. left. lia. }
      * injection H as <- <-. cbn. rewrite !Nat.add_0_r. repeat split; auto; try apply W.
        intros st P. constructor. auto.
Qed.
