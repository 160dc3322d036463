From Verif Require Import Prelude NpModel NpProofs CircleSpec UtilsModel UtilsProofs DescModel DescProofs
  DescSpec DescApi DescApi2 HypProofs HypMultiModel HypMulti2Model HypMultiSpec HypMultiProofs HypMulti7Proofs
  ClusModel ClusSpec ClusProofs Clus2Proofs Clus3Proofs Clus4Proofs.
From Coq Require Import Sorted.

(** * Labels of CircHAC *)
Lemma filter_len {A} (p : A -> bool) l : (length (filter p l) <= length l)%nat.
Proof. induction l as [|x l IH]; cbn; auto. destruct (p x); cbn; lia. Qed.
Lemma NoDup_app_r {A} (l l' : list A) : NoDup (l ++ l') -> NoDup l'.
Proof. induction l as [|x l IH]; auto. cbn [app]. intros H. inversion H; auto. Qed.
Lemma set_labels_nth ls idx v i : nth_error (set_labels ls idx v) i =
  match nth_error ls i with Some o => Some (if existsb (Nat.eqb i) idx then v else o) | None => None end.
Proof.
  unfold set_labels. rewrite nth_error_map, nth_error_enum. destruct (nth_error ls i); reflexivity.
Qed.
Lemma set_labels_length ls idx v : length (set_labels ls idx v) = length ls.
Proof. unfold set_labels. rewrite map_length. apply enum_length. Qed.
Lemma existsb_In i idx : existsb (Nat.eqb i) idx = true <-> In i idx.
Proof.
  rewrite existsb_exists. split.
  - intros (x & H & E). apply Nat.eqb_eq in E. now subst.
  - intros H. exists i. split; auto. apply Nat.eqb_refl.
Qed.
Definition lab_fold (k : nat) (cl : clusters) (ls : list nat) : list nat :=
  fold_left (fun ls p => set_labels ls (snd (snd p)) (fst p)) (combine (seq k (length cl)) cl) ls.
Lemma lab_fold_cons k c cl ls : lab_fold k (c :: cl) ls = lab_fold (S k) cl (set_labels ls (snd c) k).
Proof. reflexivity. Qed.
Lemma lab_fold_length cl : forall k ls, length (lab_fold k cl ls) = length ls.
Proof. induction cl as [|c cl IH]; intros k ls; [reflexivity|]. rewrite lab_fold_cons, IH. apply set_labels_length. Qed.
Lemma lab_fold_out cl i : forall k ls, ~ In i (concat (map snd cl)) -> nth_error (lab_fold k cl ls) i = nth_error ls i.
Proof.
  induction cl as [|c cl IH]; intros k ls H; [reflexivity|]. cbn [map concat] in H. rewrite in_app_iff in H.
  rewrite lab_fold_cons, IH, set_labels_nth by tauto. destruct (nth_error ls i); auto.
  destruct (existsb (Nat.eqb i) (snd c)) eqn:E; auto. apply existsb_In in E. tauto.
Qed.
Lemma lab_fold_in cl i : forall k ls l c, NoDup (concat (map snd cl)) -> (i < length ls)%nat ->
  nth_error cl l = Some c -> In i (snd c) -> nth_error (lab_fold k cl ls) i = Some (k + l)%nat.
Proof.
  induction cl as [|c0 cl IH]; intros k ls l c N L E I; [destruct l; discriminate|].
  cbn [map concat] in N. rewrite lab_fold_cons. destruct l as [|l]; cbn [nth_error] in E.
  - injection E as ->. rewrite lab_fold_out.
    + rewrite set_labels_nth. destruct (nth_error ls i) eqn:F; [|apply nth_error_None in F; lia].
      rewrite (proj2 (existsb_In i (snd c))) by auto. f_equal. lia.
    + intros Z. clear -N I Z. apply in_split in I. destruct I as (u & v & E). rewrite E, <- app_assoc in N. cbn [app] in N.
      apply NoDup_remove_2 in N. apply N. rewrite !in_app_iff. auto.
  - rewrite (IH (S k) (set_labels ls (snd c0) k) l c); auto.
    + f_equal. lia.
    + apply NoDup_app_r in N. auto.
    + now rewrite set_labels_length.
Qed.
Lemma hac_labels_ok n cl : Permutation (concat (map snd cl)) (seq 0 n) -> labels_of cl n (hac_labels n cl).
Proof.
  intros P. assert (N : NoDup (concat (map snd cl))) by (eapply Permutation_NoDup; [apply Permutation_sym, P|apply seq_NoDup]).
  assert (EQ : hac_labels n cl = lab_fold 0 cl (repeat 0%nat n)) by reflexivity. rewrite EQ.
  split; [rewrite lab_fold_length; apply repeat_length|]. intros i l Hi.
  assert (Hr : (i < length (repeat 0%nat n))%nat) by (rewrite repeat_length; auto).
  split.
  - intros E. assert (Ic : In i (concat (map snd cl))) by (eapply Permutation_in; [apply Permutation_sym, P|apply in_seq; lia]).
    rewrite <- flat_map_concat_map in Ic. apply in_flat_map in Ic. destruct Ic as (c & Hc & Ic).
    apply In_nth_error in Hc. destruct Hc as [l' Hc].
    rewrite (lab_fold_in cl i 0 _ l' c N Hr Hc Ic) in E. injection E as <-. eauto.
  - intros (c & Hc & I). now rewrite (lab_fold_in cl i 0 _ l c N Hr Hc I).
Qed.
Lemma labels_used cl n ls : labels_of cl n ls -> Forall (fun c => snd c <> []) cl -> Forall (Forall (fun i => i < n)%nat) (map snd cl) ->
  forall l, In l ls <-> (l < length cl)%nat.
Proof.
  intros [L H] NE V l. split.
  - intros I. apply In_nth_error in I. destruct I as [i E]. assert (Hi : (i < n)%nat) by (rewrite <- L; apply nth_error_Some; congruence).
    apply H in E; auto. destruct E as (c & E & _). apply nth_error_Some. congruence.
  - intros Hl. destruct (nth_error cl l) as [c|] eqn:E; [|apply nth_error_None in E; lia].
    assert (Ic : In c cl) by (eapply nth_error_In; eauto).
    rewrite Forall_forall in NE, V. destruct (snd c) as [|i w] eqn:Ew; [exfalso; eapply NE; eauto|].
    assert (Hi : (i < n)%nat). { assert (F := V (snd c) (in_map snd _ _ Ic)). rewrite Ew in F. now inversion F. }
    apply (nth_error_In ls i). apply H; auto. exists c. split; auto. rewrite Ew. left; auto.
Qed.

(** * The initial clusters *)
Lemma SS_seq k : forall n, StronglySorted lt (seq n k).
Proof.
  induction k as [|k IH]; intros n; cbn [seq]; constructor; auto. apply Forall_forall. intros x H. apply in_seq in H. lia.
Qed.
Lemma SS_filter (p : nat * list nat -> bool) l : StronglySorted lt (map fst l) -> StronglySorted lt (map fst (filter p l)).
Proof.
  induction l as [|x l IH]; cbn [map filter]; auto. intros H. inversion H as [|? ? H1 H2]; subst.
  destruct (p x); auto. cbn [map]. constructor; auto. rewrite Forall_forall in *. intros y Hy. apply H2.
  apply in_map_iff in Hy. destruct Hy as (z & <- & Hz). apply in_map. apply filter_In in Hz. tauto.
Qed.
Lemma concat_filter_ne (l : clusters) : concat (map snd (filter (fun p => negb (Nat.eqb (length (snd p)) 0)) l)) = concat (map snd l).
Proof.
  induction l as [|[c A] l IH]; auto. cbn [filter map snd concat]. destruct A as [|i A]; cbn [length Nat.eqb negb]; [exact IH|].
  cbn [map snd concat]. now rewrite IH.
Qed.
Lemma max_lt (l : list nat) : Forall (fun x => x < S (list_max l))%nat l.
Proof. apply Forall_impl with (fun x => x <= list_max l)%nat; [intros; lia|]. apply list_max_le. lia. Qed.
Lemma wf_next cl : StronglySorted lt (map fst cl) -> Forall (fun c => snd c <> []) cl -> wf (S (list_max (map fst cl))) cl.
Proof.
  intros H F. split; auto. pose proof (max_lt (map fst cl)) as M. rewrite Forall_map in M. rewrite Forall_forall in *. auto.
Qed.
Lemma singletons_ok n : StronglySorted lt (map fst (singletons n)) /\ Forall (fun c => snd c <> []) (singletons n) /\
  concat (map snd (singletons n)) = seq 0 n /\ length (singletons n) = n.
Proof.
  unfold singletons. rewrite !map_map, map_length, seq_length. cbn [fst snd]. rewrite map_id. repeat split; auto.
  - apply SS_seq.
  - apply Forall_forall. intros c H. apply in_map_iff in H. destruct H as (i & <- & _). discriminate.
  - generalize (seq 0 n). induction l as [|x l IH]; cbn; auto. now rewrite IH.
Qed.
Lemma init_ok m ni seed alpha cl : match ni with Some k => (1 <= k)%nat /\ ((k < length alpha)%nat -> draw (length alpha) k seed) | None => True end ->
  alpha <> [] -> hac_init m ni seed alpha = Ok cl ->
  StronglySorted lt (map fst cl) /\ Forall (fun c => snd c <> []) cl /\ Permutation (concat (map snd cl)) (seq 0 (length alpha)) /\ cl <> [] /\
  match ni with
  | Some k => if Nat.leb (length alpha) k then cl = singletons (length alpha) else (length cl <= k)%nat
  | None => cl = singletons (length alpha)
  end.
Proof.
  intros A N. assert (Hn : (1 <= length alpha)%nat) by (destruct alpha; [congruence|cbn; lia]).
  assert (SI : forall cl, cl = singletons (length alpha) ->
    StronglySorted lt (map fst cl) /\ Forall (fun c => snd c <> []) cl /\ Permutation (concat (map snd cl)) (seq 0 (length alpha)) /\ cl <> [] /\ cl = singletons (length alpha)).
  { intros c ->. destruct (singletons_ok (length alpha)) as (A1 & A2 & A3 & A4). rewrite A3. repeat split; auto.
    intros Z. rewrite Z in A4. cbn in A4. lia. }
  unfold hac_init. destruct ni as [k|]; [|intros E; injection E as <-; apply SI; auto].
  destruct A as [Hk D]. destruct (Nat.leb_spec (length alpha) k) as [H|H]; [intros E; injection E as <-; apply SI; auto|].
  destruct (km_fit m true 360 k 100 (/ 1000000) seed alpha) as [km|e] eqn:E; [|discriminate]. cbn [bind].
  destruct (km_shape m true 360 k 100 (/ 1000000) seed alpha km) as (S1 & S2 & S3); auto; try lia.
  set (l := map (fun c => (c, where_label (km_labels km) c)) (seq 0 k)).
  set (cl0 := filter (fun p => negb (Nat.eqb (length (snd p)) 0)) l).
  assert (P : Permutation (concat (map snd cl0)) (seq 0 (length alpha))).
  { unfold cl0. rewrite concat_filter_ne. unfold l. rewrite map_map. cbn [snd]. rewrite <- S2. now apply where_perm. }
  assert (G : StronglySorted lt (map fst cl0) /\ Forall (fun c => snd c <> []) cl0 /\ Permutation (concat (map snd cl0)) (seq 0 (length alpha)) /\ cl0 <> [] /\ (length cl0 <= k)%nat).
  { split; [|split; [|split; [exact P|split]]].
    - apply SS_filter. unfold l. rewrite map_map. cbn [fst]. rewrite map_id. apply SS_seq.
    - apply Forall_forall. intros c Hc. apply filter_In in Hc. destruct Hc as [_ Hc]. intros Z. rewrite Z in Hc. discriminate.
    - intros Z. rewrite Z in P. cbn in P. apply Permutation_nil in P. destruct (length alpha); [lia|discriminate].
    - unfold cl0. etransitivity; [apply filter_len|]. unfold l. now rewrite map_length, seq_length. }
  clearbody cl0. destruct cl0 as [|c cl1].
  - destruct G as (_ & _ & _ & Z & _). congruence.
  - intros F. injection F as <-. exact G.
Qed.

(** * CircHAC.fit *)
Lemma perm_valid n (cl : forest) : Permutation (concat (map snd cl)) (seq 0 n) -> Forall (Forall (fun i => i < n)%nat) (map snd cl).
Proof.
  intros P. apply Forall_forall. intros A HA. apply Forall_forall. intros i Hi.
  assert (I : In i (seq 0 n)).
  { eapply Permutation_in; [exact P|]. apply in_concat. eauto. }
  apply in_seq in I. lia.
Qed.
Lemma history_weaken (g g' : forest -> list nat -> list nat -> fl -> Prop) next st rows st' :
  (forall s A B d, g s A B d -> g' s A B d) -> history g next st rows st' -> history g' next st rows st'.
Proof. intros H. induction 1; [constructor; auto|]. econstructor; eauto. Qed.
Definition hac_result (m : metric) (alpha : list R) (n_clusters : nat) (n_init : option nat) (h : hac) : Prop :=
  exists init next final,
    splits (length alpha) next init /\
    match n_init with
    | Some k => if Nat.leb (length alpha) k then init = map (fun i => (i, [i])) (seq 0 (length alpha))
                else if Nat.leb (length alpha) n_clusters then True else (length init <= k)%nat
    | None => init = map (fun i => (i, [i])) (seq 0 (length alpha))
    end /\
    history (hac_good m alpha) next init (map row_of (h_merges h)) final /\
    splits (length alpha) (next + length (h_merges h)) final /\ StronglySorted lt (map fst final) /\
    labels_of final (length alpha) (h_labels h) /\
    (length final + length (h_merges h) = length init)%nat /\
    (length final = Nat.min (length init) n_clusters \/ ((n_clusters < length final)%nat /\ stuck alpha final)) /\
    ((n_clusters < length alpha)%nat -> Forall2 (fun c x => centre (angles_at alpha (snd c)) x) final (h_centers h)) /\
    ((length alpha <= n_clusters)%nat -> h_centers h = map Fin alpha /\ init = map (fun i => (i, [i])) (seq 0 (length alpha))) /\
    Forall2 (fun c r => r * INR (length (snd c)) = resultant (angles_at alpha (snd c))) final (h_r h).
Lemma Forall2_map_r {A B} (P : A -> B -> Prop) (f : A -> B) l : (forall x, In x l -> P x (f x)) -> Forall2 P l (map f l).
Proof. induction l as [|x l IH]; intros H; cbn [map]; constructor; [apply H; left; auto|apply IH; intros; apply H; right; auto]. Qed.
Lemma resultant_one a : resultant [a] = 1.
Proof.
  unfold resultant. cbn. pose proof (sin2_cos2 a) as P. unfold Rsqr in P.
  match goal with |- sqrt ?x = 1 => replace x with 1 by lra end. apply sqrt_1.
Qed.
Lemma hac_fit_ok m b fc K ni seed X h : hac_args_ok K ni -> seed_ok (length X) ni seed ->
  hac_fit m b fc K ni seed X = Ok h ->
  h_alpha h = in_radians b fc X /\ hac_result m (in_radians b fc X) K ni h.
Proof.
  intros [HK Hi] Hs. unfold hac_fit. destruct X as [|x X]; [discriminate|]. rewrite to_rad_in.
  assert (LN : length (in_radians b fc (x :: X)) = length (x :: X)) by apply in_radians_length.
  rewrite <- LN in Hs. set (alpha := in_radians b fc (x :: X)) in *.
  assert (N : alpha <> []) by (intros Z; rewrite Z in LN; discriminate). clearbody alpha. clear LN x X.
  set (n := length alpha) in *.
  destruct (Nat.leb_spec n K) as [L|L].
  - intros E. injection E as <-. cbn [h_alpha]. split; auto.
    destruct (singletons_ok n) as (A1 & A2 & A3 & A4).
    exists (singletons n), (S (list_max (map fst (singletons n)))), (singletons n).
    cbn [h_merges h_labels h_centers h_r map length]. fold n.
    assert (SP : forall k, splits n (S (list_max (map fst (singletons n))) + k) (singletons n)).
    { intros k. split; [|split].
      - destruct (wf_next (singletons n) A1 A2) as [_ W]. eapply Forall_impl; [|exact W]. intros c [Z1 Z2]. split; auto. lia.
      - now apply SS_nodup.
      - rewrite A3. apply Permutation_refl. }
    split; [specialize (SP 0%nat); rewrite Nat.add_0_r in SP; exact SP|].
    split; [destruct ni as [k|]; [destruct (Nat.leb n k); [reflexivity|]|reflexivity]; destruct (Nat.leb_spec n K); [auto|lia]|].
    split; [constructor; apply Permutation_refl|]. split; [apply SP|]. split; [exact A1|]. split.
    { split; [apply seq_length|]. intros i l Hl. unfold singletons. rewrite nth_error_map. split.
      - intros E. exists (l, [l]). assert (E' : nth_error (seq 0 n) i = Some i) by (rewrite (nth_error_nth' _ 0%nat) by (rewrite seq_length; auto); f_equal; rewrite seq_nth; auto).
        rewrite E' in E. injection E as <-. rewrite E'. cbn. auto.
      - intros (c & E & I). destruct (nth_error (seq 0 n) l) as [z|] eqn:F; [|discriminate]. injection E as <-. destruct I as [<-|[]].
        assert (Hl' : (l < n)%nat) by (rewrite <- (seq_length n 0); apply nth_error_Some; congruence).
        assert (E' : nth_error (seq 0 n) l = Some l) by (rewrite (nth_error_nth' _ 0%nat) by (rewrite seq_length; auto); f_equal; rewrite seq_nth; auto).
        rewrite E' in F. injection F as <-. exact E'. }
    split; [lia|]. split; [left; rewrite A4; lia|]. split; [intros; lia|]. split; [intros _; split; reflexivity|].
    unfold singletons. assert (E : map (fun _ : R => 1) alpha = map (fun _ => 1) (seq 0 n)).
    { unfold n. clear. generalize 0%nat. induction alpha as [|a l IH]; intros k; cbn; auto. f_equal. apply IH. }
    rewrite E. generalize (seq 0 n). clear. induction l as [|i l IH]; cbn [map]; constructor; auto.
    cbn [snd angles_at map length]. rewrite resultant_one. simpl. ring.
  - destruct (hac_init m ni seed alpha) as [cl0|e] eqn:E; [|discriminate]. cbn [bind].
    destruct (init_ok m ni seed alpha cl0) as (A1 & A2 & A3 & A4 & A5); auto.
    { destruct ni as [k|]; auto. }
    destruct (hac_loop m alpha K (length cl0) cl0 (S (list_max (map fst cl0)))) as [cl ms] eqn:F.
    intros G. injection G as <-. cbn [h_alpha]. split; auto. fold n in A3, A5.
    destruct (loop_ok m alpha K _ _ _ _ _ HK (wf_next cl0 A1 A2) (le_n _) F) as (B1 & (B2 & B2') & B3 & B4 & B5).
    assert (P : Permutation (concat (map snd cl)) (seq 0 n)) by (eapply Permutation_trans; eauto).
    exists cl0, (S (list_max (map fst cl0))), cl. cbn [h_merges h_labels h_centers h_r]. rewrite map_map. fold n.
    assert (NE : forall c, In c cl -> take alpha (snd c) <> []).
    { intros c Hc. apply take_ne. rewrite Forall_forall in B2'. apply B2'; auto. }
    split; [split; [apply wf_next; auto|split; [now apply SS_nodup|exact A3]]|].
    split; [destruct ni as [k|]; [destruct (Nat.leb_spec n k); auto; destruct (Nat.leb n K); auto|exact A5]|].
    split; [apply B1, Permutation_refl|].
    split; [split; [exact B2'|split; [now apply SS_nodup|exact P]]|].
    split; [exact B2|]. split; [now apply hac_labels_ok|]. split; [exact B3|]. split; [exact B5|].
    split; [intros _; apply Forall2_map_r; intros c Hc; apply centre_mr; auto|]. split; [intros; lia|].
    rewrite map_map. apply Forall2_map_r. intros c Hc. rewrite mr_snd.
    replace (length (snd c)) with (length (take alpha (snd c))) by apply map_length. apply circ_r_resultant. auto.
Qed.
