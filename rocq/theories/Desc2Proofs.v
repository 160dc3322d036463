From Verif Require Import Prelude NpModel NpProofs CircleSpec Desc2Spec UtilsModel UtilsProofs
  DescModel DescProofs DescSpec DescApi DescApi2 Desc2Model.

(** * Rounding *)
Lemma rint_mono x y : x <= y -> (rint x <= rint y)%Z.
Proof.
  intros H. unfold rint. pose proof (Rfloor_spec x) as [X1 X2]. pose proof (Rfloor_spec y) as [Y1 Y2].
  pose proof (Rfloor_mono x y H) as M.
  destruct (Z.eq_dec (Rfloor x) (Rfloor y)) as [E|N].
  - rewrite <- E in *.
    destruct (Rltb_spec (x - IZR (Rfloor x)) (1/2)); destruct (Rltb_spec (y - IZR (Rfloor x)) (1/2));
    destruct (Rltb_spec (1/2) (x - IZR (Rfloor x))); destruct (Rltb_spec (1/2) (y - IZR (Rfloor x)));
    destruct (Z.even (Rfloor x)); try lia; lra.
  - assert (Rfloor x + 1 <= Rfloor y)%Z by lia.
    destruct (Rltb (x - IZR (Rfloor x)) (1/2)); destruct (Rltb (y - IZR (Rfloor y)) (1/2));
    destruct (Rltb (1/2) (x - IZR (Rfloor x))); destruct (Rltb (1/2) (y - IZR (Rfloor y)));
    destruct (Z.even (Rfloor x)); destruct (Z.even (Rfloor y)); lia.
Qed.
Lemma rint_near x : x - 1/2 <= IZR (rint x) <= x + 1/2.
Proof.
  unfold rint. pose proof (Rfloor_spec x) as [X1 X2].
  destruct (Rltb_spec (x - IZR (Rfloor x)) (1/2)); [lra|].
  destruct (Rltb_spec (1/2) (x - IZR (Rfloor x))); [rewrite plus_IZR; lra|].
  destruct (Z.even (Rfloor x)); rewrite ?plus_IZR; lra.
Qed.
Lemma round5_mono x y : x <= y -> round5 x <= round5 y.
Proof.
  intros H. unfold round5, Rdiv. apply Rmult_le_compat_r; [lra|]. apply IZR_le, rint_mono. lra.
Qed.
Lemma round5_near x : x - / 200000 <= round5 x <= x + / 200000.
Proof. unfold round5. pose proof (rint_near (x * 100000)). lra. Qed.
Lemma round5_lt x y : x + / 50000 < y -> round5 x < round5 y.
Proof. intros H. pose proof (round5_near x). pose proof (round5_near y). lra. Qed.

(** * Selecting minimal entries *)
Lemma select_min_map (f : R -> R) alpha a :
  In a (select_min (map f alpha) alpha) <-> In a alpha /\ forall b, In b alpha -> f a <= f b.
Proof.
  destruct alpha as [|a0 l]; [simpl; tauto|].
  unfold select_min. cbn [map]. set (m := Rlmin (f a0) (map f l)).
  destruct (Rlmin_le (f a0) (map f l)) as [M1 M2]. fold m in M1, M2.
  assert (ML : forall b, In b (a0 :: l) -> m <= f b).
  { intros b [<-|Hb]; [exact M1|]. apply M2. apply in_map, Hb. }
  assert (MI : exists b, In b (a0 :: l) /\ f b = m).
  { pose proof (Rlmin_in (f a0) (map f l)) as I. fold m in I.
    destruct I as [E|I]; [exists a0; split; [left; auto|exact E]|].
    apply in_map_iff in I. destruct I as (b & E & Hb). exists b. split; [right; auto|exact E]. }
  rewrite in_map_iff. change (f a0 :: map f l) with (map f (a0 :: l)).
  split.
  - intros ([k v] & <- & Hp). apply filter_In in Hp. destruct Hp as [Hp E].
    apply Reqb_true in E. simpl in E. simpl snd.
    assert (K : In v (a0 :: l) /\ k = f v).
    { revert Hp. generalize (a0 :: l). induction l0 as [|x t IH]; simpl; [tauto|].
      intros [E1|H1]; [injection E1 as <- <-; auto|]. destruct (IH H1); auto. }
    destruct K as [Kv ->]. split; [exact Kv|]. intros b Hb. rewrite E. apply ML, Hb.
  - intros [Ha Hmin]. exists (f a, a). split; [reflexivity|]. apply filter_In. split.
    + revert Ha. generalize (a0 :: l). induction l0 as [|x t IH]; simpl; [tauto|].
      intros [->|H1]; [left; reflexivity|right; auto].
    + apply Reqb_true. simpl. destruct MI as (b & Hb & E). pose proof (Hmin b Hb).
      pose proof (ML a Ha). lra.
Qed.
Lemma select_min_nonempty (f : R -> R) alpha : alpha <> [] -> select_min (map f alpha) alpha <> [].
Proof.
  intros H. assert (M : exists a, In a alpha /\ forall b, In b alpha -> f a <= f b).
  { destruct alpha as [|a0 l]; [congruence|].
    pose proof (Rlmin_in (f a0) (map f l)) as I. destruct (Rlmin_le (f a0) (map f l)) as [M1 M2].
    assert (ML : forall b, In b (a0 :: l) -> Rlmin (f a0) (map f l) <= f b).
    { intros b [<-|Hb]; [exact M1|]. apply M2, in_map, Hb. }
    destruct I as [E|I].
    - exists a0. split; [left; auto|]. rewrite E. exact ML.
    - apply in_map_iff in I. destruct I as (b & E & Hb). exists b. split; [right; auto|].
      rewrite E. exact ML. }
  destruct M as (a & Ha). apply select_min_map in Ha. intros E. rewrite E in Ha. inversion Ha.
Qed.
(** As a filter of the data, in data order. *)
Lemma select_min_filter (f : R -> R) alpha : exists m,
  select_min (map f alpha) alpha = filter (fun a => Reqb (f a) m) alpha.
Proof.
  destruct alpha as [|a0 l]; [exists 0; reflexivity|].
  unfold select_min. cbn [map]. exists (Rlmin (f a0) (map f l)).
  generalize (Rlmin (f a0) (map f l)). intros m.
  change (f a0 :: map f l) with (map f (a0 :: l)). generalize (a0 :: l).
  induction l0 as [|x t IH]; simpl; [reflexivity|].
  destruct (Reqb (f x) m); simpl; rewrite IH; reflexivity.
Qed.
Lemma filter_length_le {A} (p : A -> bool) l : (length (filter p l) <= length l)%nat.
Proof. induction l as [|x l IH]; simpl; [lia|]. destruct (p x); simpl; lia. Qed.
Lemma filter_all {A} (p : A -> bool) l :
  length (filter p l) = length l <-> forall x, In x l -> p x = true.
Proof.
  induction l as [|x l IH]; simpl; [split; [intros _ y Hy; destruct Hy|reflexivity]|].
  destruct (p x) eqn:E; simpl.
  - rewrite Nat.succ_inj_wd, IH. split; [intros H y [<-|Hy]; auto|auto].
  - split; [|intros H; rewrite (H x) in E; auto; discriminate].
    intros H. pose proof (filter_length_le p l). lia.
Qed.
Lemma select_min_all (f : R -> R) alpha :
  length (select_min (map f alpha) alpha) = length alpha <->
  forall a b, In a alpha -> In b alpha -> f a = f b.
Proof.
  split.
  - intros H. destruct (select_min_filter f alpha) as [m E]. rewrite E, filter_all in H.
    intros a b Ha Hb. pose proof (H a Ha) as A. pose proof (H b Hb) as B.
    apply Reqb_true in A, B. congruence.
  - intros H. destruct alpha as [|a0 l]; [reflexivity|].
    destruct (select_min_filter f (a0 :: l)) as [m E]. rewrite E. apply filter_all.
    intros x Hx. apply Reqb_true.
    assert (N := select_min_nonempty f (a0 :: l) ltac:(discriminate)). rewrite E in N.
    destruct (filter (fun a => Reqb (f a) m) (a0 :: l)) as [|y t] eqn:F; [congruence|].
    assert (I : In y (filter (fun a => Reqb (f a) m) (a0 :: l))) by (rewrite F; left; reflexivity).
    apply filter_In in I. destruct I as [I1 I2]. apply Reqb_true in I2.
    rewrite (H x y Hx I1). exact I2.
Qed.
Lemma pick_spec alpha cands :
  (pick alpha cands = MNaN <-> length cands = length alpha) /\
  (length cands <> length alpha -> med_list (pick alpha cands) = cands).
Proof.
  unfold pick. destruct (Nat.eqb_spec (length cands) (length alpha)) as [E|N].
  - split; [tauto|congruence].
  - split; [|intros _; destruct cands as [|a [|b t]]; reflexivity].
    split; [|congruence]. destruct cands as [|a [|b t]]; discriminate.
Qed.

(** * C19 *)
Definition dev5 (alpha : list R) (b : R) : R :=
  round5 (PI - mean (map (fun a => Rabs (PI - Rabs (a - b))) alpha)).
Lemma deviation_median_eq alpha : alpha <> [] ->
  circ_median_mean_deviation alpha = Ok (pick alpha (select_min (map (dev5 alpha) alpha) alpha)).
Proof.
  intros H. unfold circ_median_mean_deviation.
  destruct (Z.ltb 10000 (Z.of_nat (length alpha))).
  - rewrite chunked_eq by (auto; lia). reflexivity.
  - reflexivity.
Qed.
(** Rounded mean arc distance to the sample. *)
Definition arc_dev5 (alpha : list R) (b : R) : R :=
  round5 (Rsum (map (fun a => angular_distance a b) alpha) / INR (length alpha)).
Lemma dev5_arc alpha b : alpha <> [] ->
  (forall a, In a alpha -> Rabs (a - b) <= 2 * PI) -> dev5 alpha b = arc_dev5 alpha b.
Proof.
  intros Hn H. unfold dev5, arc_dev5. f_equal. rewrite dev_eq by exact Hn.
  unfold mean. rewrite map_length. f_equal. apply Rsum_map_ext. intros a Ha.
  apply (arc_dist_unique a b); [|apply angular_distance_arc].
  apply (geodesic_spec a b), H, Ha.
Qed.
Lemma deviation_median_spec alpha : alpha <> [] -> within_turn alpha ->
  exists m, circ_median_mean_deviation alpha = Ok m /\
    (m = MNaN <-> forall a b, In a alpha -> In b alpha -> arc_dev5 alpha a = arc_dev5 alpha b) /\
    (m <> MNaN -> med_list m <> [] /\ forall a, In a (med_list m) <->
       In a alpha /\ forall b, In b alpha -> arc_dev5 alpha a <= arc_dev5 alpha b).
Proof.
  intros Hn Hw. rewrite deviation_median_eq by exact Hn. eexists. split; [reflexivity|].
  assert (D : forall b, In b alpha -> dev5 alpha b = arc_dev5 alpha b).
  { intros b Hb. apply dev5_arc; auto. }
  assert (E : map (dev5 alpha) alpha = map (arc_dev5 alpha) alpha) by (apply map_ext_in, D).
  rewrite E. destruct (pick_spec alpha (select_min (map (arc_dev5 alpha) alpha) alpha)) as [P1 P2].
  split.
  - rewrite P1. apply select_min_all.
  - intros N. rewrite P2 by (rewrite <- P1; exact N).
    split; [apply select_min_nonempty, Hn|]. intros a. apply select_min_map.
Qed.
(** Through the API, without averaging. *)
Lemma weights_none_ones alpha : forallb (fun x => Reqb x 1) (weights alpha None) = true.
Proof.
  apply forallb_forall. intros x Hx. simpl in Hx. unfold ones in Hx.
  apply in_map_iff in Hx. destruct Hx as (y & <- & _). apply Reqb_true. reflexivity.
Qed.
Lemma circ_median_deviation_api alpha : alpha <> [] -> within_turn alpha ->
  isclose12 (circ_r alpha None) 1 = false ->
  exists m, circ_median alpha None (Some "deviation"%string) false "all"%string = Ok m /\
    (m = MNaN <-> forall a b, In a alpha -> In b alpha -> arc_dev5 alpha a = arc_dev5 alpha b) /\
    (m <> MNaN -> med_list m <> [] /\ forall x, In x (med_list m) <->
       exists a, x = angmod0 a /\ In a alpha /\
                 forall b, In b alpha -> arc_dev5 alpha a <= arc_dev5 alpha b).
Proof.
  intros Hn Hw Hr. destruct (deviation_median_spec alpha Hn Hw) as (m & E & H1 & H2).
  exists (med_mod m). unfold circ_median. fold (smp alpha None).
  unfold circ_r in Hr. fold (smp alpha None) in Hr.
  change (combine alpha (weights alpha None)) with (smp alpha None). rewrite Hr.
  rewrite weights_none_ones. cbn [negb]. simpl String.eqb. rewrite E. cbn [bind].
  split; [reflexivity|]. destruct m as [|a|l]; cbn [med_mod med_list] in *.
  - split; [exact H1|congruence].
  - split; [rewrite <- H1; split; discriminate|]. intros _. split; [discriminate|].
    intros x. destruct H2 as [_ H2]; [discriminate|]. split.
    + intros [<-|[]]. exists a. split; auto. apply H2. left. reflexivity.
    + intros (b & -> & Hb). apply H2 in Hb. destruct Hb as [->|[]]. left. reflexivity.
  - split; [rewrite <- H1; split; discriminate|]. intros _. destruct H2 as [N H2]; [discriminate|].
    split; [destruct l; simpl; congruence|]. intros x. rewrite in_map_iff. split.
    + intros (a & <- & Ha). exists a. split; auto. apply H2, Ha.
    + intros (a & -> & Ha). exists a. split; auto. apply H2, Ha.
Qed.

(** * Rotation *)
Lemma dev5_shift t alpha b : dev5 (map (fun a => a + t) alpha) (b + t) = dev5 alpha b.
Proof.
  unfold dev5. rewrite map_map. do 2 f_equal. f_equal. apply map_ext. intros a.
  replace (a + t - (b + t)) with (a - b) by ring. reflexivity.
Qed.
Lemma count_diff_shift t alpha b :
  count_diff (map (fun a => a + t) alpha) (b + t) = count_diff alpha b.
Proof.
  unfold count_diff. rewrite map_map, map_length.
  replace (map (fun x => round5 (angmod0 (x + t - (b + t)))) alpha)
    with (map (fun x => round5 (angmod0 (x - b))) alpha); [reflexivity|].
  apply map_ext. intros a. replace (a + t - (b + t)) with (a - b) by ring. reflexivity.
Qed.
Lemma select_min_vals keys vals (f : R -> R) :
  select_min keys (map f vals) = map f (select_min keys vals).
Proof.
  destruct keys as [|k ks]; [reflexivity|]. unfold select_min.
  generalize (Rlmin k ks). intros m. generalize (k :: ks). intros l. revert vals.
  induction l as [|x l IH]; intros [|v vals]; simpl; auto.
  destruct (Reqb x m); simpl; rewrite IH; reflexivity.
Qed.
Lemma pick_map f alpha cands : pick (map f alpha) (map f cands) = med_map f (pick alpha cands).
Proof.
  unfold pick. rewrite !map_length.
  destruct (Nat.eqb (length cands) (length alpha)); [reflexivity|].
  destruct cands as [|a [|b t]]; reflexivity.
Qed.
Lemma deviation_median_shift t alpha : alpha <> [] ->
  circ_median_mean_deviation (map (fun a => a + t) alpha) =
  (do m <- circ_median_mean_deviation alpha; Ok (med_map (fun a => a + t) m)).
Proof.
  intros H. rewrite !deviation_median_eq by (try exact H; destruct alpha; simpl; congruence).
  cbn [bind]. f_equal. rewrite <- pick_map, <- select_min_vals. do 2 f_equal.
  rewrite map_map. apply map_ext. intros a. apply dev5_shift.
Qed.
Lemma count_median_shift t alpha :
  circ_median_count (map (fun a => a + t) alpha) =
  med_map (fun a => a + t) (circ_median_count alpha).
Proof.
  unfold circ_median_count. rewrite <- pick_map, <- select_min_vals. do 2 f_equal.
  rewrite map_map. apply map_ext. intros a. apply count_diff_shift.
Qed.
Lemma nsort_shift t l : nsort (map (fun a => a + t) l) = map (fun a => a + t) (nsort l).
Proof.
  apply sorted_perm_eq; [apply sort_sorted| |].
  - pose proof (sort_sorted l) as S. induction S as [|x l' S IH F]; simpl; constructor; auto.
    rewrite Forall_forall in *. intros y Hy. apply in_map_iff in Hy. destruct Hy as (z & <- & Hz).
    specialize (F z Hz). lra.
  - apply perm_trans with (map (fun a => a + t) l); [apply Permutation_sym, sort_perm|].
    apply Permutation_map, sort_perm.
Qed.
Lemma dedup_shift t l : dedup (map (fun a => a + t) l) = map (fun a => a + t) (dedup l).
Proof.
  induction l as [|x [|y l] IH]; simpl; auto. simpl in IH. rewrite IH.
  destruct (Reqb_spec x y); destruct (Reqb_spec (x + t) (y + t)); try lra; reflexivity.
Qed.
Lemma dedup_nonempty l : l <> [] -> dedup l <> [].
Proof.
  induction l as [|x [|y l] IH]; [congruence|simpl; discriminate|]. intros _.
  cbn [dedup]. destruct (Reqb x y); [apply IH; discriminate|discriminate].
Qed.
Lemma unique_shift t l : unique (map (fun a => a + t) l) = map (fun a => a + t) (unique l).
Proof. unfold unique. rewrite nsort_shift. apply dedup_shift. Qed.
Lemma unique_nonempty l : l <> [] -> unique l <> [].
Proof.
  intros H. apply dedup_nonempty. intros E. apply H.
  apply (f_equal (@length R)) in E. rewrite sort_length in E. destruct l; simpl in *; congruence.
Qed.
Lemma average_shift t m f :
  (forall l, f (map (fun a => a + t) l) = map (fun a => a + t) (f l)) ->
  (forall l, l <> [] -> f l <> []) -> (m = MNaN \/ med_list m <> []) ->
  med_dir (average (med_map (fun a => a + t) m) f) (med_map (fun a => a + t) (average m f)).
Proof.
  intros Hf Hne Hm. destruct m as [|a|l]; cbn [med_map average med_list] in *; [exact I| |].
  - destruct Hm as [|Hm]; [discriminate|]. change [a + t] with (map (fun a => a + t) [a]).
    rewrite Hf. destruct (circ_mean_rot (f [a]) None t (valid_none _ (Hne _ Hm))) as [N F].
    destruct (circ_mean_cases (f [a]) None) as [[_ E]|[_ E]]; rewrite E.
    + rewrite (N E). exact I.
    + destruct (F _ E) as (m' & -> & _ & D). exact D.
  - destruct Hm as [|Hm]; [discriminate|].
    rewrite Hf. destruct (circ_mean_rot (f l) None t (valid_none _ (Hne _ Hm))) as [N F].
    destruct (circ_mean_cases (f l) None) as [[_ E]|[_ E]]; rewrite E.
    + rewrite (N E). exact I.
    + destruct (F _ E) as (m' & -> & _ & D). exact D.
Qed.
Lemma pick_cases alpha cands : cands <> [] -> pick alpha cands = MNaN \/ med_list (pick alpha cands) <> [].
Proof.
  intros H. unfold pick. destruct (Nat.eqb _ _); [auto|right].
  destruct cands as [|a [|b t]]; simpl; congruence.
Qed.
Lemma med_dir_mod m m' : med_dir m m' -> med_dir (med_mod m) m'.
Proof.
  destruct m, m'; simpl; auto.
  - intros H. eapply same_dir_trans; [apply angmod0_same_dir|exact H].
  - intros H. induction H; simpl; constructor; auto.
    eapply same_dir_trans; [apply angmod0_same_dir|assumption].
Qed.
Lemma med_dir_mod_shift t m m' : med_dir m (med_map (fun a => a + t) m') ->
  med_dir (med_mod m) (med_map (fun a => a + t) (med_mod m')).
Proof.
  intros H. apply med_dir_mod in H. destruct (med_mod m), m'; simpl in *; auto.
  - eapply same_dir_trans; [exact H|]. apply same_dir_add; [|apply same_dir_refl].
    apply same_dir_sym, angmod0_same_dir.
  - rewrite map_map. revert H. generalize l. clear. intros l H. revert l H.
    induction l0 as [|b t0 IH]; simpl; intros l H; inversion H; subst; constructor; auto.
    eapply same_dir_trans; [eassumption|]. apply same_dir_add; [|apply same_dir_refl].
    apply same_dir_sym, angmod0_same_dir.
Qed.
Lemma turned_refl l : Forall2 same_dir l l.
Proof. induction l; constructor; auto. apply same_dir_refl. Qed.
Lemma circ_median_rot alpha t meth avg : alpha <> [] ->
  In meth ["deviation"; "count"]%string -> In avg ["all"; "unique"]%string ->
  forall b, exists m m',
    circ_median alpha None (Some meth) b avg = Ok m /\
    circ_median (map (fun a => a + t) alpha) None (Some meth) b avg = Ok m' /\
    med_dir m' (med_map (fun a => a + t) m).
Proof.
  intros Hn Hmeth Havg b.
  assert (V : valid_sample alpha None) by (apply valid_none, Hn).
  pose proof (api_rot t alpha None V) as Er. unfold circ_r in Er.
  unfold circ_median. rewrite !weights_none_ones. cbn [negb]. rewrite Er.
  destruct (isclose12 (circ_r_s (combine alpha (weights alpha None))) 1).
  { destruct alpha as [|a l]; [congruence|]. cbn. eexists _, _.
    split; [reflexivity|]. split; [reflexivity|]. apply same_dir_refl. }
  set (core := fun al : list R => if String.eqb meth "count" then Ok (circ_median_count al)
                      else if String.eqb meth "deviation" then circ_median_mean_deviation al
                      else if String.eqb meth "none" then Ok MNaN else Err ValueError).
  change (exists m m' : medout,
    (do m0 <- core alpha;
     do m'0 <- (if b then if String.eqb avg "all" then Ok (average m0 (fun l => l))
                  else if String.eqb avg "unique" then Ok (average m0 unique) else Err ValueError
                else Ok m0); Ok (med_mod m'0)) = Ok m /\
    (do m0 <- core (map (fun a => a + t) alpha);
     do m'0 <- (if b then if String.eqb avg "all" then Ok (average m0 (fun l => l))
                  else if String.eqb avg "unique" then Ok (average m0 unique) else Err ValueError
                else Ok m0); Ok (med_mod m'0)) = Ok m' /\
    med_dir m' (med_map (fun a => a + t) m)).
  assert (HC : exists c, core alpha = Ok c /\ core (map (fun a => a + t) alpha) = Ok (med_map (fun a => a + t) c) /\
                         (c = MNaN \/ med_list c <> [])).
  { unfold core. destruct Hmeth as [<-|[<-|[]]]; simpl.
    - rewrite deviation_median_shift by exact Hn. rewrite deviation_median_eq by exact Hn.
      cbn [bind]. eexists. split; [reflexivity|]. split; [reflexivity|].
      apply pick_cases, select_min_nonempty, Hn.
    - eexists. split; [reflexivity|]. split; [rewrite count_median_shift; reflexivity|].
      apply pick_cases, select_min_nonempty, Hn. }
  destruct HC as (c & -> & -> & Hc). cbn [bind].
  destruct b.
  - destruct Havg as [<-|[<-|[]]]; simpl; eexists _, _; (split; [reflexivity|]);
      (split; [reflexivity|]); apply med_dir_mod_shift, average_shift; auto.
    + intros l. apply unique_shift.
    + intros l. apply unique_nonempty.
  - cbn [bind]. eexists _, _. split; [reflexivity|]. split; [reflexivity|].
    apply med_dir_mod_shift. destruct c; simpl; auto; [apply same_dir_refl|apply turned_refl].
Qed.
