(** Lemmas on the rose diagram, the markers and the arcs. *)
From Coq Require Import String Sorting.Sorted.
From Verif Require Import Prelude NpModel DescModel Desc2Model Desc2Proofs HypMultiModel HypMulti4Proofs ArcProofs BaseModel BaseProofs Base2Proofs VzModel VzSpec VzProofs Vz2Proofs.
Import ListNotations.
Open Scope R_scope.
Open Scope list_scope.

(** * Rose diagram *)
Lemma centers_seq (f : nat -> R) : forall n s, centers (map f (seq s (S n))) = map (fun i => / 2 * (f i + f (S i))) (seq s n).
Proof. induction n as [|n IH]; intros s; [reflexivity|]. cbn [seq map]. change (map f (seq s (S (S n)))) with (f s :: map f (seq (S s) (S n))). cbn [seq map centers]. f_equal. exact (IH (S s)). Qed.
Lemma np_max_ge l x : In x l -> x <= np_max_of l.
Proof.
  destruct l as [|a t]; [intros []|]. cbn [np_max_of]. assert (G : forall t a x, (x <= a \/ In x t) -> x <= fold_left Rmax t a).
  { clear. induction t as [|b t IH]; intros a x H; cbn [fold_left]; [destruct H as [H|[]]; exact H|].
    apply IH. destruct H as [H|[->|H]]; [left; pose proof (Rmax_l a b); lra|left; apply Rmax_r|right; exact H]. }
  intros [->|H]; apply G; [left; lra|right; exact H].
Qed.
Lemma np_max_in l : l <> [] -> In (np_max_of l) l.
Proof.
  destruct l as [|a t]; [congruence|]. intros _. cbn [np_max_of]. revert a. induction t as [|b t IH]; intros a; cbn [fold_left]; [now left|].
  destruct (IH (Rmax a b)) as [E|H]; [|right; right; exact H]. rewrite <- E. unfold Rmax at 1. destruct (Rle_dec a b); [right; left|left]; reflexivity.
Qed.
Lemma hist_bin k i alpha : (i < k)%nat -> nth i (hist_counts alpha (even_edges k)) 0 = INR (count_if (in_bin k i) alpha).
Proof. intros Hi. unfold even_edges. rewrite (hist_nth (fun i => INR i * (2 * PI / INR k)) alpha k 0 i Hi). reflexivity. Qed.
Lemma hist_even_len k alpha : List.length (hist_counts alpha (even_edges k)) = k.
Proof. rewrite hist_len. unfold even_edges. rewrite centers_seq, map_length, seq_length. reflexivity. Qed.
Lemma bars_even k alpha i : (i < k)%nat -> nth i (bars (centers (even_edges k)) (hist_counts alpha (even_edges k))) (0, 0) =
  ((INR i + 1 / 2) * (2 * PI / INR k), sqrt (INR (count_if (in_bin k i) alpha)) / np_max_of (map sqrt (hist_counts alpha (even_edges k)))).
Proof.
  intros Hi. unfold bars. set (m := np_max_of _). rewrite combine_nth by (rewrite map_length, hist_len; reflexivity). f_equal.
  - unfold even_edges. rewrite centers_seq. set (f := fun i => / 2 * _). rewrite (nth_indep _ 0 (f 0%nat)) by (rewrite map_length, seq_length; exact Hi). rewrite map_nth, seq_nth by exact Hi. unfold f. cbn [plus]. rewrite S_INR. field. apply not_0_INR. lia.
  - set (f := fun x => sqrt x / m). rewrite (nth_indep _ 0 (f 0)) by (rewrite map_length, hist_even_len; exact Hi). rewrite map_nth, hist_bin by exact Hi. reflexivity.
Qed.
Lemma bars_len k alpha : List.length (bars (centers (even_edges k)) (hist_counts alpha (even_edges k))) = k.
Proof. unfold bars. rewrite combine_length, map_length, <- (hist_len alpha), hist_even_len. lia. Qed.
Lemma sum_nth (l : list R) : Rsum l = Rsum (map (fun i => nth i l 0) (seq 0 (List.length l))).
Proof. f_equal. induction l as [|x t IH]; [reflexivity|]. cbn [List.length seq map nth]. f_equal. rewrite <- seq_shift, map_map. exact IH. Qed.
Lemma bins_total k alpha : (1 <= k)%nat -> Rsum (map (fun i => INR (count_if (in_bin k i) alpha)) (seq 0 k)) = INR (count_if (fun a => Rleb 0 a && Rleb a (2 * PI)) alpha).
Proof.
  intros Hk. rewrite <- (even_total k alpha Hk), (sum_nth (hist_counts _ _)), hist_even_len. f_equal. apply map_ext_in. intros i Hi. apply in_seq in Hi. symmetry. apply hist_bin. lia.
Qed.
Lemma count_pos {A} (p : A -> bool) l x : In x l -> p x = true -> (1 <= count_if p l)%nat.
Proof. intros Hi Hp. induction l as [|y t IH]; [destruct Hi|]. unfold count_if in *. cbn [filter]. destruct Hi as [->|Hi]; [rewrite Hp; cbn; lia|]. specialize (IH Hi). destruct (p y); cbn; lia. Qed.
Lemma rose_max k alpha a : (1 <= k)%nat -> In a alpha -> 0 <= a <= 2 * PI -> 
  exists i, (i < k)%nat /\ np_max_of (map sqrt (hist_counts alpha (even_edges k))) = sqrt (INR (count_if (in_bin k i) alpha)) /\ 1 <= INR (count_if (in_bin k i) alpha) /\
    forall j, (j < k)%nat -> (count_if (in_bin k j) alpha <= count_if (in_bin k i) alpha)%nat.
Proof.
  intros Hk Ha Hr. set (h := hist_counts alpha (even_edges k)). assert (L : List.length h = k) by apply hist_even_len.
  assert (NE : map sqrt h <> []) by (destruct h; [cbn in L; lia|discriminate]). pose proof (np_max_in _ NE) as Hm. apply in_map_iff in Hm as (c & Ec & Hc).
  apply (In_nth _ _ 0) in Hc as (i & Hi & Eni). rewrite L in Hi. exists i. split; [exact Hi|]. unfold h in Eni. rewrite hist_bin in Eni by exact Hi. rewrite <- Ec, <- Eni. split; [reflexivity|].
  assert (M : forall j, (j < k)%nat -> (count_if (in_bin k j) alpha <= count_if (in_bin k i) alpha)%nat).
  { intros j Hj. apply INR_le. apply sqrt_le_0; try apply pos_INR. rewrite Eni, Ec. apply np_max_ge. rewrite <- (hist_bin k j alpha Hj). apply in_map, nth_In. fold h. lia. }
  split; [|exact M]. apply (le_INR 1). destruct (Nat.lt_ge_cases (count_if (in_bin k i) alpha) 1) as [Z|]; [exfalso|assumption].
  assert (S0 : Rsum (map (fun i => INR (count_if (in_bin k i) alpha)) (seq 0 k)) = 0).
  { assert (G : forall l, (forall j, In j l -> (j < k)%nat) -> Rsum (map (fun i => INR (count_if (in_bin k i) alpha)) l) = 0).
    { induction l as [|j t IH]; intros H; [reflexivity|]. cbn [map]. rewrite Rsum_cons, IH by (intros; apply H; now right). specialize (M j (H j (or_introl eq_refl))). replace (count_if (in_bin k j) alpha) with 0%nat by lia. cbn. lra. }
    apply G. intros j Hj. apply in_seq in Hj. lia. }
  rewrite bins_total in S0 by exact Hk. pose proof (count_pos (fun a => Rleb 0 a && Rleb a (2 * PI)) alpha a Ha) as C. 
  assert (T : (Rleb 0 a && Rleb a (2 * PI))%bool = true) by (destruct (Rleb_spec 0 a); [|lra]; destruct (Rleb_spec a (2 * PI)); [reflexivity|lra]).
  specialize (C T). apply (le_INR 1) in C. cbn in C. lra.
Qed.
Lemma rose_user nonpar mixture o config p k : circ_plot nonpar mixture o config = Draw p -> distinct_keys (VDict (given config)) -> o_grouped o = false -> (1 <= k)%nat ->
  look (VDict (given config)) ["rose"; "bins"]%string = Some (VNum (INR k)) \/ dget "rose" (given config) = None /\ k = 12%nat -> dget "width" (given config) = None ->
  p_bars p = bars (centers (even_edges k)) (hist_counts (o_alpha o) (even_edges k)) /\ p_width p = 2 * PI / INR k.
Proof.
  intros Hp Hw G Hk L W. destruct (plot_inv _ _ _ _ _ Hp) as (c & dens & rose & mean & median & E & Ed & Er & _ & _ & _ & _ & _ & Hr & _).
  assert (L2 : look (VDict c) ["rose"; "bins"]%string = Some (VNum (INR k))).
  { destruct L as [L|[N ->]].
    - apply (merge_override 2 _ default_config (given config) c); auto; intros H; destruct H; discriminate.
    - cbn [look]. unfold given in N. rewrite merge_fold in E. rewrite (top_other default_config "rose" _ _ _ (proj1 (dget_None _ _) N) E). replace (INR 12) with 12 by (cbn; lra). reflexivity. }
  cbn [look] in L2. rewrite Er in L2. destruct rose as [| | | | |ro]; try discriminate. destruct (dget "bins" ro) as [b|] eqn:B; [|discriminate]. injection L2 as ->.
  destruct Hr as (beta & w & Rd & Eb & Ew & _); [destruct ro; [discriminate|reflexivity]|]. unfold rose_data in Rd. rewrite G in Rd. cbn [item] in Rd. rewrite B in Rd. cbn [pbind number] in Rd.
  unfold Rfloor in Rd. rewrite Int_part_INR in Rd. destruct (Z.ltb_spec (Z.of_nat k) 1); [lia|]. rewrite Nat2Z.id in Rd. assert (B1 : beta = centers (even_edges k)) by congruence. assert (B2 : w = hist_counts (o_alpha o) (even_edges k)) by congruence. subst beta w. split; [exact Eb|].
  rewrite Ew; [unfold even_edges; rewrite centers_seq, map_length, seq_length; reflexivity|]. rewrite merge_fold in E. rewrite (top_other default_config "width" _ _ _ (proj1 (dget_None _ _) W) E). reflexivity.
Qed.
Lemma rose_spec nonpar mixture o config p k : circ_plot nonpar mixture o config = Draw p -> distinct_keys (VDict (given config)) -> o_grouped o = false -> (1 <= k)%nat ->
  look (VDict (given config)) ["rose"; "bins"]%string = Some (VNum (INR k)) \/ dget "rose" (given config) = None /\ k = 12%nat -> dget "width" (given config) = None -> (exists a, In a (o_alpha o) /\ 0 <= a <= 2 * PI) ->
  List.length (p_bars p) = k /\ p_width p = 2 * PI / INR k /\
  exists top, (1 <= top)%nat /\ (exists i, (i < k)%nat /\ count_if (in_bin k i) (o_alpha o) = top) /\
    (forall i, (i < k)%nat -> (count_if (in_bin k i) (o_alpha o) <= top)%nat /\
       exists h, nth i (p_bars p) (0, 0) = ((INR i + 1 / 2) * (2 * PI / INR k), h) /\ 0 <= h <= 1 /\ h ^ 2 = INR (count_if (in_bin k i) (o_alpha o)) / INR top).
Proof.
  intros Hp Hw G Hk L W (a & Ha & Hr). destruct (rose_user _ _ _ _ _ _ Hp Hw G Hk L W) as [-> Ew]. split; [apply bars_len|]. split; [exact Ew|].
  destruct (rose_max k (o_alpha o) a Hk Ha Hr) as (i0 & Hi0 & Em & H1 & Hmax). exists (count_if (in_bin k i0) (o_alpha o)).
  split; [apply INR_le; exact H1|]. split; [eauto|]. intros i Hi. specialize (Hmax i Hi). split; [exact Hmax|]. rewrite bars_even, Em by exact Hi. eexists. split; [reflexivity|].
  set (n := INR (count_if (in_bin k i) (o_alpha o))). set (m := INR (count_if (in_bin k i0) (o_alpha o))) in *. assert (Nn : 0 <= n) by apply pos_INR. assert (Nm : n <= m) by (apply le_INR, Hmax).
  assert (Sm : 0 < sqrt m) by (apply sqrt_lt_R0; lra). pose proof (sqrt_pos n). pose proof (sqrt_le_1_alt n m Nm). split; [split|].
  - apply Rmult_le_pos; [lra|]. left. apply Rinv_0_lt_compat, Sm.
  - apply Rmult_le_reg_r with (sqrt m); [exact Sm|]. field_simplify; lra.
  - unfold Rdiv. rewrite Rpow_mult_distr, pow_inv, !pow2_sqrt by lra. reflexivity.
Qed.

(** * Markers *)
Lemma count_cons {A} (p : A -> bool) x l : count_if p (x :: l) = ((if p x then 1 else 0) + count_if p l)%nat.
Proof. unfold count_if. cbn [filter]. destruct (p x); reflexivity. Qed.
Lemma counts_length (u a : list R) : NoDup u -> (forall x, In x a -> In x u) -> list_sum (map (fun v => count_if (fun y => Reqb y v) a) u) = List.length a.
Proof.
  intros Hn. induction a as [|x t IH]; intros Hin.
  - clear. induction u as [|v u IHu]; [reflexivity|]. exact IHu.
  - cbn [List.length]. rewrite <- IH by (intros; apply Hin; now right). specialize (Hin x (or_introl eq_refl)).
    assert (G : forall u, NoDup u -> list_sum (map (fun v => count_if (fun y => Reqb y v) (x :: t)) u) = ((if in_dec Req_EM_T x u then 1 else 0) + list_sum (map (fun v => count_if (fun y => Reqb y v) t) u))%nat).
    { clear. induction u as [|v u IH]; intros Hn; [reflexivity|]. apply NoDup_cons_iff in Hn as [N Hn]. cbn [map list_sum fold_right]. unfold list_sum in *. cbn [fold_right]. rewrite IH by exact Hn. rewrite count_cons.
      destruct (Reqb_spec x v) as [->|D].
      - destruct (in_dec Req_EM_T v u); [contradiction|]. destruct (in_dec Req_EM_T v (v :: u)) as [|X]; [lia|exfalso; apply X; now left].
      - destruct (in_dec Req_EM_T x u) as [I|I]; destruct (in_dec Req_EM_T x (v :: u)) as [J|J]; try lia; [exfalso; apply J; now right|destruct J; congruence]. }
    rewrite (G u Hn). destruct (in_dec Req_EM_T x u); [reflexivity|contradiction].
Qed.
Lemma flat_len {A B} (f : A -> list B) l : List.length (flat_map f l) = list_sum (map (fun x => List.length (f x)) l).
Proof. induction l as [|x t IH]; [reflexivity|]. cbn. rewrite app_length, IH. reflexivity. Qed.
Lemma flat_NoDup {A B} (f : A -> list B) l : NoDup l -> (forall x, In x l -> NoDup (f x)) -> (forall x y b, In x l -> In y l -> In b (f x) -> In b (f y) -> x = y) -> NoDup (flat_map f l).
Proof.
  induction l as [|x t IH]; intros Hn Hf Hd; [constructor|]. apply NoDup_cons_iff in Hn as [N Hn]. cbn [flat_map].
  assert (IHt : NoDup (flat_map f t)) by (apply IH; auto; [intros; apply Hf; now right|intros y z b Hy Hz; apply Hd; now right]).
  assert (Hx : NoDup (f x)) by (apply Hf; now left).
  assert (Dj : forall b, In b (f x) -> ~ In b (flat_map f t)).
  { intros b Hb Hb'. apply in_flat_map in Hb' as (y & Hy & Hb'). apply N. rewrite (Hd x y b); auto; [now left|now right]. }
  clear - IHt Hx Dj. induction (f x) as [|b l IH]; [exact IHt|]. apply NoDup_cons_iff in Hx as [N Hx]. cbn. constructor.
  - intros H. apply in_app_or in H as [H|H]; [contradiction|]. apply (Dj b); [now left|exact H].
  - apply IH; auto. intros c Hc. apply Dj. now right.
Qed.
Lemma round3_near x : Rabs (round3 x - x) <= 1 / 2000.
Proof. unfold round3. pose proof (rint_near (x * 1000)). apply Rabs_le. lra. Qed.
Lemma round3_mono x y : x <= y -> round3 x <= round3 y.
Proof. intros H. unfold round3. apply Rmult_le_compat_r; [lra|]. apply IZR_le, rint_mono. lra. Qed.
Lemma scatter_spec out r0 alpha s : scatter out r0 alpha = Draw s ->
  List.length s = List.length alpha /\ NoDup s /\
  forall v r, In (v, r) s <-> exists j, (j < count_if (fun a => Reqb (round3 a) v) alpha)%nat /\ r = r0 + (if out then 1 else - 1) * (INR (S j) / 20).
Proof.
  unfold scatter. set (a := map round3 alpha). intros E. assert (E' : s = flat_map (fun v => map (fun j => (v, if out then r0 + 5 / 100 + INR j * (5 / 100) else r0 - 5 / 100 - INR j * (5 / 100)))
                                   (seq 0 (count_if (fun y => Reqb y v) a))) (unique a)) by (destruct a; [discriminate|injection E as <-; reflexivity]). clear E.
  pose proof (strict_NoDup _ (unique_strict a)) as Hn.
  assert (Ra : forall j, (if out then r0 + 5 / 100 + INR j * (5 / 100) else r0 - 5 / 100 - INR j * (5 / 100)) = r0 + (if out then 1 else - 1) * (INR (S j) / 20)) by (intros j; rewrite S_INR; destruct out; field).
  assert (Ct : forall v, count_if (fun y => Reqb y v) a = count_if (fun a => Reqb (round3 a) v) alpha) by (intros v; apply (count_if_map round3)).
  subst s. split; [|split].
  - rewrite flat_len. rewrite (map_ext _ (fun v => count_if (fun y => Reqb y v) a)) by (intros v; rewrite map_length, seq_length; reflexivity).
    rewrite counts_length; [unfold a; apply map_length|exact Hn|intros x Hx; apply unique_in, Hx].
  - apply flat_NoDup; [exact Hn| |].
    + intros v _. apply FinFun.Injective_map_NoDup; [|apply seq_NoDup]. intros i j H. injection H as H. rewrite !Ra in H. apply eq_add_S, INR_eq. destruct out; lra.
    + intros x y b _ _ Hx Hy. apply in_map_iff in Hx as (i & <- & _). apply in_map_iff in Hy as (j & H & _). injection H as H _. congruence.
  - intros v r. rewrite in_flat_map. split.
    + intros (v' & _ & H). apply in_map_iff in H as (j & H & Hj). injection H as -> <-. apply in_seq in Hj. exists j. rewrite <- Ct, <- Ra. split; [lia|reflexivity].
    + intros (j & Hj & ->). exists v. split.
      * apply unique_in. rewrite <- Ct in Hj. clear - Hj. induction a as [|y t IH]; [cbn in Hj; lia|]. rewrite count_cons in Hj. destruct (Reqb_spec y v); [left; assumption|right; apply IH; lia].
      * apply in_map_iff. exists j. split; [rewrite Ra; reflexivity|]. apply in_seq. rewrite Ct. lia.
Qed.
Lemma plot_scatter nonpar mixture o config p : circ_plot nonpar mixture o config = Draw p -> distinct_keys (VDict (given config)) -> o_grouped o = false ->
  exists lab r0 out, (forall x, Rabs (lab x - x) <= 1 / 2000) /\ (forall x y, x <= y -> lab x <= lab y) /\
  (forall r, look (VDict (given config)) ["scatter"; "r_start"]%string = Some (VNum r) -> r0 = r) /\ (dget "scatter" (given config) = None -> r0 = 1) /\
  (dget "outward" (given config) = Some (VBool false) -> out = false) /\ (dget "outward" (given config) = None \/ dget "outward" (given config) = Some (VBool true) -> out = true) /\
  List.length (p_scatter p) = List.length (o_alpha o) /\ NoDup (p_scatter p) /\
  forall v r, In (v, r) (p_scatter p) <-> exists j, (j < count_if (fun a => Reqb (lab a) v) (o_alpha o))%nat /\ r = r0 + (if (out : bool) then 1 else - 1) * (INR (S j) / 20).
Proof.
  intros Hp Hw G. destruct (plot_inv _ _ _ _ _ Hp) as (c & dens & rose & mean & median & E & _ & _ & _ & _ & _ & Hs & _). destruct (Hs G) as (out & r0 & Eo & L & Sc).
  exists round3, r0, (truthy out). split; [apply round3_near|]. split; [apply round3_mono|]. split; [|split; [|split; [|split]]].
  - intros r Lr. assert (L2 : look (VDict c) ["scatter"; "r_start"]%string = Some (VNum r)) by (apply (merge_override 2 _ default_config (given config) c); auto; intros H; destruct H; discriminate). congruence.
  - intros N. rewrite merge_fold in E. cbn [look] in L. rewrite (top_other default_config "scatter" _ _ _ (proj1 (dget_None _ _) N) E) in L. cbn in L. congruence.
  - intros N. assert (L2 : look (VDict c) ["outward"]%string = Some (VBool false)) by (apply (merge_override 1 _ default_config (given config) c); auto; [cbn [look]; rewrite N; reflexivity|intros [? H]; discriminate|discriminate]).
    cbn [look] in L2. rewrite Eo in L2. injection L2 as ->. reflexivity.
  - intros N. assert (X : dget "outward" c = Some (VBool true)).
    { destruct N as [N|N]; [rewrite merge_fold in E; rewrite (top_other default_config "outward" _ _ _ (proj1 (dget_None _ _) N) E); reflexivity|]. destruct (merge_true _ _ _ _ Hw E N) as [-> _]. reflexivity. }
    rewrite X in Eo. injection Eo as <-. reflexivity.
  - exact (scatter_spec _ _ _ _ Sc).
Qed.

(** * Arcs *)
Lemma linspace_nth a b n i : (i < n)%nat -> nth i (linspace a b n) 0 = a + INR i * ((b - a) / INR (n - 1)).
Proof.
  intros Hi. unfold linspace. set (f := fun i => a + INR i * ((b - a) / INR (n - 1))). rewrite (nth_indep _ 0 (f 0%nat)) by (rewrite map_length, seq_length; exact Hi). rewrite map_nth, seq_nth by exact Hi. reflexivity.
Qed.
Lemma arc_spec lb ub : 0 <= lb < 2 * PI -> 0 <= ub < 2 * PI -> lb <> ub -> exists width, 0 < width < 2 * PI /\ (exists k, lb + width = ub + 2 * PI * IZR k) /\
  List.length (arc (Some (lb, ub))) = 50%nat /\ forall i, (i < 50)%nat -> nth i (arc (Some (lb, ub))) 0 = lb + width * (INR i / 49).
Proof.
  intros Hl Hu N. cbn [arc]. assert (F : forall e w i, e = lb + w -> (i < 50)%nat -> nth i (linspace lb e 50) 0 = lb + w * (INR i / 49)).
  { intros e w i -> Hi. rewrite linspace_nth by exact Hi. cbn [Nat.sub]. replace (INR 49) with 49 by (cbn; lra). field. }
  destruct (Rltb_spec lb ub).
  - exists (ub - lb). repeat split; try lra; [exists 0%Z; cbn; lra|]. intros i Hi. apply F; [lra|exact Hi].
  - exists (ub + 2 * PI - lb). repeat split; try lra; [exists 1%Z; cbn; lra|]. intros i Hi. apply F; [lra|exact Hi].
Qed.
Lemma arc_point lb i : (i < 50)%nat -> nth i (arc (Some (lb, lb))) 0 = lb + 2 * PI * (INR i / 49).
Proof. intros Hi. cbn [arc]. destruct (Rltb_spec lb lb); [lra|]. rewrite linspace_nth by exact Hi. cbn [Nat.sub]. replace (INR 49) with 49 by (cbn; lra). field. Qed.
Lemma plot_arc_mean nonpar mixture o config p lb ub : circ_plot nonpar mixture o config = Draw p -> dget "mean" (given config) = None -> o_mean_ci o = Some (lb, ub) -> p_mean_arc p = Some (arc (Some (lb, ub))).
Proof.
  intros Hp N Ci. destruct (plot_inv _ _ _ _ _ Hp) as (c & dens & rose & mean & median & E & _ & _ & Em & _ & _ & _ & _ & _ & _ & H & _). rewrite merge_fold in E.
  rewrite (top_other default_config "mean" _ _ _ (proj1 (dget_None _ _) N) E) in Em. injection Em as <-. destruct (H eq_refl) as (ci & L & ->). injection L as <-. cbn [truthy]. congruence.
Qed.
Lemma plot_arc_median nonpar mixture o config p lb ub : circ_plot nonpar mixture o config = Draw p -> dget "median" (given config) = None -> o_median_ci o = Some (Some (lb, ub)) -> p_median_arc p = Some (arc (Some (lb, ub))).
Proof.
  intros Hp N Ci. destruct (plot_inv _ _ _ _ _ Hp) as (c & dens & rose & mean & median & E & _ & _ & _ & Em & _ & _ & _ & _ & _ & _ & _ & H & _). rewrite merge_fold in E.
  rewrite (top_other default_config "median" _ _ _ (proj1 (dget_None _ _) N) E) in Em. injection Em as <-. destruct (H eq_refl) as (ci & L & H2). injection L as <-. cbn [truthy] in H2. destruct H2 as (mci & M & ->). congruence.
Qed.
