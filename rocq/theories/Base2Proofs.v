From Verif Require Import Prelude NpModel NpProofs CircleSpec UtilsModel UtilsProofs DescModel DescProofs
  DescSpec DescApi Desc2Model ArcProofs Desc8Proofs HypModel HypProofs JpEx BaseModel BaseSpec BaseProofs.
Open Scope string_scope.
Open Scope R_scope.

(** * Sums over a histogram *)
Definition hsum (f : R -> R) (alpha edges : list R) : R :=
  Rsum (map (fun p => snd p * f (fst p)) (combine (centers edges) (hist_counts alpha edges))).
Lemma hist_step lo hi rest alpha : hist_counts alpha (lo :: hi :: rest) =
  INR (count_if (fun a => match rest with [] => Rleb lo a && Rleb a hi | _ => Rleb lo a && Rltb a hi end) alpha)
  :: hist_counts alpha (hi :: rest).
Proof. reflexivity. Qed.
Lemma hsum_step f lo hi rest alpha : hsum f alpha (lo :: hi :: rest) =
  INR (count_if (fun a => match rest with [] => Rleb lo a && Rleb a hi | _ => Rleb lo a && Rltb a hi end) alpha)
   * f (/ 2 * (lo + hi)) + hsum f alpha (hi :: rest).
Proof. unfold hsum. rewrite hist_step. cbn [centers combine map]. rewrite Rsum_cons. reflexivity. Qed.
Lemma count_if_cons {A} (p : A -> bool) a l : INR (count_if p (a :: l)) = INR (count_if p [a]) + INR (count_if p l).
Proof. unfold count_if. cbn. destruct (p a); cbn [List.length]; [rewrite S_INR; cbn; ring|cbn; ring]. Qed.
Lemma hsum_cons f a alpha : forall edges, hsum f (a :: alpha) edges = hsum f [a] edges + hsum f alpha edges.
Proof.
  induction edges as [|lo [|hi rest] IH]; [unfold hsum; cbn; ring|unfold hsum; cbn; ring|].
  rewrite !hsum_step, count_if_cons, IH. ring.
Qed.
Lemma hsum_nil f : forall edges, hsum f [] edges = 0.
Proof.
  induction edges as [|lo [|hi rest] IH]; [reflexivity|reflexivity|]. rewrite hsum_step, IH. cbn. ring.
Qed.
Lemma last_cons2 (x y : R) l d : last (x :: y :: l) d = last (y :: l) d.
Proof. reflexivity. Qed.
Lemma inc_last : forall l x, increasing (x :: l) = true -> x <= last (x :: l) 0.
Proof.
  induction l as [|y t IH]; intros x; [cbn; intros; lra|]. rewrite last_cons2. cbn [increasing].
  destruct (Rleb_spec x y); [|discriminate]. cbn [andb]. intros H. specialize (IH y H). lra.
Qed.
Lemma hsum_below f a : forall edges, increasing edges = true -> a < hd 0 edges -> hsum f [a] edges = 0.
Proof.
  induction edges as [|lo [|hi rest] IH]; [reflexivity|reflexivity|]. intros Hi Ha. cbn [hd] in *.
  cbn [increasing] in Hi. destruct (Rleb_spec lo hi) as [L|L]; [|discriminate]. cbn [andb] in Hi.
  rewrite hsum_step, (IH Hi) by (cbn [hd]; lra). unfold count_if. cbn [filter].
  destruct rest; destruct (Rleb_spec lo a); [lra| | lra| ]; cbn; ring.
Qed.
Lemma hsum_above f a : forall edges, increasing edges = true -> last edges 0 < a -> hsum f [a] edges = 0.
Proof.
  induction edges as [|lo [|hi rest] IH]; [reflexivity|reflexivity|]. intros Hi Ha. rewrite last_cons2 in Ha.
  cbn [increasing] in Hi. destruct (Rleb_spec lo hi) as [L|L]; [|discriminate]. cbn [andb] in Hi.
  rewrite hsum_step, (IH Hi) by (exact Ha). pose proof (inc_last _ _ Hi) as HL. unfold count_if. cbn [filter].
  destruct rest as [|y t].
  - cbn in Ha. destruct (Rleb_spec lo a); destruct (Rleb_spec a hi); try lra; cbn; ring.
  - destruct (Rleb_spec lo a); destruct (Rltb_spec a hi); try lra; cbn; ring.
Qed.
Lemma hsum_inside a : forall edges, increasing edges = true -> (2 <= length edges)%nat ->
  hd 0 edges <= a <= last edges 0 ->
  exists lo hi, In (lo, hi) (combine edges (tl edges)) /\ lo <= a <= hi /\ forall f, hsum f [a] edges = f (/ 2 * (lo + hi)).
Proof.
  induction edges as [|lo [|hi rest] IH]; [cbn; lia|cbn; lia|]. intros Hi _ Ha. rewrite last_cons2 in Ha. cbn [hd] in Ha.
  cbn [increasing] in Hi. destruct (Rleb_spec lo hi) as [L|L]; [|discriminate]. cbn [andb] in Hi.
  destruct rest as [|y t].
  - cbn in Ha. exists lo, hi. split; [left; reflexivity|]. split; [lra|]. intros f. rewrite hsum_step. unfold count_if. cbn [filter].
    destruct (Rleb_spec lo a); [|lra]. destruct (Rleb_spec a hi); [|lra]. unfold hsum. cbn. ring.
  - destruct (Rlt_le_dec a hi) as [Hl|Hl].
    + exists lo, hi. split; [left; reflexivity|]. split; [lra|]. intros f. rewrite hsum_step.
      rewrite (hsum_below f a) by (auto || (cbn [hd]; lra)). unfold count_if. cbn [filter].
      destruct (Rleb_spec lo a); [|lra]. destruct (Rltb_spec a hi); [|lra]. cbn. ring.
    + destruct (IH Hi ltac:(cbn; lia) ltac:(cbn [hd]; lra)) as (l1 & h1 & I1 & B1 & F1).
      exists l1, h1. split; [right; exact I1|]. split; [exact B1|]. intros f. rewrite hsum_step, F1.
      unfold count_if. cbn [filter].
      destruct (Rleb_spec lo a); [|lra]. destruct (Rltb_spec a hi); [lra|]. cbn. ring.
Qed.
(** The number of observations a histogram counts. *)
Definition within (e : list R) (a : R) : bool := Rleb (hd 0 e) a && Rleb a (last e 0).
Lemma hist_total_h edges alpha : increasing edges = true -> (2 <= length edges)%nat ->
  hsum (fun _ => 1) alpha edges = INR (count_if (within edges) alpha).
Proof.
  intros Hi Hl. induction alpha as [|a t IH]; [rewrite hsum_nil; reflexivity|].
  rewrite hsum_cons, IH, count_if_cons. f_equal. unfold count_if, within. cbn [filter].
  destruct (Rleb_spec (hd 0 edges) a) as [L|L]; destruct (Rleb_spec a (last edges 0)) as [M|M]; cbn [andb List.length].
  - destruct (hsum_inside a edges Hi Hl (conj L M)) as (lo & hi & _ & _ & F). rewrite F. reflexivity.
  - rewrite hsum_above by (assumption || lra). reflexivity.
  - rewrite hsum_below by (assumption || lra). reflexivity.
  - rewrite hsum_below by (assumption || lra). reflexivity.
Qed.
Lemma hist_len alpha : forall edges, length (hist_counts alpha edges) = length (centers edges).
Proof. induction edges as [|lo [|hi rest] IH]; [reflexivity|reflexivity|]. rewrite hist_step. cbn [centers List.length] in *. now rewrite IH. Qed.
Lemma hist_total edges alpha : increasing edges = true -> (2 <= length edges)%nat ->
  Rsum (hist_counts alpha edges) = INR (count_if (within edges) alpha).
Proof.
  intros Hi Hl. rewrite <- hist_total_h by auto. unfold hsum. pose proof (hist_len alpha edges) as E. revert E.
  generalize (hist_counts alpha edges) (centers edges). clear. intros l. induction l as [|x t IH]; intros [|c u]; cbn [List.length]; try discriminate; [reflexivity|].
  intros E. cbn [combine map]. rewrite !Rsum_cons, <- IH by lia. cbn. ring.
Qed.
Lemma hist_nonneg alpha : forall edges, Forall (fun x => 0 <= x) (hist_counts alpha edges).
Proof. induction edges as [|lo [|hi rest] IH]; [constructor|constructor|]. rewrite hist_step. constructor; [apply pos_INR|exact IH]. Qed.

(** * Equal bins *)
Lemma even_inc k : (1 <= k)%nat -> increasing (even_edges k) = true.
Proof.
  intros Hk. unfold even_edges. assert (P : 0 < 2 * PI / INR k).
  { pose proof PI_RGT_0. apply Rdiv_lt_0_compat; [lra|apply lt_0_INR; lia]. }
  generalize (S k) as n. intros n. generalize 0%nat as s. induction n as [|n IH]; intros s; [reflexivity|].
  cbn [seq map]. destruct n as [|n]; [reflexivity|]. cbn [seq map increasing]. 
  destruct (Rleb_spec (INR s * (2 * PI / INR k)) (INR (S s) * (2 * PI / INR k))) as [L|L].
  - cbn [andb]. specialize (IH (S s)). cbn [seq map] in IH. exact IH.
  - rewrite S_INR in L. lra.
Qed.
Lemma even_len k : length (even_edges k) = S k.
Proof. unfold even_edges. rewrite map_length, seq_length. reflexivity. Qed.
Lemma even_hd k : hd 0 (even_edges k) = 0.
Proof. unfold even_edges. cbn. ring. Qed.
Lemma even_last k : (1 <= k)%nat -> last (even_edges k) 0 = 2 * PI.
Proof.
  intros Hk. unfold even_edges. rewrite seq_S, map_app. cbn [map]. rewrite last_last. cbn [plus]. 
  field. apply not_0_INR. lia.
Qed.
Lemma seq_pairs (f : nat -> R) k : forall s, combine (map f (seq s (S k))) (tl (map f (seq s (S k)))) = map (fun i => (f i, f (S i))) (seq s k).
Proof. induction k as [|k IH]; intros s; [reflexivity|]. cbn [seq map tl combine]. f_equal. specialize (IH (S s)). cbn [seq map tl] in IH. exact IH. Qed.
Lemma even_pairs k : combine (even_edges k) (tl (even_edges k)) = map (fun i => (INR i * (2 * PI / INR k), INR (S i) * (2 * PI / INR k))) (seq 0 k).
Proof. unfold even_edges. apply seq_pairs. Qed.
Lemma even_total k alpha : (1 <= k)%nat -> Rsum (hist_counts alpha (even_edges k)) = INR (count_if (fun a => Rleb 0 a && Rleb a (2 * PI)) alpha).
Proof.
  intros Hk. rewrite hist_total by (try apply even_inc; try rewrite even_len; lia). f_equal. apply count_if_ext.
  intros a _. unfold within. rewrite even_hd, even_last by auto. reflexivity.
Qed.
(** Bin i. *)
Lemma hist_nth (f : nat -> R) alpha : forall n s i, (i < n)%nat -> nth i (hist_counts alpha (map f (seq s (S n)))) 0 =
  INR (count_if (fun a => Rleb (f (s + i)%nat) a && (if Nat.eqb (S i) n then Rleb a (f (S (s + i))) else Rltb a (f (S (s + i))))) alpha).
Proof.
  induction n as [|n IH]; intros s i Hi; [lia|]. cbn [seq map]. rewrite hist_step.
  destruct i as [|i]; cbn [nth].
  - f_equal. rewrite Nat.add_0_r. destruct n as [|n]; reflexivity.
  - specialize (IH (S s) i ltac:(lia)). cbn [seq map] in IH. rewrite IH. f_equal. apply count_if_ext. intros a _.
    replace (S s + i)%nat with (s + S i)%nat by lia. reflexivity.
Qed.
