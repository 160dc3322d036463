(** Concrete instances for the one-sample tests. *)
From Verif Require Import Prelude NpModel NpProofs CircleSpec UtilsModel UtilsProofs
  DescModel DescProofs DescSpec DescApi DescApi2 DescEx Desc2Model Desc2Spec ArcProofs Desc3Proofs Desc4Proofs
  Desc6Proofs Desc7Proofs Desc8Proofs Desc2Ex HypModel HypSpec HypProofs Hyp2Proofs Hyp3Proofs.

Lemma ex26 : exists t, rayleigh_test None None (Some (3/5)) (Some 10%Z) 1 [] = Ok t /\
  ray_z t = 18/5 /\ 0 < ray_pval t < 1.
Proof.
  destruct (rayleigh_valid 10 (3/5) 1 []) as (t & E & _ & Ez & Hp & H1); [lia|lra|lia|].
  exists t. split; [exact E|]. split; [rewrite Ez; lra|]. split; [lra|].
  destruct (Req_dec (ray_pval t) 1) as [Q|Q]; [|lra]. apply H1 in Q. lra.
Qed.
Lemma ex26_sample : valid_sample [0; PI / 2] (Some [2; 3]) /\ sample_size [0; PI / 2] (Some [2; 3]) = IZR 5.
Proof.
  split; [|unfold sample_size, sample_sum; simpl; lra].
  split; [discriminate|]. repeat split; [repeat constructor; lra|simpl; lra].
Qed.
Lemma ex28 : valid_sample [0; PI / 2] None /\ sample_size [0; PI / 2] None = IZR 2 /\
  circ_mean [0; PI / 2] None = Fin (PI / 4) /\ / 1000000000000 < circ_r [0; PI / 2] None /\
  sample_sum (fun a => cos (a - 0)) [0; PI / 2] None = 1.
Proof.
  destruct ex79 as (A & B & D & E).
  split; [exact A|]. split; [unfold sample_size, sample_sum; simpl; lra|]. split; [exact B|].
  split; [destruct (circ_mean_defined _ _ _ B); lra|].
  unfold sample_sum. simpl. rewrite !Rminus_0_r, cos_0, cos_PI2. ring.
Qed.
Definition ten_thirds : list R := repeat (PI / 3) 10.
Lemma repeat_same {A} (x : A) n y : In y (repeat x n) -> y = x.
Proof. apply repeat_spec. Qed.
Lemma ten_valid : valid_sample ten_thirds None /\ circ_r ten_thirds None = 1 /\ sample_size ten_thirds None = 10.
Proof.
  assert (Hv : valid_sample ten_thirds None) by (split; [discriminate|exact I]).
  split; [exact Hv|]. split.
  - apply circ_r_one; [exact Hv|]. intros p q (y & Hp & _) (z & Hq & _).
    apply in_combine_l in Hp. apply in_combine_l in Hq.
    rewrite (repeat_same _ _ _ Hp), (repeat_same _ _ _ Hq). apply same_dir_refl.
  - unfold sample_size, sample_sum. simpl. lra.
Qed.
Lemma ex29 : exists m, valid_sample ten_thirds None /\ circ_mean ten_thirds None = Fin m /\
  exists b, one_sample_test (384/100) m (Some ten_thirds) None None None = Ok b.
Proof.
  destruct ten_valid as (Hv & R1 & Sz).
  exists (mean_dir (smp ten_thirds None)). split; [exact Hv|].
  split. { destruct (circ_mean_cases ten_thirds None) as [[H _]|[_ H]]; [lra|exact H]. }
  unfold one_sample_test. rewrite (sample_args_ok _ _ Hv). cbn [bind fst snd].
  rewrite (ci_default_eq _ _ _ Hv). rewrite R1, Sz. destruct (Rleb_spec 1 (/ 1000000000000)); [lra|].
  destruct (ci_approximate_total (mean_dir (smp ten_thirds None)) 1 10 (384/100)) as [A _]; try lra.
  destruct A as [[lb ub] E].
  - rewrite <- sqrt_1. apply sqrt_le_1; lra.
  - rewrite E. cbn [bind]. eexists. reflexivity.
Qed.
Lemma ex29_bounds chi : one_sample_test chi 0 None None (Some (7 * PI / 4)) (Some (PI / 4)) = Ok false /\
  one_sample_test chi PI None None (Some (7 * PI / 4)) (Some (PI / 4)) = Ok true.
Proof.
  pose proof PI_pos as Hp. split.
  - destruct (one_sample_bounds chi 0 None None (7 * PI / 4) (PI / 4)) as (b & E & H). rewrite E. f_equal.
    destruct b; [|reflexivity]. exfalso. apply H; [reflexivity|].
    exists (PI / 4), (PI / 2). repeat split; try lra; [exists (-1)%Z|exists (-1)%Z]; lra.
  - destruct (one_sample_bounds chi PI None None (7 * PI / 4) (PI / 4)) as (b & E & H). rewrite E. f_equal.
    apply H. intros K. apply ccw_iff in K.
    rewrite (pymod_unique _ (2 * PI) (5 * PI / 4)), (pymod_unique (PI / 4 - _) (2 * PI) (PI / 2)) in K; try lra; exists (-1)%Z; lra.
Qed.
Lemma flag31 : ~ in_open_half 0 PI /\ in_open_half 0 (PI / 4).
Proof.
  pose proof PI_pos as Hp. split.
  - intros (t & Ht & D). assert (0 + t = PI); [|lra].
    apply (same_dir_unique_r (- PI)); try lra. apply same_dir_sym, D.
  - exists (PI / 4). split; [lra|]. exists 0%Z. lra.
Qed.
Lemma ex31 : exists p, batschelet_test 0 [PI / 4; PI; - PI / 4; 0] = Ok (1%nat, p).
Proof.
  pose proof PI_pos as Hp.
  destruct (batschelet_spec 0 [PI / 4; PI; - PI / 4; 0]) as (c & p & E & Hc & _); [discriminate|].
  exists p. rewrite E. do 2 f_equal.
  destruct flag31 as [F1 F2].
  assert (Q : counts (fun a => ~ in_open_half 0 a) [PI / 4; PI; - PI / 4; 0] 1).
  { exists [PI], [PI / 4; - PI / 4; 0]. split; [|split; [|split; [|reflexivity]]].
    - apply (Permutation_cons_app [PI] [- PI / 4; 0]). apply Permutation_refl.
    - constructor; auto.
    - repeat constructor; intros K; apply K.
      + exact F2.
      + exists (- PI / 4). split; [lra|]. exists 0%Z. lra.
      + exists 0. split; [lra|]. exists 0%Z. lra. }
  set (f := fun a => negb (let x := angmod0 (0 + / 2 * PI - a) in Rltb 0 x && Rltb x PI)).
  assert (K : forall a, In a [PI / 4; PI; - PI / 4; 0] -> (f a = true <-> ~ in_open_half 0 a)).
  { intros a _. unfold f. rewrite <- batschelet_flag. cbv zeta. destruct (Rltb 0 _ && Rltb _ PI); simpl; intuition congruence. }
  rewrite (counts_inv _ f _ _ K Hc), (counts_inv _ f _ _ K Q). reflexivity.
Qed.
Lemma ex31_binomial : exists t, binomial_test [PI / 4; PI; - PI / 4; 0] 0 = Ok t /\
  bin_n1 t = 1%nat /\ bin_n2 t = 2%nat /\ bin_neff t = 3%nat.
Proof.
  pose proof PI_pos as Hp. eexists. split; [reflexivity|]. cbn [bin_n1 bin_n2 bin_neff map].
  assert (V : forall a x, - PI < x <= PI -> same_dir x a -> circ_dist Center a 0 = x).
  { intros a x Hx [j Hj]. destruct (center_spec a 0) as [Rg [k E]].
    apply (same_dir_unique_r (- PI)); try lra. exists (k - j)%Z. rewrite minus_IZR. lra. }
  rewrite (V (PI / 4) (PI / 4)), (V PI PI), (V (- PI / 4) (- PI / 4)), (V 0 0); try lra; try (exists 0%Z; lra).
  unfold count_if. cbn [filter].
  destruct (Rltb_spec (PI / 4) 0); [lra|]. destruct (Rltb_spec PI 0); [lra|]. destruct (Rltb_spec (- PI / 4) 0); [|lra].
  destruct (Rltb_spec 0 0); [lra|]. destruct (Rltb_spec 0 (PI / 4)); [|lra]. destruct (Rltb_spec 0 PI); [|lra].
  destruct (Rltb_spec 0 (- PI / 4)); [lra|]. auto.
Qed.
Lemma ex81 sf : chisquare_test sf [1; 2; 3] = Ok (Fin 1, Fin (sf 2%nat 1)).
Proof.
  destruct (chisquare_spec sf [1; 2; 3]) as (x & E & _ & _ & V); [discriminate|repeat constructor; lra|simpl; lra|].
  rewrite E. assert (x = 1) as -> by (rewrite V; simpl; field). reflexivity.
Qed.
Lemma ex82 {T} (wx : list R -> T) :
  symmetry_test wx [0; PI / 2; PI] (Some (PI / 2)) = Ok (Some (wx [- (PI / 2); 0; PI / 2])).
Proof.
  pose proof PI_pos as Hp. unfold symmetry_test. cbn [length Nat.eqb]. do 3 f_equal. unfold symmetry_diffs. cbn [map].
  assert (V : forall x, - PI <= x < PI -> angmod_val x (- PI) PI = x).
  { intros x Hx. pose proof (angmod_pi_range x). apply (same_dir_unique (- PI)); try lra. apply angmod_pi_dir. }
  rewrite !V by lra. repeat (f_equal; try lra).
Qed.
