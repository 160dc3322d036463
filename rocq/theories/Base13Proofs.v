From Verif Require Import Prelude NpModel NpProofs CircleSpec UtilsModel UtilsProofs DescModel DescProofs
  DescSpec DescApi DescApi2 Desc2Model Desc2Proofs Desc2Spec ArcProofs Desc3Proofs Desc4Proofs Desc6Proofs Desc7Proofs Desc2Ex HypModel HypProofs
  BaseModel BaseSpec BaseProofs Base2Proofs Base3Proofs Base4Proofs Base11Proofs Base12Proofs.
Open Scope string_scope.
Open Scope R_scope.

(** * C172 *)
Lemma median_grouped alpha w meth b avg : circ_r alpha (Some w) < conc_limit -> (exists v, In v w /\ v <> 1) ->
  circ_median alpha (Some w) meth b avg =
  (do m <- circ_median_grouped alpha w;
   do m' <- (if b then if String.eqb avg "all" then Ok (average m (fun l => l))
                       else if String.eqb avg "unique" then Ok (average m unique) else Err ValueError
             else Ok m); Ok (med_mod m')).
Proof.
  intros Hr (v & Hv & N). unfold circ_median. cbn [weights]. change (circ_r_s (combine alpha w)) with (circ_r alpha (Some w)).
  rewrite not_concentrated by auto. replace (forallb (fun x => Reqb x 1) w) with false; [reflexivity|].
  symmetry. apply Bool.not_true_iff_false. intros F. rewrite forallb_forall in F. specialize (F v Hv). apply Reqb_true in F. contradiction.
Qed.
Lemma even_bins_split a w h meth avg m : (1 <= h)%nat -> INR h <= 500000 -> length w = (2 * h)%nat -> counts w ->
  circ_r (bin_centres a (2 * h)) (Some w) < conc_limit -> (exists v, In v w /\ v <> 1) ->
  circ_median (bin_centres a (2 * h)) (Some w) meth false avg = Ok (MOne m) ->
  exists i f, (i < 2 * h)%nat /\ 0 <= f <= 1 /\ 0 <= m < 2 * PI /\
    same_dir m (a + (INR i + 1/2 + f) * (2 * PI / INR (2 * h))) /\ half_mass w h i f = Rsum w / 2.
Proof.
  intros Hh Hh' Hl Hc Hr Hv E. rewrite median_grouped in E by auto.
  destruct (circ_median_grouped (bin_centres a (2 * h)) w) as [g|] eqn:G; [|discriminate]. cbn [bind] in E.
  destruct g as [|m0|l]; [discriminate| |discriminate].
  match type of E with Ok (med_mod (MOne ?z)) = _ => assert (E' : m = angmod0 z) by (cbn [med_mod] in E; congruence) end. subst m.
  destruct (grouped_split a w h m0 Hh Hh' Hl Hc G) as (i & f & I1 & I2 & I3 & I4).
  exists i, f. split; [exact I1|]. split; [exact I2|]. split; [apply angmod0_range|]. split; [|exact I4].
  replace (a + (INR i + 1/2 + f) * (2 * PI / INR (2 * h))) with m0; [apply angmod0_same_dir|]. rewrite I3. unfold ub_at. field.
  apply not_0_INR. lia.
Qed.
Lemma even_bins_ok a w h meth b avg : (1 <= h)%nat -> INR h <= 500000 -> length w = (2 * h)%nat -> counts w ->
  circ_r (bin_centres a (2 * h)) (Some w) < conc_limit -> (exists v, In v w /\ v <> 1) ->
  avg = "all" \/ avg = "unique" ->
  exists m, circ_median (bin_centres a (2 * h)) (Some w) meth b avg = Ok m.
Proof.
  intros Hh Hh' Hl Hc Hr Hv Ha. rewrite median_grouped by auto. destruct (grouped_ok a w h Hh Hh' Hl Hc) as (m & ->). cbn [bind].
  destruct b; [|eexists; reflexivity]. destruct Ha as [-> | ->]; cbn [String.eqb Ascii.eqb Bool.eqb]; eexists; reflexivity.
Qed.
(** Three bins. *)
Lemma three_grouped : circ_median_grouped (bin_centres 0 3) [1; 1; 0] = Ok (MOne PI).
Proof.
  pose proof pi_digits as PD. pose proof round5_PI as RP. unfold circ_median_grouped. rewrite bins_diff by lia. cbn [bind].
  set (H := 2 * PI / INR 3). assert (HE : H = 2 * PI / 3) by (unfold H; cbn [INR]; lra).
  assert (EU : map (fun u => u + H / 2) (bin_centres 0 3) = map (fun j => INR j * H + H / 2) (seq 0 3)).
  { unfold bin_centres. rewrite map_map. apply map_ext. intros j. fold H. ring. }
  rewrite EU. change (length (bin_centres 0 3)) with 3%nat.
  assert (EF : forall i, (i < 3)%nat -> Rsum (mask (map (fun u => Rleb 0 (angmod0 (u - nth i (map (fun j => INR j * H + H / 2) (seq 0 3)) 0)) &&
     Rleb (angmod0 (u - nth i (map (fun j => INR j * H + H / 2) (seq 0 3)) 0)) (round5 PI)) (map (fun j => INR j * H + H / 2) (seq 0 3))) (roll_left [1; 1; 0]))
     = Rsum (mask (map (fun j => Nat.ltb ((j + 3 - i) mod 3) 2) (seq 0 3)) [1; 0; 1])).
  { intros i Hi. f_equal. change (roll_left [1; 1; 0]) with [1; 0; 1]. f_equal. rewrite map_map. apply map_ext_in. intros j Hj. apply in_seq in Hj.
    rewrite nth_map_seq by lia. replace (INR j * H + H / 2 - (INR i * H + H / 2)) with ((INR j - INR i) * H) by ring.
    rewrite (off_mod H 3 i j) by (auto; lia). rewrite RP. set (q := ((j + 3 - i) mod 3)%nat). assert (q < 3)%nat by (apply Nat.mod_upper_bound; lia).
    destruct q as [|[|[|q]]]; [| | |lia]; cbn [INR Nat.ltb Nat.leb];
    match goal with |- context [Rleb 0 ?y] => destruct (Rleb_spec 0 y); [|lra] end; cbn [andb];
    match goal with |- context [Rleb ?y ?z] => destruct (Rleb_spec y z) end; try reflexivity; exfalso; lra. }
  cbn [seq] in EF |- *. cbv zeta. cbn [map] in EF |- *.
  rewrite (EF 0%nat), (EF 1%nat), (EF 2%nat) by lia. clear EF.
  change ((0 + 3 - 0) mod 3)%nat with 0%nat. change ((1 + 3 - 0) mod 3)%nat with 1%nat. change ((2 + 3 - 0) mod 3)%nat with 2%nat.
  change ((0 + 3 - 1) mod 3)%nat with 2%nat. change ((1 + 3 - 1) mod 3)%nat with 0%nat. change ((2 + 3 - 1) mod 3)%nat with 1%nat.
  change ((0 + 3 - 2) mod 3)%nat with 1%nat. change ((1 + 3 - 2) mod 3)%nat with 2%nat. change ((2 + 3 - 2) mod 3)%nat with 0%nat.
  cbn [Nat.ltb Nat.leb mask combine filter fst map snd]. unfold mask. cbn [combine filter fst map snd].
  change (roll_right (roll_right [1; 1; 0])) with [1; 0; 1]. cbn [Nat.even].
  match goal with |- context [map2 ?f ?l [1; 0; 1]] => replace (map2 f l [1; 0; 1]) with [1/2; 2/2; -(1)/2]; cycle 1 end.
  { unfold map2. cbn [combine map fst snd]. repeat rewrite ?Rsum_cons, ?Rsum_nil. f_equal; [lra|]. f_equal; [lra|]. f_equal; lra. }
  replace (Rsum [1; 1; 0]) with 2 by (repeat rewrite ?Rsum_cons, ?Rsum_nil; lra).
  cbn [roll_left app map combine length seq filter nth fst snd].
  change (-(1)/2) with (-1/2). rewrite !round5_half.
  repeat (match goal with |- context [Rleb ?y ?z] => destruct (Rleb_spec y z); [try (exfalso; lra)|try (exfalso; lra)] end; cbn [andb]).
  cbn [length Nat.eqb nth fst snd]. rewrite Rmin_left, Rmax_right by lra.
  destruct (Reqb (2/2) (1/2)) eqn:E; [apply Reqb_true in E; lra|]. f_equal. f_equal. rewrite HE. cbn [INR]. field.
Qed.
Lemma three_mirror : mirror_symmetric (bin_centres 0 3) [1; 1; 0] (PI / 3).
Proof.
  exists [2 * PI / 3; 0; 4 * PI / 3]. split.
  - unfold bin_centres. cbn [seq map INR]. apply Forall2_cons; [|apply Forall2_cons; [|apply Forall2_cons; [|apply Forall2_nil]]].
    + match goal with |- same_dir ?x ?y => replace x with y by field; apply same_dir_refl end.
    + match goal with |- same_dir ?x ?y => replace x with y by field; apply same_dir_refl end.
    + replace (2 * (PI / 3) - (0 + (1 + 1) * (2 * PI / (1 + 1 + 1)))) with (4 * PI / 3 + 2 * PI * IZR (-1)) by (cbn; field).
      exists (-1)%Z; lra.
  - unfold bin_centres. cbn [seq map INR combine]. replace (0 + 0 * (2 * PI / (1 + 1 + 1))) with 0 by field.
    replace (0 + 1 * (2 * PI / (1 + 1 + 1))) with (2 * PI / 3) by field. replace (0 + (1 + 1) * (2 * PI / (1 + 1 + 1))) with (4 * PI / 3) by field.
    apply perm_swap.
Qed.
Lemma three_api : circ_median (bin_centres 0 3) (Some [1; 1; 0]) (Some "deviation") false "all" = Ok (MOne PI).
Proof.
  rewrite median_grouped.
  - rewrite three_grouped. cbn [bind med_mod]. f_equal. f_equal. apply angmod0_id. pose proof PI_RGT_0. lra.
  - change (circ_r (bin_centres 0 3) (Some [1; 1; 0])) with (circ_r_s (combine (bin_centres 0 3) [1; 1; 0])).
    rewrite circ_r_s_eq by (unfold wtotal; cbn; lra).
    unfold Rlen, Csum, Ssum, wtotal, bin_centres. cbn [seq map combine INR fst snd]. repeat rewrite ?Rsum_cons, ?Rsum_nil.
    replace (0 + 0 * (2 * PI / (1 + 1 + 1))) with 0 by field.
    replace (0 + 1 * (2 * PI / (1 + 1 + 1))) with (2 * (PI / 3)) by field. rewrite cos_0, sin_0, cos_2PI3, sin_2PI3.
    assert (S3 : sqrt 3 * sqrt 3 = 3) by (apply sqrt_sqrt; lra).
    match goal with |- sqrt ?x / _ < _ => replace x with (1 * 1) by nra end. rewrite sqrt_square by lra. unfold conc_limit. lra.
  - exists 0. split; [right; right; now left|lra].
Qed.
Lemma mirror_refuted : exists alpha w c m, mirror_symmetric alpha w c /\ counts w /\ equally_spaced alpha /\
  circ_median alpha (Some w) (Some "deviation") false "all" = Ok (MOne m) /\ ~ same_dir (2 * c - m) m.
Proof.
  exists (bin_centres 0 3), [1; 1; 0], (PI / 3), PI. split; [apply three_mirror|]. split; [repeat constructor; [exists 1%nat|exists 1%nat|exists 0%nat]; reflexivity|].
  split; [exists 0; reflexivity|]. split; [apply three_api|].
  intros Hd. apply same_dir_iff in Hd. destruct Hd as (Hc & Hs). replace (2 * (PI / 3) - PI) with (- (PI / 3)) in Hc by field. rewrite cos_neg, cos_PI3, cos_PI in Hc. lra.
Qed.
