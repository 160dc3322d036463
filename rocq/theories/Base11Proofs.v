From Verif Require Import Prelude NpModel NpProofs CircleSpec UtilsModel UtilsProofs DescModel DescProofs
  DescSpec DescApi DescApi2 Desc2Model Desc2Proofs Desc2Spec ArcProofs Desc3Proofs Desc4Proofs Desc6Proofs Desc7Proofs Desc2Ex HypModel HypProofs
  BaseModel BaseSpec BaseProofs Base2Proofs Base3Proofs Base4Proofs.
From Coq Require Import Machin Ratan.
Open Scope R_scope.

Lemma pi_digits : 314159/100000 < PI < 3141593/1000000.
Proof.
  pose proof (PI_2_3_7_ineq 3) as [H1 H2].
  unfold tg_alt, PI_2_3_7_tg, Ratan_seq in H1, H2.
  change (2 * 3)%nat with 6%nat in *. cbn [sum_f_R0 Nat.mul Nat.add] in H1, H2.
  cbn [pow INR Nat.mul Nat.add] in H1, H2. split; lra.
Qed.
Lemma rint_IZR z : rint (IZR z) = z.
Proof.
  unfold rint. rewrite Rfloor_IZR. destruct (Rltb_spec (IZR z - IZR z) (1/2)); [reflexivity|lra].
Qed.
Lemma round5_half z : round5 (IZR z / 2) = IZR z / 2.
Proof. unfold round5. replace (IZR z / 2 * 100000) with (IZR (z * 50000)) by (rewrite mult_IZR; lra). rewrite rint_IZR, mult_IZR. lra. Qed.
Lemma round5_PI : round5 PI = 314159/100000.
Proof.
  pose proof pi_digits. unfold round5. assert (F : Rfloor (PI * 100000) = 314159%Z) by (apply Rfloor_unique; lra).
  unfold rint. rewrite F. destruct (Rltb_spec (PI * 100000 - IZR 314159) (1/2)); [reflexivity|lra].
Qed.
(** * Cyclic sums *)
Definition csum (F : nat -> R) (s n : nat) : R := Rsum (map F (seq s n)).
Lemma csum_S F s n : csum F s (S n) = F s + csum F (S s) n.
Proof. unfold csum. cbn [seq map]. apply Rsum_cons. Qed.
Lemma csum_app F s n m : csum F s (n + m) = csum F s n + csum F (s + n) m.
Proof. revert s. induction n; intros s; [rewrite Nat.add_0_r; unfold csum at 2; cbn; rewrite Rplus_0_l; reflexivity|]. cbn [Nat.add]. rewrite !csum_S, IHn. replace (S s + n)%nat with (s + S n)%nat by lia. ring. Qed.
Lemma csum_ext F G s n : (forall j, (s <= j < s + n)%nat -> F j = G j) -> csum F s n = csum G s n.
Proof. intros H. unfold csum. f_equal. apply map_ext_in. intros j Hj. apply in_seq in Hj. apply H. lia. Qed.
Lemma csum_shift F s n d : csum F (s + d) n = csum (fun j => F (j + d)%nat) s n.
Proof. revert s. induction n; intros s; [reflexivity|]. rewrite !csum_S. f_equal. replace (S (s + d))%nat with (S s + d)%nat by lia. apply IHn. Qed.
Lemma csum_cyclic F k : (forall j, F (j + k)%nat = F j) -> forall i, csum F i k = csum F 0 k.
Proof.
  intros HF. induction i; [reflexivity|]. rewrite <- IHi. destruct k as [|k]; [reflexivity|].
  rewrite (csum_S F i). replace (S k) with (k + 1)%nat at 1 by lia. rewrite csum_app.
  rewrite csum_S. unfold csum at 2. cbn [seq map]. change (Rsum []) with 0.
  replace (S i + k)%nat with (i + S k)%nat by lia. rewrite HF. ring.
Qed.
Lemma mask_map {A B} (p : A -> bool) (v : A -> B) l : mask (map p l) (map v l) = map v (filter p l).
Proof. unfold mask. induction l as [|x t IH]; [reflexivity|]. cbn. destruct (p x); cbn; rewrite IH; reflexivity. Qed.
Lemma Rsum_filter {A} (p : A -> bool) (v : A -> R) l : Rsum (map v (filter p l)) = Rsum (map (fun j => if p j then v j else 0) l).
Proof. induction l as [|x t IH]; [reflexivity|]. cbn [filter map]. rewrite Rsum_cons, <- IH. destruct (p x); cbn [map]; rewrite ?Rsum_cons; ring. Qed.
Lemma nth_list {A} (l : list A) d : l = map (fun j => nth j l d) (seq 0 (length l)).
Proof.
  induction l as [|x t IH]; [reflexivity|]. cbn [length seq map nth]. f_equal. rewrite <- seq_shift, map_map. exact IH.
Qed.
Lemma bin_per w j : bin_at w (j + length w) = bin_at w j.
Proof. unfold bin_at. f_equal. destruct (length w) as [|k]; [now rewrite Nat.add_0_r|]. rewrite <- (Nat.mul_1_l (S k)) at 1. apply Nat.mod_add. lia. Qed.
Lemma w_bins w : w = map (bin_at w) (seq 0 (length w)).
Proof.
  rewrite (nth_list w 0) at 1. apply map_ext_in. intros j Hj. apply in_seq in Hj. unfold bin_at. rewrite Nat.mod_small by lia. reflexivity.
Qed.
Lemma roll_left_fun {A} (f : nat -> A) k : (1 <= k)%nat -> f k = f 0%nat -> roll_left (map f (seq 0 k)) = map (fun j => f (S j)) (seq 0 k).
Proof.
  intros Hk E. destruct k as [|k]; [lia|]. change (map f (seq 0 (S k))) with (f 0%nat :: map f (seq 1 k)). unfold roll_left. rewrite <- E.
  replace (seq 0 (S k)) with (seq 0 k ++ [k])%list by (symmetry; apply seq_S). rewrite map_app, <- seq_shift, map_map. reflexivity.
Qed.
(** * Direction arithmetic of the bins *)
Lemma bins_diff a k : (2 <= k)%nat -> list_min (diff (bin_centres a k)) = Ok (2 * PI / INR k).
Proof.
  intros Hk. unfold bin_centres. destruct k as [|k]; [lia|]. rewrite diff_map.
  set (H := 2 * PI / INR (S k)).
  assert (E : map (fun i => a + INR (S i) * H - (a + INR i * H)) (seq 0 k) = repeat H k).
  { clearbody H. clear Hk. generalize 0%nat. induction k; intros s; [reflexivity|]. cbn [seq map repeat]. rewrite IHk. f_equal. rewrite S_INR. ring. }
  rewrite E. destruct k; [lia|]. cbn [repeat list_min]. f_equal. apply Rlmin_const.
Qed.
Lemma off_mod (H : R) k i j : (1 <= k)%nat -> H = 2 * PI / INR k -> (i < k)%nat -> (j < k)%nat ->
  angmod0 ((INR j - INR i) * H) = INR ((j + k - i) mod k) * H.
Proof.
  intros Hk -> Hi Hj. pose proof PI_RGT_0. assert (K : 0 < INR k) by (apply lt_0_INR; lia).
  apply angmod0_unique.
  - assert (M : ((j + k - i) mod k < k)%nat) by (apply Nat.mod_upper_bound; lia). apply lt_INR in M.
    pose proof (pos_INR ((j + k - i) mod k)). set (q := INR ((j + k - i) mod k)) in *. split.
    + apply Rmult_le_pos; [lra|]. apply Rmult_le_pos; [lra|]. left. now apply Rinv_0_lt_compat.
    + replace (2 * PI) with (INR k * (2 * PI / INR k)) at 2 by (field; lra). apply Rmult_lt_compat_r; [|lra].
      apply Rmult_lt_0_compat; [lra|]. now apply Rinv_0_lt_compat.
  - destruct (Nat.le_gt_cases i j) as [L|L].
    + replace (j + k - i)%nat with (j - i + 1 * k)%nat by lia. rewrite Nat.mod_add, Nat.mod_small by lia. rewrite minus_INR by lia. exists 0%Z. cbn. ring.
    + rewrite Nat.mod_small by lia. replace (j + k - i)%nat with (k - (i - j))%nat by lia. rewrite !minus_INR by lia. exists 1%Z. field. lra.
Qed.
(** * The cumulative weights *)
Definition lsum (w : list R) (h i : nat) : R := csum (bin_at w) (i + h + 1) h.
Lemma lsum_anti w h i : length w = (2 * h)%nat -> lsum w h i + lsum w h (i + h) = Rsum w.
Proof.
  intros L. unfold lsum. replace (i + h + h + 1)%nat with (i + h + 1 + h)%nat by lia. rewrite <- csum_app.
  replace (h + h)%nat with (length w) by lia. rewrite csum_cyclic by (apply bin_per). unfold csum. now rewrite <- w_bins.
Qed.
Lemma lsum_per w h i : length w = (2 * h)%nat -> lsum w h (i + 2 * h) = lsum w h i.
Proof.
  intros L. unfold lsum. replace (i + 2 * h + h + 1)%nat with (i + h + 1 + length w)%nat by lia. rewrite csum_shift.
  apply csum_ext. intros j _. apply bin_per.
Qed.
Lemma lsum_mod w h i : (1 <= h)%nat -> length w = (2 * h)%nat -> lsum w h (i mod (2 * h)) = lsum w h i.
Proof.
  intros Hh L. rewrite (Nat.div_mod i (2 * h)) at 2 by lia. generalize (i / (2 * h))%nat as q. induction q.
  - f_equal. lia.
  - rewrite IHq. replace (2 * h * S q + i mod (2 * h))%nat with (2 * h * q + i mod (2 * h) + 2 * h)%nat by lia. symmetry. apply lsum_per, L.
Qed.
Lemma lsum_mass w h i f : (1 <= h)%nat -> length w = (2 * h)%nat ->
  half_mass w h i f = lsum w h i + f * (lsum w h (S i) - lsum w h i).
Proof.
  intros Hh L. unfold half_mass, lsum. destruct h as [|h]; [lia|]. replace (S h - 1)%nat with h by lia.
  replace (S i + S h + 1)%nat with (S (i + S h + 1)) by lia.
  rewrite (csum_S (bin_at w) (i + S h + 1) h). set (B := (i + S h + 1)%nat) in *.
  replace (csum (bin_at w) (S B) (S h)) with (csum (bin_at w) (S B) h + bin_at w (i + 1)).
  2:{ replace (S h) with (h + 1)%nat by lia. rewrite csum_app. f_equal. rewrite csum_S. unfold csum. cbn [seq map]. change (Rsum []) with 0. rewrite Rplus_0_r.
      rewrite <- (bin_per w (i + 1)). f_equal. unfold B. lia. }
  replace (Rsum (map (fun j => bin_at w (B + j)) (seq 1 h))) with (csum (bin_at w) (S B) h); [ring|].
  replace (S B) with (1 + B)%nat by lia. rewrite csum_shift. unfold csum. f_equal. apply map_ext. intros j. f_equal. lia.
Qed.
(** * Evaluating the routine for an even number of equal bins *)
Lemma counts_bin w i : counts w -> exists n : nat, bin_at w i = INR n.
Proof.
  intros H. unfold bin_at. destruct (Nat.lt_ge_cases (i mod length w) (length w)) as [L|L].
  - unfold counts in H. rewrite Forall_forall in H. apply H, nth_In, L.
  - exists 0%nat. rewrite nth_overflow by auto. reflexivity.
Qed.
Lemma counts_csum w s n : counts w -> exists z : nat, csum (bin_at w) s n = INR z.
Proof.
  intros H. revert s. induction n; intros s; [exists 0%nat; reflexivity|]. rewrite csum_S. destruct (IHn (S s)) as (z & ->).
  destruct (counts_bin w s H) as (y & ->). exists (y + z)%nat. now rewrite plus_INR.
Qed.
Lemma counts_sum w : counts w -> exists z : nat, Rsum w = INR z.
Proof. intros H. rewrite (w_bins w). apply (counts_csum w 0 (length w) H). Qed.
Lemma round5_INR n : round5 (INR n) = INR n.
Proof. rewrite INR_IZR_INZ. replace (IZR (Z.of_nat n)) with (IZR (Z.of_nat n * 2) / 2) by (rewrite mult_IZR; lra). apply round5_half. Qed.
Lemma mod_pos i k : (i mod k <= i)%nat.
Proof. destruct k; [cbn; lia|]. apply Nat.mod_le. lia. Qed.
Lemma right_sum a w h i : (1 <= h)%nat -> INR h <= 500000 -> length w = (2 * h)%nat -> (i < 2 * h)%nat ->
  Rsum (mask (map (fun u => let x := angmod0 (u - (a + INR i * (2 * PI / INR (2 * h)) + 2 * PI / INR (2 * h) / 2)) in Rleb 0 x && Rleb x (round5 PI))
                  (map (fun j => a + INR j * (2 * PI / INR (2 * h)) + 2 * PI / INR (2 * h) / 2) (seq 0 (2 * h)))) (roll_left w))
  = Rsum w - lsum w h i.
Proof.
  intros Hh Hh' Hl Hi. set (k := (2 * h)%nat) in *. set (H := 2 * PI / INR k) in *.
  assert (K : INR k = 2 * INR h) by (unfold k; rewrite mult_INR; cbn; ring).
  assert (Ph : 1 <= INR h <= 500000). { split; [change 1 with (INR 1); apply le_INR; lia|exact Hh']. }
  pose proof pi_digits as PD. pose proof round5_PI as RP.
  assert (HH : INR h * H = PI) by (unfold H; rewrite K; field; lra).
  assert (H0 : 3/500000 <= H) by nra.
  rewrite map_map. rewrite (w_bins w) at 1. rewrite Hl. rewrite roll_left_fun by (try (unfold k; lia); change (bin_at w k = bin_at w (0)); rewrite <- (bin_per w 0); f_equal; lia).
  rewrite mask_map, Rsum_filter.
  set (F := fun j => if Nat.ltb ((j + k - i) mod k) h then bin_at w (S j) else 0).
  transitivity (csum F 0 k).
  { unfold csum. f_equal. apply map_ext_in. intros j Hj. apply in_seq in Hj. unfold F.
    replace (a + INR j * H + H / 2 - (a + INR i * H + H / 2)) with ((INR j - INR i) * H) by ring.
    rewrite (off_mod H k i j) by (auto; unfold k; lia). cbv zeta. set (q := ((j + k - i) mod k)%nat).
    pose proof (pos_INR q). destruct (Rleb_spec 0 (INR q * H)); [|nra]. cbn [andb]. rewrite RP.
    destruct (Nat.ltb_spec q h) as [Q|Q].
    - destruct (Rleb_spec (INR q * H) (314159/100000)); [reflexivity|]. exfalso.
      assert (INR q + 1 <= INR h) by (rewrite <- S_INR; apply le_INR; lia). nra.
    - destruct (Rleb_spec (INR q * H) (314159/100000)) as [L|]; [|reflexivity]. exfalso. apply le_INR in Q. nra. }
  rewrite <- (csum_cyclic F k) with (i := i).
  2:{ intros j. unfold F. replace (j + k + k - i)%nat with (j + k - i + 1 * k)%nat by lia. rewrite Nat.mod_add by (unfold k; lia).
      replace (S (j + k)) with (S j + length w)%nat by lia. rewrite bin_per. reflexivity. }
  replace (csum F i k) with (csum F (0 + i) k) by reflexivity. rewrite csum_shift. unfold k at 1. replace (2 * h)%nat with (h + h)%nat by lia. rewrite csum_app.
  rewrite (csum_ext _ (fun j => bin_at w (j + (i + 1))) 0 h).
  2:{ intros j Hj. unfold F. replace (j + i + k - i)%nat with (j + 1 * k)%nat by lia. rewrite Nat.mod_add, Nat.mod_small by (unfold k; lia).
      destruct (Nat.ltb_spec j h); [|lia]. f_equal. lia. }
  rewrite (csum_ext _ (fun _ => 0) (0 + h) h).
  2:{ intros j Hj. unfold F. replace (j + i + k - i)%nat with (j + 1 * k)%nat by lia. rewrite Nat.mod_add, Nat.mod_small by (unfold k; lia).
      destruct (Nat.ltb_spec j h); [lia|reflexivity]. }
  replace (csum (fun _ => 0) (0 + h) h) with 0 by (unfold csum; generalize (0 + h)%nat; generalize h; clear; induction h; intros s; [reflexivity|]; cbn [seq map]; rewrite Rsum_cons, <- IHh; ring).
  rewrite Rplus_0_r, <- csum_shift. pose proof (lsum_anti w h i Hl) as An. rewrite <- An. unfold lsum.
  replace (i + h + h + 1)%nat with (i + 1 + length w)%nat by lia.
  rewrite (csum_shift (bin_at w) (i + 1) h (length w)). rewrite (csum_ext (fun j => bin_at w (j + length w)) (bin_at w) (i + 1) h) by (intros; apply bin_per).
  replace (0 + (i + 1))%nat with (i + 1)%nat by lia. ring.
Qed.
Definition crossing (w : list R) (h : nat) : list nat :=
  filter (fun i => Rleb (lsum w h i) (Rsum w / 2) && Rleb (Rsum w / 2) (lsum w h (S i))) (seq 0 (2 * h)).
Definition ub_at (a : R) (h i : nat) : R := a + INR i * (2 * PI / INR (2 * h)) + 2 * PI / INR (2 * h) / 2.
Lemma nth_map_seq {A} (f : nat -> A) k i d : (i < k)%nat -> nth i (map f (seq 0 k)) d = f i.
Proof. intros H. rewrite (nth_indep _ d (f 0%nat)) by (rewrite map_length, seq_length; lia). rewrite map_nth, seq_nth by lia. reflexivity. Qed.
Lemma combine_map2 {A B C} (f : A -> B) (g : A -> C) l : combine (map f l) (map g l) = map (fun x => (f x, g x)) l.
Proof. induction l; cbn; congruence. Qed.
Lemma grouped_even a w h : (1 <= h)%nat -> INR h <= 500000 -> length w = (2 * h)%nat -> counts w ->
  circ_median_grouped (bin_centres a (2 * h)) w =
  (let idx := crossing w h in
   if Nat.eqb (length idx) (2 * h) then Ok MNaN
   else match idx with
        | [i] => if Reqb (Rmax (lsum w h i) (lsum w h (S i))) (Rmin (lsum w h i) (lsum w h (S i))) then Ok MNaN
                 else Ok (MOne (ub_at a h i + 2 * PI / INR (2 * h) *
                        ((Rsum w / 2 - Rmin (lsum w h i) (lsum w h (S i))) / (Rmax (lsum w h i) (lsum w h (S i)) - Rmin (lsum w h i) (lsum w h (S i))))))
        | _ => let sel := filter (fun i => negb (Reqb (lsum w h i) (lsum w h (S i)))) idx in
               do i0 <- nth_err sel 0; do i1 <- nth_err sel 1;
               let lower := nth i0 (map (fun i => ub_at a h i) (seq 0 (2 * h))) 0 + 2 * PI / INR (2 * h) in
               let upper := nth i1 (map (fun i => ub_at a h i) (seq 0 (2 * h))) 0 in
               if isclose (upper - lower) PI then Ok (MMany [lower - 2 * PI / INR (2 * h); upper + 2 * PI / INR (2 * h)])
               else Ok (MMany [lower; upper])
        end).
Proof.
  intros Hh Hh' Hl Hc. unfold circ_median_grouped. rewrite bins_diff by lia. cbn [bind]. set (k := (2 * h)%nat) in *. set (H := 2 * PI / INR k) in *.
  assert (Lb : length (bin_centres a k) = k) by (unfold bin_centres; now rewrite map_length, seq_length). rewrite Lb.
  replace (Nat.even k) with true by (symmetry; unfold k; rewrite Nat.even_mul; reflexivity).
  assert (EU : map (fun u => u + H / 2) (bin_centres a k) = map (ub_at a h) (seq 0 k)) by (unfold bin_centres; rewrite map_map; reflexivity).
  rewrite EU.
  assert (EL : map (fun x => Rsum w - x) (map (fun i => Rsum (mask (map (fun u => let x := angmod0 (u - nth i (map (ub_at a h) (seq 0 k)) 0) in Rleb 0 x && Rleb x (round5 PI)) (map (ub_at a h) (seq 0 k))) (roll_left w))) (seq 0 k))
    = map (lsum w h) (seq 0 k)).
  { rewrite map_map. apply map_ext_in. intros i Hi. apply in_seq in Hi. rewrite nth_map_seq by lia.
    pose proof (right_sum a w h i Hh Hh' Hl ltac:(unfold k in *; lia)) as Q. fold k in Q. change (2 * PI / INR k) with H in Q. etransitivity; [apply (f_equal (fun z => Rsum w - z)); exact Q|]. ring. }
  cbv zeta in EL |- *. rewrite EL.
  assert (ER : map round5 (map (lsum w h) (seq 0 k)) = map (lsum w h) (seq 0 k) /\ map round5 (roll_left (map (lsum w h) (seq 0 k))) = map (fun i => lsum w h (S i)) (seq 0 k)).
  { assert (RL : forall i, round5 (lsum w h i) = lsum w h i).
    { intros i. unfold lsum. destruct (counts_csum w (i + h + 1) h Hc) as (z & ->). apply round5_INR. }
    split; [rewrite map_map; apply map_ext; auto|]. rewrite roll_left_fun.
    - rewrite map_map. apply map_ext. auto.
    - unfold k. lia.
    - rewrite <- (lsum_per w h 0 Hl). reflexivity. }
  destruct ER as (-> & ->). rewrite combine_map2, map_length, seq_length.
  assert (EH : round5 (Rsum w / 2) = Rsum w / 2) by (destruct (counts_sum w Hc) as (z & ->); rewrite INR_IZR_INZ; apply round5_half). rewrite EH.
  set (rng := map (fun i => (lsum w h i, lsum w h (S i))) (seq 0 k)).
  assert (RN : forall i, (i < k)%nat -> nth i rng (0, 0) = (lsum w h i, lsum w h (S i))) by (intros; unfold rng; now rewrite nth_map_seq).
  replace (filter (fun i => Rleb (fst (nth i rng (0, 0))) (Rsum w / 2) && Rleb (Rsum w / 2) (snd (nth i rng (0, 0)))) (seq 0 k)) with (crossing w h).
  2:{ unfold crossing. symmetry. apply filter_ext_in. intros i Hi. apply in_seq in Hi. rewrite RN by lia. reflexivity. }
  cbv zeta. destruct (Nat.eqb _ k); [reflexivity|].
  assert (CI : forall i, In i (crossing w h) -> (i < k)%nat) by (intros i Hi; apply filter_In in Hi; destruct Hi as (Hi & _); apply in_seq in Hi; unfold k; lia).
  assert (SE : filter (fun i => negb (Reqb (fst (nth i rng (0, 0))) (snd (nth i rng (0, 0))))) (crossing w h) = filter (fun i => negb (Reqb (lsum w h i) (lsum w h (S i)))) (crossing w h)).
  { apply filter_ext_in. intros i Hi. rewrite RN by auto. reflexivity. }
  rewrite SE. destruct (crossing w h) as [|i [|i' t]]; [reflexivity| |reflexivity].
  rewrite RN by (apply CI; now left). cbn [fst snd]. rewrite nth_map_seq by (apply CI; now left). reflexivity.
Qed.
