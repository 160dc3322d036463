(** Finite-dimensional linear algebra for the regression model. *)
From Verif Require Import Prelude NpModel UtilsModel RegModel CircleSpec RegSpec.

Lemma sum_swap {A B} (f : A -> B -> R) l m :
  Rsum (map (fun a => Rsum (map (f a) m)) l) = Rsum (map (fun b => Rsum (map (fun a => f a b) l)) m).
Proof.
  induction l as [|a l IH]; cbn [map].
  - rewrite Rsum_nil. symmetry. transitivity (Rsum (map (fun _ : B => 0) m)); [apply Rsum_map_ext; intros; apply Rsum_nil|rewrite Rsum_map_const; lra].
  - rewrite Rsum_cons, IH, <- Rsum_map_plus. apply Rsum_map_ext. intros b _. now rewrite Rsum_cons.
Qed.

(** Sums over an initial segment of the naturals. *)
Definition sumn (p : nat) (f : nat -> R) : R := Rsum (map f (seq 0 p)).
Lemma sumn_ext p f g : (forall j, (j < p)%nat -> f j = g j) -> sumn p f = sumn p g.
Proof. intros H. apply Rsum_map_ext. intros j Hj. apply in_seq in Hj. apply H. lia. Qed.
Lemma sumn_S p f : sumn (S p) f = f 0%nat + sumn p (fun j => f (S j)).
Proof. unfold sumn. cbn [seq map]. rewrite Rsum_cons, <- seq_shift, map_map. reflexivity. Qed.
Lemma sumn_0 f : sumn 0 f = 0.
Proof. reflexivity. Qed.
Lemma sumn_plus p f g : sumn p (fun j => f j + g j) = sumn p f + sumn p g.
Proof. apply Rsum_map_plus. Qed.
Lemma sumn_minus p f g : sumn p (fun j => f j - g j) = sumn p f - sumn p g.
Proof. apply Rsum_map_minus. Qed.
Lemma sumn_scal p c f : sumn p (fun j => c * f j) = c * sumn p f.
Proof. apply Rsum_map_scal. Qed.
Lemma sumn_scal_r p c f : sumn p (fun j => f j * c) = sumn p f * c.
Proof. apply Rsum_map_scal_r. Qed.
Lemma sumn_swap p q f : sumn p (fun i => sumn q (fun j => f i j)) = sumn q (fun j => sumn p (fun i => f i j)).
Proof. apply sum_swap. Qed.
Lemma sumn_sum {A} p (f : nat -> A -> R) l : sumn p (fun j => Rsum (map (f j) l)) = Rsum (map (fun o => sumn p (fun j => f j o)) l).
Proof. apply sum_swap. Qed.
Lemma sumn_delta p j f : (j < p)%nat -> sumn p (fun k => (if Nat.eqb j k then 1 else 0) * f k) = f j.
Proof.
  revert j f. induction p as [|p IH]; intros j f Hj; [lia|]. rewrite sumn_S. destruct j as [|j]; cbn [Nat.eqb].
  - rewrite (sumn_ext _ _ (fun _ => 0)) by (intros; cbn; lra). unfold sumn. rewrite Rsum_map_const. lra.
  - rewrite IH by lia. lra.
Qed.
Lemma sumn_nonneg p f : (forall j, (j < p)%nat -> 0 <= f j) -> 0 <= sumn p f.
Proof. intros H. apply Rsum_map_nonneg. intros j Hj. apply in_seq in Hj. apply H. lia. Qed.
Lemma sumn_zero p f : (forall j, (j < p)%nat -> 0 <= f j) -> sumn p f = 0 -> forall j, (j < p)%nat -> f j = 0.
Proof.
  intros H E j Hj. apply (Rsum_map_0 f (seq 0 p)); [intros k Hk; apply in_seq in Hk; apply H; lia|exact E|apply in_seq; lia].
Qed.

(** Vectors. *)
Lemma vec_of_length p f : length (vec_of p f) = p.
Proof. unfold vec_of. now rewrite map_length, seq_length. Qed.
Lemma nth_map_seq {B} (f : nat -> B) p j d : (j < p)%nat -> nth j (map f (seq 0 p)) d = f j.
Proof.
  intros H. rewrite (nth_indep _ d (f 0%nat)) by (now rewrite map_length, seq_length).
  rewrite map_nth. now rewrite seq_nth by lia.
Qed.
Lemma nth_vec_of p f j : (j < p)%nat -> nth j (vec_of p f) 0 = f j.
Proof. apply nth_map_seq. Qed.
Lemma row_mat_of p q f i : (i < p)%nat -> nth i (mat_of p q f) [] = vec_of q (f i).
Proof. intros H. unfold mat_of. now rewrite nth_map_seq. Qed.
Lemma ent_mat_of p q f i j : (i < p)%nat -> (j < q)%nat -> ent (mat_of p q f) i j = f i j.
Proof. intros Hi Hj. unfold ent. rewrite row_mat_of by auto. now apply nth_vec_of. Qed.
Lemma shaped_mat_of p q f : shaped p q (mat_of p q f).
Proof.
  split; [unfold mat_of; now rewrite map_length, seq_length|]. intros r Hr. apply in_map_iff in Hr. destruct Hr as (j & <- & _). apply vec_of_length.
Qed.
Lemma vec_of_ext p f g : (forall j, (j < p)%nat -> f j = g j) -> vec_of p f = vec_of p g.
Proof. intros H. apply map_ext_in. intros j Hj. apply in_seq in Hj. apply H. lia. Qed.
Lemma mat_of_ext p q f g : (forall i j, (i < p)%nat -> (j < q)%nat -> f i j = g i j) -> mat_of p q f = mat_of p q g.
Proof. intros H. apply map_ext_in. intros j Hj. apply in_seq in Hj. apply vec_of_ext. intros k Hk. apply H; lia. Qed.
Lemma vec_eq p (u v : vec) : length u = p -> length v = p -> (forall j, (j < p)%nat -> nth j u 0 = nth j v 0) -> u = v.
Proof. intros <- Hv H. apply (nth_ext u v 0 0); [now symmetry|exact H]. Qed.
Lemma vec_of_nth p (u : vec) : length u = p -> vec_of p (fun j => nth j u 0) = u.
Proof. intros H. apply (vec_eq p); [apply vec_of_length|exact H|]. intros j Hj. now apply nth_vec_of. Qed.

Lemma dot_inner u v : dot u v = inner u v.
Proof.
  revert v. induction u as [|a u IH]; intros [|b v]; try reflexivity.
  unfold dot, vmul, map2 in *. cbn [combine map inner fst snd]. rewrite Rsum_cons, IH. reflexivity.
Qed.
Lemma inner_sum p u v : length u = p -> inner u v = sumn p (fun j => nth j u 0 * nth j v 0).
Proof.
  revert u v. induction p as [|p IH]; intros [|a u] v H; try discriminate; [reflexivity|].
  rewrite sumn_S. cbn [nth]. injection H as H. destruct v as [|b v]; cbn [inner nth].
  - rewrite (sumn_ext _ _ (fun _ => 0)) by (intros j _; cbn; lra). unfold sumn. rewrite Rsum_map_const. lra.
  - now rewrite <- IH.
Qed.
Lemma inner_sum' p u v : length v = p -> inner u v = sumn p (fun j => nth j u 0 * nth j v 0).
Proof.
  revert u v. induction p as [|p IH]; intros u [|b v] H; try discriminate; [destruct u; reflexivity|].
  rewrite sumn_S. cbn [nth]. injection H as H. destruct u as [|a u]; cbn [inner nth].
  - rewrite (sumn_ext _ _ (fun _ => 0)) by (intros [|j] _; cbn; lra). unfold sumn. rewrite Rsum_map_const. lra.
  - now rewrite <- IH.
Qed.
Lemma inner_sym u v : inner u v = inner v u.
Proof. revert v. induction u as [|a u IH]; intros [|b v]; try reflexivity. cbn [inner]. rewrite IH. lra. Qed.
Lemma inner_comb p u v w a c : length v = p -> length w = p ->
  inner u (vec_of p (fun j => a * nth j v 0 + c * nth j w 0)) = a * inner u v + c * inner u w.
Proof.
  intros Hv Hw. rewrite (inner_sum' p) by apply vec_of_length. rewrite (inner_sum' p u v Hv), (inner_sum' p u w Hw).
  rewrite <- !sumn_scal, <- sumn_plus. apply sumn_ext. intros j Hj. rewrite nth_vec_of by auto. ring.
Qed.
Lemma inner_vec_of p f v : inner (vec_of p f) v = sumn p (fun j => f j * nth j v 0).
Proof. rewrite (inner_sum p) by apply vec_of_length. apply sumn_ext. intros j Hj. now rewrite nth_vec_of. Qed.
Lemma inner_self v : 0 <= inner v v.
Proof. induction v as [|a v IH]; cbn [inner]; [lra|nra]. Qed.
Lemma inner_self_0 v : inner v v = 0 -> forall x, In x v -> x = 0.
Proof.
  induction v as [|a v IH]; cbn [inner]; intros H x Hx; [destruct Hx|]. pose proof (inner_self v).
  destruct Hx as [<-|Hx]; [nra|apply IH; [nra|exact Hx]].
Qed.
Lemma vadd_nth p u v j : length u = p -> length v = p -> (j < p)%nat -> nth j (vadd u v) 0 = nth j u 0 + nth j v 0.
Proof.
  revert u v j. induction p as [|p IH]; intros [|a u] [|b v] j Hu Hv Hj; try discriminate; [lia|].
  injection Hu as Hu. injection Hv as Hv. destruct j as [|j]; [reflexivity|]. unfold vadd, map2 in *. cbn [combine map nth]. apply IH; auto; lia.
Qed.
Lemma map2_length {A B C} (f : A -> B -> C) u v : length u = length v -> length (map2 f u v) = length u.
Proof. intros H. unfold map2. rewrite map_length, combine_length. lia. Qed.
Lemma vadd_length p u v : length u = p -> length v = p -> length (vadd u v) = p.
Proof. intros Hu Hv. unfold vadd. rewrite map2_length; congruence. Qed.
Lemma mv_nth A x i : (i < length A)%nat -> nth i (mv A x) 0 = inner (nth i A []) x.
Proof.
  intros H. unfold mv. rewrite (nth_indep _ 0 (dot [] x)) by (now rewrite map_length). rewrite map_nth with (f := fun r => dot r x). apply dot_inner.
Qed.

(** ** The systems of the updates *)
Definition eps8 : R := / 100000000.
Lemma eps8_pos : 0 < eps8.
Proof. unfold eps8. lra. Qed.
Lemma ridge_gram_ent p c w g l j k : (j < p)%nat -> (k < p)%nat ->
  ent (ridge p (mscale c (gram p w g l))) j k = c * Rsum (map (fun o => w o * (nth j (g o) 0 * nth k (g o) 0)) l) + (if Nat.eqb j k then eps8 else 0).
Proof.
  intros Hj Hk. unfold ridge. rewrite ent_mat_of by auto. f_equal. unfold mscale, ent.
  rewrite (nth_indep _ [] (map (Rmult c) [])) by (rewrite map_length; unfold gram, mat_of; rewrite map_length, seq_length; exact Hj).
  rewrite map_nth. unfold gram. rewrite row_mat_of by auto.
  rewrite (nth_indep _ 0 (c * 0)) by (rewrite map_length, vec_of_length; exact Hk).
  rewrite map_nth. now rewrite nth_vec_of.
Qed.
Lemma ridge_ent p A j k : (j < p)%nat -> (k < p)%nat -> ent (ridge p A) j k = ent A j k + (if Nat.eqb j k then eps8 else 0).
Proof. intros Hj Hk. unfold ridge. now rewrite ent_mat_of. Qed.
(** The system of a ridge matrix whose other part is a weighted Gram matrix. *)
Definition gridge (p : nat) (w : obs -> R) (g : obs -> vec) (l : list obs) : mat :=
  mat_of p p (fun j k => Rsum (map (fun o => w o * (nth j (g o) 0 * nth k (g o) 0)) l) + (if Nat.eqb j k then eps8 else 0)).
Lemma ridge_gram p w g l : ridge p (gram p w g l) = gridge p w g l.
Proof. apply mat_of_ext. intros i j Hi Hj. unfold gram. now rewrite ent_mat_of. Qed.
Lemma ridge_scaled p c w g l : ridge p (mscale c (gram p w g l)) = gridge p (fun o => c * w o) g l.
Proof.
  apply mat_of_ext. intros i j Hi Hj. pose proof (ridge_gram_ent p c w g l i j Hi Hj) as E. rewrite ridge_ent in E by auto.
  assert (E' : ent (mscale c (gram p w g l)) i j = c * Rsum (map (fun o => w o * (nth i (g o) 0 * nth j (g o) 0)) l)) by lra.
  rewrite E', <- Rsum_map_scal. f_equal. apply Rsum_map_ext. intros o _. ring.
Qed.
Lemma gridge_mv p w g l x i : (i < p)%nat -> length x = p -> (forall o, In o l -> length (g o) = p) ->
  inner (nth i (gridge p w g l) []) x = Rsum (map (fun o => w o * nth i (g o) 0 * inner (g o) x) l) + eps8 * nth i x 0.
Proof.
  intros Hi Hx Hg. unfold gridge. rewrite row_mat_of by auto. rewrite inner_vec_of.
  rewrite (sumn_ext _ _ (fun k => Rsum (map (fun o => w o * (nth i (g o) 0 * nth k (g o) 0) * nth k x 0) l) + (if Nat.eqb i k then 1 else 0) * (eps8 * nth k x 0))).
  - rewrite sumn_plus, sumn_sum, sumn_delta by auto. f_equal. apply Rsum_map_ext. intros o Ho.
    rewrite (inner_sum p (g o) x) by auto. rewrite <- sumn_scal. apply sumn_ext. intros k _. ring.
  - intros k _. rewrite Rmult_plus_distr_r, <- Rsum_map_scal_r. f_equal. destruct (Nat.eqb i k); ring.
Qed.
Lemma gridge_quad p w g l x : length x = p -> (forall o, In o l -> length (g o) = p) ->
  sumn p (fun i => nth i x 0 * inner (nth i (gridge p w g l) []) x) = Rsum (map (fun o => w o * inner (g o) x ^ 2) l) + eps8 * inner x x.
Proof.
  intros Hx Hg. rewrite (sumn_ext _ _ (fun i => Rsum (map (fun o => w o * inner (g o) x * (nth i (g o) 0 * nth i x 0)) l) + eps8 * (nth i x 0 * nth i x 0))).
  - rewrite sumn_plus, sumn_sum, sumn_scal, <- (inner_sum p x x) by auto. f_equal. apply Rsum_map_ext. intros o Ho.
    rewrite sumn_scal, <- (inner_sum p (g o) x) by auto. ring.
  - intros i Hi. rewrite gridge_mv by auto. rewrite Rmult_plus_distr_l, <- Rsum_map_scal. f_equal; [|ring]. apply Rsum_map_ext. intros; ring.
Qed.
Lemma gridge_regular p w g l x : length x = p -> (forall o, In o l -> length (g o) = p /\ 0 <= w o) ->
  (forall i, (i < p)%nat -> inner (nth i (gridge p w g l) []) x = 0) -> forall v, In v x -> v = 0.
Proof.
  intros Hx Hg Hz. assert (Hq := gridge_quad p w g l x Hx (fun o Ho => proj1 (Hg o Ho))).
  rewrite (sumn_ext _ _ (fun _ => 0)) in Hq by (intros i Hi; rewrite Hz by auto; ring).
  unfold sumn in Hq. rewrite Rsum_map_const, Rmult_0_l in Hq.
  assert (0 <= Rsum (map (fun o => w o * inner (g o) x ^ 2) l)).
  { apply Rsum_map_nonneg. intros o Ho. apply Rmult_le_pos; [apply (Hg o Ho)|apply pow2_ge_0]. }
  pose proof (inner_self x). pose proof eps8_pos. apply inner_self_0. nra.
Qed.
Lemma gridge_shaped p w g l : shaped p p (gridge p w g l).
Proof. apply shaped_mat_of. Qed.
Lemma null_not p w g l y : (forall o, In o l -> length (g o) = p /\ 0 <= w o) -> ~ null_vector p (gridge p w g l) y.
Proof.
  intros Hg (Hl & (v & Hv & Hn) & Hz). apply Hn. apply (gridge_regular p w g l y Hl Hg); [|exact Hv].
  intros i Hi. apply Hz. apply nth_In. destruct (gridge_shaped p w g l) as [-> _]. exact Hi.
Qed.
(** The update solves its equations, and nothing else does. *)
Lemma safe_solve_spec solve pinv p w g l b : right_solve solve -> length b = p -> (forall o, In o l -> length (g o) = p /\ 0 <= w o) ->
  let x := safe_solve solve pinv (gridge p w g l) b in
  length x = p /\ (forall i, (i < p)%nat -> Rsum (map (fun o => w o * nth i (g o) 0 * inner (g o) x) l) + eps8 * nth i x 0 = nth i b 0).
Proof.
  intros Hs Hb Hg. cbv zeta. unfold safe_solve. specialize (Hs p (gridge p w g l) b (gridge_shaped p w g l) Hb).
  destruct (solve (gridge p w g l) b) as [x|].
  - destruct Hs as [Hx Hs]. split; [exact Hx|]. intros i Hi. rewrite <- Hs by auto. symmetry. apply gridge_mv; auto. intros o Ho. apply (Hg o Ho).
  - exfalso. destruct Hs as [y Hy]. now apply (null_not p w g l y Hg).
Qed.
Lemma safe_solve_unique solve pinv p w g l b x : right_solve solve -> length b = p -> (forall o, In o l -> length (g o) = p /\ 0 <= w o) ->
  length x = p -> (forall i, (i < p)%nat -> Rsum (map (fun o => w o * nth i (g o) 0 * inner (g o) x) l) + eps8 * nth i x 0 = nth i b 0) ->
  safe_solve solve pinv (gridge p w g l) b = x.
Proof.
  intros Hs Hb Hg Hx Hi. destruct (safe_solve_spec solve pinv p w g l b Hs Hb Hg) as [Hy Hyi].
  set (y := safe_solve solve pinv (gridge p w g l) b) in *.
  set (d := vec_of p (fun j => 1 * nth j y 0 + (-1) * nth j x 0)).
  assert (Hd : forall v, In v d -> v = 0).
  { apply (gridge_regular p w g l d); [apply vec_of_length|exact Hg|]. intros i Hip. rewrite gridge_mv; auto; [|apply vec_of_length|intros o Ho; apply (Hg o Ho)].
    rewrite (Rsum_map_ext _ (fun o => w o * nth i (g o) 0 * inner (g o) y - w o * nth i (g o) 0 * inner (g o) x)).
    - rewrite Rsum_map_minus. unfold d. rewrite nth_vec_of by auto. specialize (Hi i Hip). specialize (Hyi i Hip). lra.
    - intros o _. unfold d. rewrite (inner_comb p (g o) y x 1 (-1) Hy Hx). ring. }
  apply (vec_eq p); auto. intros j Hj. assert (nth j d 0 = 0) as E by (apply Hd, nth_In; unfold d; rewrite vec_of_length; exact Hj).
  unfold d in E. rewrite nth_vec_of in E by auto. lra.
Qed.

(** ** A solver meeting the contract *)
Definition eqn := (list R * R)%type.
Lemma pick_pivot (n : nat) (l : list eqn) : (forall e, In e l -> length (fst e) = S n) ->
  {a : R & {t : list R & {c : R & {l' : list eqn | a <> 0 /\ length t = n /\ Permutation l ((a :: t, c) :: l')}}}} +
  (forall e, In e l -> nth 0 (fst e) 0 = 0).
Proof.
  induction l as [|[r c] l IH]; intros H; [right; intros e []|].
  destruct (Req_EM_T (nth 0 r 0) 0) as [E|E].
  - destruct IH as [(a & t & c' & l' & Ha & Ht & Hp)|IH]; [intros e He; apply H; now right| |].
    + left. exists a, t, c', ((r, c) :: l'). repeat split; auto. etransitivity; [apply perm_skip, Hp|apply perm_swap].
    + right. intros e [<-|He]; [exact E|now apply IH].
  - left. assert (Hr : length r = S n) by (apply (H (r, c)); now left). destruct r as [|a t]; [discriminate|]. cbn [nth] in E.
    exists a, t, c, l. repeat split; auto.
Qed.
Definition elim (a : R) (t : list R) (c : R) (e : eqn) : eqn :=
  let f := nth 0 (fst e) 0 / a in (map2 (fun x y => x - f * y) (tl (fst e)) t, snd e - f * c).
Lemma inner_elim f u v w : length u = length v -> inner (map2 (fun x y => x - f * y) u v) w = inner u w - f * inner v w.
Proof.
  revert v w. induction u as [|a u IH]; intros [|b v] [|c w] H; try discriminate; cbn [inner]; try (unfold map2; cbn [combine map inner]; lra).
  unfold map2 in *. cbn [combine map inner fst snd]. rewrite IH by (now injection H). ring.
Qed.
Lemma gauss (n : nat) : forall l : list eqn, length l = n -> (forall e, In e l -> length (fst e) = n) ->
  {x : list R | length x = n /\ forall e, In e l -> inner (fst e) x = snd e} +
  {y : list R | length y = n /\ (exists v, In v y /\ v <> 0) /\ forall e, In e l -> inner (fst e) y = 0}.
Proof.
  induction n as [|n IH]; intros l Hl Hr.
  - left. exists []. split; [reflexivity|]. destruct l; [intros e []|discriminate].
  - destruct (pick_pivot n l Hr) as [(a & t & c & l' & Ha & Ht & Hp)|Hz].
    + assert (Hlen : length l' = n) by (apply Permutation_length in Hp; cbn in Hp; lia).
      assert (Hr' : forall e, In e l' -> length (fst e) = S n) by (intros e He; apply Hr; eapply Permutation_in; [apply Permutation_sym, Hp|now right]).
      destruct (IH (map (elim a t c) l')) as [(x & Hx & Hs)|(y & Hy & Hn & Hs)].
      * now rewrite map_length.
      * intros e He. apply in_map_iff in He. destruct He as (e' & <- & He'). unfold elim. cbn [fst].
        specialize (Hr' e' He'). destruct (fst e') as [|b r]; [discriminate|]. cbn [tl]. injection Hr' as Hr'. rewrite map2_length; congruence.
      * left. exists ((c - inner t x) / a :: x). split; [cbn; lia|]. intros e He. apply (Permutation_in _ Hp) in He. destruct He as [<-|He].
        -- cbn [fst snd inner]. field. exact Ha.
        -- specialize (Hs (elim a t c e) (in_map _ _ _ He)). unfold elim in Hs. cbn [fst snd] in Hs. specialize (Hr' e He).
           destruct (fst e) as [|b r]; [discriminate|]. cbn [tl nth] in Hs. injection Hr' as Hr'.
           rewrite inner_elim in Hs by congruence. cbn [inner]. replace (inner r x) with (snd e - b / a * c + b / a * inner t x) by lra. field. exact Ha.
      * right. exists (- inner t y / a :: y). split; [cbn; lia|]. split; [destruct Hn as (v & Hv & Hn); exists v; split; [now right|exact Hn]|].
        intros e He. apply (Permutation_in _ Hp) in He. destruct He as [<-|He].
        -- cbn [fst inner]. field. exact Ha.
        -- specialize (Hs (elim a t c e) (in_map _ _ _ He)). unfold elim in Hs. cbn [fst snd] in Hs. specialize (Hr' e He).
           destruct (fst e) as [|b r]; [discriminate|]. cbn [tl nth] in Hs. injection Hr' as Hr'.
           rewrite inner_elim in Hs by congruence. cbn [inner]. replace (inner r y) with (b / a * inner t y) by lra. field. exact Ha.
    + right. exists (1 :: repeat 0 n). split; [cbn; now rewrite repeat_length|]. split; [exists 1; split; [now left|lra]|].
      intros e He. specialize (Hz e He). specialize (Hr e He). destruct (fst e) as [|b r]; [discriminate|]. cbn [nth] in Hz. cbn [inner]. rewrite Hz.
      assert (inner r (repeat 0 n) = 0); [|lra]. clear. revert r. induction n; intros [|b r]; cbn [repeat inner]; try lra. rewrite IHn. lra.
Qed.
Lemma solve_exists : exists solve, right_solve solve.
Proof.
  assert (H : forall (A : list (list R)) (b : list R), {o : option (list R) | forall n, shaped n n A -> length b = n ->
    match o with
    | Some x => length x = n /\ forall i, (i < n)%nat -> inner (nth i A []) x = nth i b 0
    | None => exists y, null_vector n A y
    end}).
  { intros A b. destruct (Nat.eq_dec (length b) (length A)) as [Hb|Hb]; [|exists None; intros n [Hn _] Hb'; exfalso; congruence].
    destruct (forallb (fun r => Nat.eqb (length r) (length A)) A) eqn:E.
    2:{ exists None. intros n [Hn Hr] _. exfalso. rewrite <- not_true_iff_false in E. apply E. apply forallb_forall. intros r Hin. apply Nat.eqb_eq. rewrite Hn. auto. }
    assert (Hr : forall e, In e (combine A b) -> length (fst e) = length A).
    { intros [r c] He. apply in_combine_l in He. rewrite forallb_forall in E. apply Nat.eqb_eq. now apply E. }
    destruct (gauss (length A) (combine A b)) as [(x & Hx & Hs)|(y & Hy & Hn & Hs)]; [|exact Hr| |]; [pose proof (combine_length A b); unfold eqn in *; lia| |].
    - exists (Some x). intros n [<- _] _. split; [exact Hx|]. intros i Hi.
      assert (He : In (nth i A [], nth i b 0) (combine A b)).
      { rewrite <- (combine_nth A b i [] 0) by auto. apply nth_In. match goal with |- (_ < length ?x)%nat => replace (length x) with (length A); [exact Hi|symmetry; rewrite combine_length; lia] end. }
      apply (Hs _ He).
    - exists None. intros n [<- _] _. exists y. split; [exact Hy|]. split; [exact Hn|]. intros r Hin.
      destruct (In_nth A r [] Hin) as (i & Hi & <-).
      assert (He : In (nth i A [], nth i b 0) (combine A b)).
      { rewrite <- (combine_nth A b i [] 0) by auto. apply nth_In. match goal with |- (_ < length ?x)%nat => replace (length x) with (length A); [exact Hi|symmetry; rewrite combine_length; lia] end. }
      apply (Hs _ He). }
  exists (fun A b => proj1_sig (H A b)). intros n A b HA Hb. exact (proj2_sig (H A b) n HA Hb).
Qed.
