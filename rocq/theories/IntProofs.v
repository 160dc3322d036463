(** Facts about the Riemann integral used by the distribution proofs. *)
From Verif Require Import Prelude IntSpec.

Lemma integral_unique f a b v w : integral f a b v -> integral f a b w -> v = w.
Proof. intros [p <-] [q <-]. apply RiemannInt_P5. Qed.

Lemma integral_split f a b c v w :
  integral f a b v -> integral f b c w -> integral f a c (v + w).
Proof.
  intros [p <-] [q <-]. exists (RiemannInt_P24 p q).
  symmetry. apply RiemannInt_P26.
Qed.

Lemma integral_ext f g a b v : a <= b ->
  (forall x, a <= x <= b -> f x = g x) -> integral f a b v -> integral g a b v.
Proof.
  intros ab E [p <-].
  assert (E' : forall x, Rmin a b <= x <= Rmax a b -> f x = g x).
  { intros x. rewrite Rmin_left, Rmax_right by lra. apply E. }
  exists (Riemann_integrable_ext g E' p). symmetry.
  apply RiemannInt_P18; [exact ab|]. intros x Hx. apply E. lra.
Qed.

Lemma integral_lin f g a b c v w :
  integral f a b v -> integral g a b w ->
  integral (fun x => f x + c * g x) a b (v + c * w).
Proof.
  intros [p <-] [q <-]. exists (RiemannInt_P10 c p q). apply RiemannInt_P13.
Qed.

Lemma integral_const a b c : integral (fun _ => c) a b (c * (b - a)).
Proof. exists (RiemannInt_P14 a b c). apply RiemannInt_P15. Qed.

Lemma integral_scal f a b c v :
  a <= b -> integral f a b v -> integral (fun x => c * f x) a b (c * v).
Proof.
  intros ab H. pose proof (integral_lin (fun _ => 0) f a b c _ _ (integral_const a b 0) H) as K.
  replace (c * v) with (0 * (b - a) + c * v) by ring.
  revert K. apply integral_ext; [exact ab|]. intros; ring.
Qed.

Lemma integral_plus f g a b v w :
  a <= b -> integral f a b v -> integral g a b w ->
  integral (fun x => f x + g x) a b (v + w).
Proof.
  intros ab H K. pose proof (integral_lin f g a b 1 _ _ H K) as L.
  replace (v + w) with (v + 1 * w) by ring.
  revert L. apply integral_ext; [exact ab|]. intros; ring.
Qed.

Lemma integral_le f g a b v w : a <= b ->
  (forall x, a <= x <= b -> f x <= g x) ->
  integral f a b v -> integral g a b w -> v <= w.
Proof.
  intros ab H [p <-] [q <-]. apply RiemannInt_P19; [exact ab|].
  intros x Hx. apply H. lra.
Qed.

Lemma integral_abs f g a b v w : a <= b ->
  (forall x, a <= x <= b -> Rabs (f x) <= g x) ->
  integral f a b v -> integral g a b w -> Rabs v <= w.
Proof.
  intros ab H Hf Hg.
  assert (v <= w).
  { eapply integral_le; [exact ab| |exact Hf|exact Hg].
    intros x Hx. pose proof (H x Hx). pose proof (Rle_abs (f x)). lra. }
  assert (- w <= v).
  { pose proof (integral_scal g a b (-1) w ab Hg) as K.
    replace (- w) with (-1 * w) by ring.
    eapply integral_le; [exact ab| |exact K|exact Hf].
    intros x Hx. pose proof (H x Hx). pose proof (Rle_abs (- f x)).
    rewrite Rabs_Ropp in H2. cbv beta. lra. }
  apply Rabs_le. lra.
Qed.

Lemma continuous_integral f a b : a <= b ->
  (forall x, a <= x <= b -> continuity_pt f x) -> exists v, integral f a b v.
Proof.
  intros ab C. pose (pr := continuity_implies_RiemannInt ab C).
  exists (RiemannInt pr), pr. reflexivity.
Qed.

(** Fundamental theorem: an antiderivative of a continuous function gives the
    integral. *)
Lemma ftc f F a b : a <= b ->
  (forall x, a <= x <= b -> continuity_pt f x) ->
  (forall x, a <= x <= b -> derivable_pt_lim F x (f x)) ->
  integral f a b (F b - F a).
Proof.
  intros ab C D.
  pose (pr := continuity_implies_RiemannInt ab C).
  exists pr.
  rewrite (RiemannInt_P20 ab (FTC_P1 ab C) pr).
  pose proof (RiemannInt_P29 ab C) as A1.
  assert (A2 : antiderivative f F a b).
  { split; [|exact ab]. intros x Hx. exists (exist _ (f x) (D x Hx)). reflexivity. }
  destruct (antiderivative_Ucte _ _ _ _ _ A1 A2) as [c Hc].
  rewrite (Hc b), (Hc a) by lra. ring.
Qed.

(** A continuous function on an interval has an antiderivative there. *)
Lemma primitive_exists f a b : a <= b ->
  (forall x, a <= x <= b -> continuity_pt f x) ->
  exists P, (forall x, a <= x <= b -> derivable_pt_lim P x (f x)).
Proof.
  intros ab C. exists (primitive ab (FTC_P1 ab C)).
  intros x Hx. apply RiemannInt_P28. exact Hx.
Qed.

Lemma continuity_shift f m x : continuity_pt f (x - m) -> continuity_pt (fun t => f (t - m)) x.
Proof.
  intros C. change (continuity_pt (comp f (fun t => t - m)) x).
  apply continuity_pt_comp; [|exact C].
  apply derivable_continuous_pt. apply derivable_pt_minus.
  - apply derivable_pt_id.
  - apply derivable_pt_const.
Qed.

(** A shift by one turn's fraction does not change the integral of a periodic
    function over a turn. *)
Lemma integral_shift f m v : 0 <= m <= 2 * PI ->
  (forall x, continuity_pt f x) -> (forall x, f (x + 2 * PI) = f x) ->
  integral f 0 (2 * PI) v -> integral (fun x => f (x - m)) 0 (2 * PI) v.
Proof.
  intros Hm C P Hv. pose proof PI2_pos as Hp.
  destruct (primitive_exists f (- (2 * PI)) (2 * PI)) as [Q HQ]; [lra|auto|].
  assert (D : forall t, - (2 * PI) <= t - m <= 2 * PI ->
            derivable_pt_lim (fun x => Q (x - m)) t (f (t - m))).
  { intros t Ht. change (derivable_pt_lim (comp Q (fun x => x - m)) t (f (t - m))).
    replace (f (t - m)) with (f (t - m) * 1) by ring.
    apply derivable_pt_lim_comp; [|apply HQ; lra].
    replace 1 with (1 - 0) by ring. apply derivable_pt_lim_minus.
    - apply derivable_pt_lim_id.
    - apply derivable_pt_lim_const. }
  assert (I1 : integral (fun x => f (x - m)) 0 (2 * PI) (Q (2 * PI - m) - Q (0 - m))).
  { apply (ftc (fun x => f (x - m)) (fun x => Q (x - m))); [lra| |].
    - intros x Hx. apply continuity_shift. apply C.
    - intros x Hx. apply D. lra. }
  assert (I2 : integral f 0 (2 * PI) (Q (2 * PI) - Q 0)).
  { apply ftc; [lra| |]; intros x Hx; auto. apply HQ. lra. }
  rewrite (integral_unique _ _ _ _ _ Hv I2).
  (* the difference Q(t + 2 pi) - Q t is constant on [-2 pi, 0] *)
  assert (K : integral (fun x => f (x - 2 * PI)) (2 * PI - m) (2 * PI) (Q 0 - Q (0 - m))).
  { replace (Q 0 - Q (0 - m))
      with (Q (2 * PI - 2 * PI) - Q (2 * PI - m - 2 * PI)) by (f_equal; f_equal; ring).
    apply (ftc (fun x => f (x - 2 * PI)) (fun x => Q (x - 2 * PI))); [lra| |].
    - intros x Hx. apply continuity_shift. apply C.
    - intros x Hx. change (derivable_pt_lim (comp Q (fun x => x - 2 * PI)) x (f (x - 2 * PI))).
      replace (f (x - 2 * PI)) with (f (x - 2 * PI) * 1) by ring.
      apply derivable_pt_lim_comp; [|apply HQ; lra].
      replace 1 with (1 - 0) by ring. apply derivable_pt_lim_minus.
      + apply derivable_pt_lim_id.
      + apply derivable_pt_lim_const. }
  assert (K2 : integral f (2 * PI - m) (2 * PI) (Q (2 * PI) - Q (2 * PI - m))).
  { apply ftc; [lra| |]; intros x Hx; auto. apply HQ. lra. }
  assert (E : Q 0 - Q (0 - m) = Q (2 * PI) - Q (2 * PI - m)).
  { eapply integral_unique; [|exact K2].
    revert K. apply integral_ext; [lra|]. intros x Hx.
    rewrite <- (P (x - 2 * PI)). f_equal. ring. }
  replace (Q (2 * PI) - Q 0) with (Q (2 * PI - m) - Q (0 - m)) by lra.
  exact I1.
Qed.

(** Derivatives in the shape the distribution proofs use. *)
Lemma dlim_eq f x l l' : l = l' -> derivable_pt_lim f x l -> derivable_pt_lim f x l'.
Proof. intros ->. auto. Qed.

Lemma dlim_ext f g x l : (forall y, f y = g y) ->
  derivable_pt_lim f x l -> derivable_pt_lim g x l.
Proof.
  intros E D eps He. destruct (D eps He) as [d Hd]. exists d. intros h H0 H1.
  rewrite <- !E. apply Hd; auto.
Qed.

(** Equal on a neighbourhood. *)
Lemma dlim_ext_loc f g x l a b : a < x < b -> (forall y, a < y < b -> f y = g y) ->
  derivable_pt_lim f x l -> derivable_pt_lim g x l.
Proof.
  intros Hx E D eps He. destruct (D eps He) as [d Hd].
  assert (Hm : 0 < Rmin d (Rmin (x - a) (b - x))).
  { repeat apply Rmin_pos; try lra. apply cond_pos. }
  exists (mkposreal _ Hm). intros h H0 H1. cbn in H1.
  pose proof (Rmin_l d (Rmin (x - a) (b - x))).
  pose proof (Rmin_r d (Rmin (x - a) (b - x))).
  pose proof (Rmin_l (x - a) (b - x)). pose proof (Rmin_r (x - a) (b - x)).
  rewrite <- !E; [apply Hd; auto; lra| |]; [lra|].
  apply Rabs_def2 in H1. lra.
Qed.

Lemma dlim_const c x : derivable_pt_lim (fun _ => c) x 0.
Proof. apply derivable_pt_lim_const. Qed.
Lemma dlim_id x : derivable_pt_lim (fun y => y) x 1.
Proof. apply derivable_pt_lim_id. Qed.
Lemma dlim_plus f g x l m : derivable_pt_lim f x l -> derivable_pt_lim g x m ->
  derivable_pt_lim (fun y => f y + g y) x (l + m).
Proof. intros. apply (derivable_pt_lim_plus f g); auto. Qed.
Lemma dlim_minus f g x l m : derivable_pt_lim f x l -> derivable_pt_lim g x m ->
  derivable_pt_lim (fun y => f y - g y) x (l - m).
Proof. intros. apply (derivable_pt_lim_minus f g); auto. Qed.
Lemma dlim_opp f x l : derivable_pt_lim f x l -> derivable_pt_lim (fun y => - f y) x (- l).
Proof. intros. apply (derivable_pt_lim_opp f); auto. Qed.
Lemma dlim_mult f g x l m : derivable_pt_lim f x l -> derivable_pt_lim g x m ->
  derivable_pt_lim (fun y => f y * g y) x (l * g x + f x * m).
Proof. intros. apply (derivable_pt_lim_mult f g); auto. Qed.
Lemma dlim_scal c f x l : derivable_pt_lim f x l -> derivable_pt_lim (fun y => c * f y) x (c * l).
Proof. intros. apply (derivable_pt_lim_scal f c); auto. Qed.
Lemma dlim_divc c f x l : derivable_pt_lim f x l -> derivable_pt_lim (fun y => f y / c) x (l / c).
Proof.
  intros D. apply (dlim_ext (fun y => / c * f y)); [intros; unfold Rdiv; ring|].
  replace (l / c) with (/ c * l) by (unfold Rdiv; ring). apply dlim_scal; exact D.
Qed.
Lemma dlim_comp f g x l m : derivable_pt_lim g x m -> derivable_pt_lim f (g x) l ->
  derivable_pt_lim (fun y => f (g y)) x (l * m).
Proof. intros. apply (derivable_pt_lim_comp g f); auto. Qed.
Lemma dlim_sin f x l : derivable_pt_lim f x l ->
  derivable_pt_lim (fun y => sin (f y)) x (cos (f x) * l).
Proof. intros. apply (dlim_comp sin f); auto. apply derivable_pt_lim_sin. Qed.
Lemma dlim_cos f x l : derivable_pt_lim f x l ->
  derivable_pt_lim (fun y => cos (f y)) x (- sin (f x) * l).
Proof. intros. apply (dlim_comp cos f); auto. apply derivable_pt_lim_cos. Qed.
Lemma dlim_exp f x l : derivable_pt_lim f x l ->
  derivable_pt_lim (fun y => exp (f y)) x (exp (f x) * l).
Proof. intros. apply (dlim_comp exp f); auto. apply derivable_pt_lim_exp. Qed.
Lemma dlim_ln f x l : 0 < f x -> derivable_pt_lim f x l ->
  derivable_pt_lim (fun y => ln (f y)) x (/ f x * l).
Proof. intros. apply (dlim_comp ln f); auto. apply derivable_pt_lim_ln; auto. Qed.
Lemma dlim_atan f x l : derivable_pt_lim f x l ->
  derivable_pt_lim (fun y => atan (f y)) x (/ (1 + (f x) ^ 2) * l).
Proof.
  intros. apply (dlim_comp atan f); auto. apply derivable_pt_lim_atan.
Qed.
Lemma dlim_div f g x l m : g x <> 0 -> derivable_pt_lim f x l -> derivable_pt_lim g x m ->
  derivable_pt_lim (fun y => f y / g y) x ((l * g x - f x * m) / (g x) ^ 2).
Proof.
  intros. replace ((g x) ^ 2) with (Rsqr (g x)) by (unfold Rsqr; ring).
  replace (l * g x - f x * m) with (l * g x - m * f x) by ring.
  apply (derivable_pt_lim_div f g); auto.
Qed.
Lemma dlim_inv g x m : g x <> 0 -> derivable_pt_lim g x m ->
  derivable_pt_lim (fun y => / g y) x (- m / (g x) ^ 2).
Proof.
  intros N D. apply (dlim_ext (fun y => 1 / g y)); [intros; unfold Rdiv; ring|].
  eapply dlim_eq; [|apply (dlim_div (fun _ => 1) g x 0 m); [exact N|apply dlim_const|exact D]].
  cbv beta. field. exact N.
Qed.
Lemma dlim_cont f x l : derivable_pt_lim f x l -> continuity_pt f x.
Proof. intros D. apply derivable_continuous_pt. exists l. exact D. Qed.
Lemma dlim_unique f x l m : derivable_pt_lim f x l -> derivable_pt_lim f x m -> l = m.
Proof. apply uniqueness_limite. Qed.

(** Derivative of a sum over a list. *)
Lemma dlim_Rsum {A} (f : A -> R -> R) (d : A -> R) l x :
  (forall a, In a l -> derivable_pt_lim (f a) x (d a)) ->
  derivable_pt_lim (fun y => Rsum (map (fun a => f a y) l)) x (Rsum (map d l)).
Proof.
  induction l as [|a l IH]; intros H; cbn [map].
  - apply dlim_const.
  - apply (dlim_plus (f a) (fun y => Rsum (map (fun a => f a y) l))).
    + apply H. left; reflexivity.
    + apply IH. intros b Hb. apply H. right; exact Hb.
Qed.

(** A function with a non-negative derivative is non-decreasing. *)
Lemma mono_of_dlim F f a b : (forall x, a <= x <= b -> derivable_pt_lim F x (f x)) ->
  (forall x, a <= x <= b -> 0 <= f x) ->
  forall x y, a <= x -> x <= y -> y <= b -> F x <= F y.
Proof.
  intros D N x y Hx Hxy Hy. destruct (Rle_lt_or_eq_dec _ _ Hxy) as [L|E].
  2:{ subst; lra. }
  destruct (MVT_cor2 F f x y L) as [c [Hc1 Hc2]].
  - intros c Hc. apply D. lra.
  - assert (0 <= f c) by (apply N; lra). nra.
Qed.
