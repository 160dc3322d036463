From Verif Require Import Prelude NpModel NpProofs CircleSpec UtilsModel UtilsProofs DescModel DescProofs
  DescSpec DescApi DescApi2 Desc2Model Desc2Proofs Desc2Spec ArcProofs Desc3Proofs Desc4Proofs Desc7Proofs Desc2Ex HypModel HypProofs
  BaseModel BaseSpec BaseProofs Base2Proofs Base3Proofs Base4Proofs Base5Proofs Base6Proofs.
Open Scope string_scope.
Open Scope R_scope.

Lemma circular_kappa x g o k : circular x g = Ok (o, k) ->
  match circ_kappa (o_r o) (Some (IZR (o_n o))) with Err ZeroDivisionError => Ok 0 | other => other end = Ok (o_kappa o).
Proof.
  unfold circular. destruct (full_cycle_of _ _) as [c|e]; [|discriminate]. cbn [bind].
  destruct (to_alpha _ _ _) as [a0|e]; [|discriminate]. cbn [bind].
  destruct (prepare _ _ _) as [p|e]; [|discriminate]. cbn [bind].
  set (mr := circ_mean_and_r (p_alpha p) (Some (p_w p))) in *.
  set (n := trunc (Rsum (p_w p))) in *.
  destruct (rayleigh_test _ _ _ _ _ _) as [ray|e]; [|discriminate]. cbn [bind].
  destruct (match circ_kappa _ _ with Ok _ => _ | Err _ => _ end) as [kp|e] eqn:K; [|discriminate]. cbn [bind].
  destruct (choose_ci _ _ _) as [[me le] af].
  destruct (match me with Some _ => _ | None => _ end) as [ci|e]; [|discriminate]. cbn [bind].
  destruct (angular_std _ _ _ _) as [s|e]; [|discriminate]. cbn [bind].
  destruct (circ_std _ _ _ _) as [s0|e]; [|discriminate]. cbn [bind].
  destruct (circ_median _ _ _ _ _) as [med|e]; [|discriminate]. cbn [bind].
  destruct (if p_grouped p then _ else _) as [mci|e]; [|discriminate]. cbn [bind].
  intros E. injection E as <- <-. cbn. exact K.
Qed.
(** * C162: rotate *)
Lemma to_alpha_rot data c t : to_alpha data c (Some t) = Ok (map (fun d => angmod0 (angle_of c d + t)) data).
Proof.
  pose proof PI_RGT_0. unfold to_alpha, rotate_data.
  replace (unit_cycle "radian") with (Some (2 * PI)) by reflexivity. cbv zeta. f_equal. rewrite map_map. apply map_ext. intros d.
  unfold rad2data. replace (data2rad t (2 * PI)) with t by (unfold data2rad; field; lra).
  replace (data2rad (data2rad d c) (2 * PI)) with (angle_of c d); [field; lra|].
  unfold data2rad, angle_of. set (y := 2 * PI * d / c). field. lra.
Qed.
Lemma trunc_pos x : (0 < trunc x)%Z -> 0 < x.
Proof.
  intros H. unfold trunc in H. destruct (Rltb_spec x 0).
  - destruct (Rfloor_spec (- x)) as (A & B). assert (0 <= Rfloor (-x))%Z; [|lia]. apply le_IZR.
    assert (-1 < Rfloor (- x))%Z; [apply lt_IZR; lra|]. apply IZR_le. lia.
  - destruct (Rfloor_spec x) as (A & B). apply IZR_lt in H. lra.
Qed.
Lemma rot_mean alpha alpha' w t : valid_sample alpha (Some w) -> Forall2 (fun a a' => same_dir a' (a + t)) alpha alpha' ->
  circ_r alpha' (Some w) = circ_r alpha (Some w) /\
  mean_turned t (fst (circ_mean_and_r alpha (Some w))) (fst (circ_mean_and_r alpha' (Some w))).
Proof.
  intros Hv Ht. assert (T : turned (map (fun a => a + t) alpha) alpha').
  { clear Hv. induction Ht; cbn; constructor; auto. now apply same_dir_sym. }
  destruct (api_turned _ _ (Some w) T) as (_ & E2 & E3). rewrite <- E2, <- E3. split; [apply api_rot, Hv|].
  unfold circ_mean_and_r. fold (smp alpha (Some w)) (smp (map (fun a => a + t) alpha) (Some w)). rewrite smp_shift.
  set (s := smp alpha (Some w)). pose proof (smp_pos _ _ Hv) as P. fold s in P.
  pose proof (circ_r_rot t s P) as Er.
  destruct (circ_mean_and_r_s_cases s) as [(C & ->)|(C & ->)];
  destruct (circ_mean_and_r_s_cases (rot t s)) as [(C' & ->)|(C' & ->)]; rewrite Er in C'; try lra; cbn [fst mean_turned]; [exact I|].
  assert (0 < circ_r_s s) by (apply Rlt_trans with (/ 1000000000000); [apply Rinv_0_lt_compat; lra|exact C]).
  split; [apply mean_dir_range|]. rewrite mean_dir_rot by auto. apply same_dir_sym, same_dir_sym, angmod0_same_dir.
Qed.
Lemma rotated x g t o k o' k' : a_rotate g = None -> a_bins g = None ->
  (forall w, a_w g = Some w -> Forall (fun v => 0 <= v) w) ->
  circular x g = Ok (o, k) -> circular x (with_rotate g t) = Ok (o', k') ->
  mean_turned t (o_mean o) (o_mean o') /\
  o_w o' = o_w o /\ o_n o' = o_n o /\ o_r o' = o_r o /\ o_R o' = o_R o /\ o_pval o' = o_pval o /\ o_kappa o' = o_kappa o /\
  o_method o' = o_method o /\ (a_w g = None -> o_s o' = o_s o /\ o_s0 o' = o_s0 o).
Proof.
  intros Er Eb Hw E E'. pose proof (circular_kappa _ _ _ _ E) as K. pose proof (circular_kappa _ _ _ _ E') as K'.
  destruct (circular_inv _ _ _ _ E) as (p & a0 & I1 & I2 & I3 & _ & I5 & I6 & _ & I8 & _ & I10 & I11 & I12 & I13 & _ & I15 & I16 & I17 & _ & I19 & I20 & _).
  destruct (circular_inv _ _ _ _ E') as (p' & a0' & J1 & J2 & J3 & _ & J5 & J6 & _ & J8 & _ & J10 & J11 & J12 & J13 & _ & J15 & J16 & J17 & _ & J19 & J20 & _).
  cbn [with_rotate a_unit a_cycle a_data a_rotate a_w a_bins a_mean_ci] in *.
  rewrite I1 in J1. injection J1 as J1. rewrite <- J1 in *. rewrite to_alpha_rot in J2. injection J2 as <-.
  rewrite Er in I2. cbn in I2. injection I2 as <-. rewrite Eb in *.
  set (al := map (fun y => data2rad y (o_cycle o)) (a_data g)) in *.
  set (al' := map (fun d => angmod0 (angle_of (o_cycle o) d + t)) (a_data g)) in *.
  assert (F : Forall2 (fun a a' => same_dir a' (a + t)) al al').
  { unfold al, al'. clear. induction (a_data g) as [|d u IH]; cbn; constructor; auto. apply angmod0_same_dir. }
  assert (G : p_alpha p = al /\ p_alpha p' = al' /\ p_w p' = p_w p /\ valid_sample al (Some (p_w p)) /\ (a_w g = None -> p_bin p' = p_bin p)).
  { unfold prepare in I3, J3. destruct (a_w g) as [w|] eqn:Ew.
    - destruct (Nat.eqb_spec (length w) (length al)) as [Q|]; [|discriminate].
      destruct (Nat.eqb_spec (length w) (length al')); [|discriminate]. cbn [negb] in *. destruct w as [|w0 wt]; [discriminate|].
      destruct (list_min (diff al)); [|discriminate]. destruct (list_min (diff al')); [|discriminate]. cbn [bind] in *.
      injection I3 as <-. injection J3 as <-. cbn. repeat split; auto; try discriminate.
      + intros Z. rewrite Z in Q. discriminate.
      + apply trunc_pos. rewrite I10 in I13. exact I13.
    - injection I3 as <-. injection J3 as <-. cbn [p_alpha p_w p_bin] in *. repeat (split; [reflexivity|]).
      split; [|split; [|auto]].
      + unfold ones, al, al'. rewrite !map_map. reflexivity.
      + apply ones_valid. intros Z. rewrite I10, Z, ones_total, trunc_INR in I13. cbn in I13. lia. }
  destruct G as (G1 & G2 & G3 & G4 & G5). destruct (rot_mean _ _ _ t G4 F) as (R1 & R2).
  rewrite G1 in *. rewrite G2, G3 in *.
  assert (Er' : o_r o' = o_r o) by congruence. assert (En : o_n o' = o_n o) by congruence.
  assert (Ep : o_pval o' = o_pval o) by congruence.
  split; [rewrite I11, J11; exact R2|]. split; [congruence|]. split; [exact En|]. split; [exact Er'|].
  split; [congruence|]. split; [exact Ep|]. split; [rewrite Er', En in K'; congruence|].
  split. { rewrite Ep, En, <- I17 in J17. now injection J17. }
  intros Z. specialize (G5 Z). rewrite Er', J8, G5, <- I8 in J19, J20. split; congruence.
Qed.
(** * C165: kwargs_mean_ci *)
Lemma mean_ci_options x g d o k : a_mean_ci g = Some d -> circular x g = Ok (o, k) ->
  k = Some {| kd_method := None; kd_ci := kd_ci d |} /\ o_level o = Fin (95/100) /\
  o_method o = match kd_method d with Some m => m | None => Some "bootstrap" end.
Proof.
  intros Ed E. destruct (circular_inv _ _ _ _ E) as (p & a0 & _ & _ & _ & _ & _ & _ & _ & _ & _ & _ & _ & _ & _ & _ & _ & _ & I17 & _).
  rewrite Ed in I17. cbn in I17. injection I17 as -> -> ->. auto.
Qed.
Lemma rayleigh_one : 5/100 <= rayleigh_p 1 1.
Proof.
  unfold rayleigh_p. replace (1 + 4 * 1 + 4 * (1 ^ 2 - (1 * 1) ^ 2)) with 5 by ring.
  assert (2 <= sqrt 5) by (rewrite <- (sqrt_square 2) by lra; apply sqrt_le_1_alt; lra).
  assert (E : exp (-1) <= exp (sqrt 5 - (1 + 2 * 1))) by ((destruct (Req_dec (-1) (sqrt 5 - (1 + 2 * 1))) as [<-|N]; [right; reflexivity|left; apply exp_increasing; lra])).
  assert (1/3 <= exp (-1)); [|lra]. replace (-1) with (- (1)) by lra. rewrite exp_Ropp. pose proof exp_le_3. pose proof (exp_pos 1).
  unfold Rdiv. rewrite Rmult_1_l. apply Rinv_le_contravar; lra.
Qed.
Lemma single_any x g c : full_cycle_of (a_unit g) (a_cycle g) = Ok c ->
  a_data g = [0] -> a_rotate g = None -> a_w g = None -> a_bins g = None ->
  exists o k, circular x g = Ok (o, k).
Proof.
  intros E1 Ed Er Ew Eb. pose proof PI_RGT_0.
  assert (E2 : to_alpha (a_data g) c (a_rotate g) = Ok [0]).
  { rewrite Ed, Er. cbn. unfold data2rad. do 2 f_equal. unfold Rdiv. ring. }
  assert (Ep : prepare [0] (a_w g) (a_bins g) = Ok {| p_alpha := [0]; p_w := ones [0]; p_grouped := false; p_bin := 0; p_bounds := [] |}).
  { rewrite Ew, Eb. reflexivity. }
  destruct (one_dir_mean [0] (ones [0]) 0 (ones_valid [0] ltac:(discriminate))) as (R1 & M1); [lra| | |].
  { exists 1. split; [left; reflexivity|lra]. }
  { intros b Hb. apply (observed_repeat 0 1) in Hb. subst. apply same_dir_refl. }
  assert (T : trunc (Rsum (ones [0])) = 1%Z) by (rewrite ones_total, trunc_INR; reflexivity).
  destruct (circular_run x g c _ _ E1 E2 Ep) as (kp & ray & s & s0 & Hp & ->); cbn [p_alpha p_w p_grouped p_bin p_bounds] in *.
  - rewrite T. lia.
  - rewrite R1. lra.
  - rewrite T, R1 in *. cbv zeta. pose proof rayleigh_one. change (IZR 1) with 1 in Hp.
    destruct (choose_ci _ _ _) as [[me le] af].
    replace (match me with Some me => if Rltb (ray_pval ray) (5/100) then mean_ci x [0] (ones [0]) (fst (circ_mean_and_r [0] (Some (ones [0])))) 1 1 me else Ok None | None => Ok None end) with (@Ok (option (R * R)) None).
    2:{ destruct me; [|reflexivity]. destruct (Rltb_spec (ray_pval ray) (5/100)); [lra|reflexivity]. }
    cbn [bind]. rewrite (one_dir_median [0] _ 0 [] _ _ _ eq_refl R1). cbn [bind].
    destruct (median_ci_15 [0] 0 (x_z x)) as (ci & ->); [cbn; lia|]. cbn [bind]. eauto.
Qed.
Definition ask (d : kdict) : args := with_mean_ci (plain [0] "degree") (Some d).
Lemma mean_ci_twice x v : exists o o' k k',
  circular x (ask {| kd_method := Some (Some "dispersion"); kd_ci := Some v |}) = Ok (o, k) /\
  circular x (with_mean_ci (ask {| kd_method := Some (Some "dispersion"); kd_ci := Some v |}) k) = Ok (o', k') /\
  o_method o = Some "dispersion" /\ o_method o' = Some "bootstrap" /\ o_level o = Fin (95/100).
Proof.
  set (d := {| kd_method := Some (Some "dispersion"); kd_ci := Some v |}).
  destruct (single_any x (ask d) 360) as (o & k & E); try reflexivity.
  destruct (mean_ci_options x (ask d) d o k eq_refl E) as (-> & L & M).
  destruct (single_any x (with_mean_ci (ask d) (Some {| kd_method := None; kd_ci := kd_ci d |})) 360) as (o' & k' & E'); try reflexivity.
  destruct (mean_ci_options x (with_mean_ci (ask d) (Some {| kd_method := None; kd_ci := kd_ci d |})) _ o' k' eq_refl E') as (_ & _ & M').
  exists o, o', (Some {| kd_method := None; kd_ci := kd_ci d |}), k'. repeat split; assumption.
Qed.
(** * C168: 25 or more observations *)
Lemma choose_25 p n : p < 5/100 -> (25 <= n)%Z -> choose_ci None p n = (Some "dispersion", Fin (95/100), None).
Proof.
  intros Hp H. unfold choose_ci. destruct (Rltb_spec p (5/100)); [|lra]. destruct (Z.leb_spec 8 n); [|lia]. destruct (Z.ltb_spec n 25); [lia|].
  destruct (Z.leb_spec 25 n); [|lia]. reflexivity.
Qed.
Lemma large_sample x g o k m : a_mean_ci g = None -> 0 < x_z x <= 2 -> Forall (fun v => 0 <= v) (o_w o) ->
  length (o_w o) = length (o_alpha o) -> circular x g = Ok (o, k) -> (25 <= o_n o)%Z -> o_pval o < 5/100 -> o_mean o = Fin m ->
  exists lb ub, o_mean_ci o = Some (lb, ub) /\ on_ccw_arc m lb ub /\
    o_method o = Some "dispersion" /\ o_level o = Fin (95/100).
Proof.
  intros Ek Hz Hw Hl E Hn Hp Em.
  destruct (circular_inv _ _ _ _ E) as (p & a0 & _ & _ & _ & _ & I5 & I6 & _ & _ & _ & I10 & I11 & I12 & I13 & I14 & I15 & _ & I17 & I18 & _).
  rewrite Ek, choose_25 in I17 by auto. injection I17 as M L _.
  rewrite M, Em in I18. destruct (Rltb_spec (o_pval o) (5/100)); [|lra].
  unfold mean_ci in I18. cbn [String.eqb Ascii.eqb Bool.eqb] in I18.
  assert (Hv : valid_sample (o_alpha o) (Some (o_w o))).
  { assert (0 < Rsum (o_w o)) by (apply trunc_pos; rewrite <- I6 in I10; rewrite <- I10; exact I13).
    split; [|repeat split; auto]. intros Z. rewrite Z in Hl. destruct (o_w o); [rewrite Rsum_nil in *; lra|discriminate]. }
  rewrite <- I5, <- I6 in *.
  assert (N : 25 <= IZR (o_n o) <= Rsum (o_w o)).
  { split; [apply IZR_le in Hn; exact Hn|]. rewrite I10. apply trunc_le. destruct Hv as (_ & _ & _ & T). lra. }
  rewrite I15, I12 in Hp.
  destruct (dispersion_ok _ _ m (x_z x) (IZR (o_n o)) Hv Hz N Hp) as (lb & ub & D). rewrite D in I18.
  injection I18 as I18. exists lb, ub. split; [now symmetry|].
  split; [apply (ci_dispersion_contains _ _ _ _ _ (proj1 Hz) D)|]. auto.
Qed.
(** Without a median the construction of an ungrouped object of 25 or more always
    succeeds. *)
Lemma large_built x g v : a_mean_ci g = None -> a_w g = None -> a_bins g = None -> a_rotate g = None ->
  cycle_of (a_unit g) (a_cycle g) v -> km_method (a_median g) = None -> km_average (a_median g) = false -> 0 < x_z x <= 2 ->
  (25 <= length (a_data g))%nat -> circ_r (map (angle_of v) (a_data g)) None < conc_limit ->
  exists o, circular x g = Ok (o, None) /\ o_median o = MNaN /\ o_n o = Z.of_nat (length (a_data g)).
Proof.
  intros Ek Ew Eb Er Hc Em Ea Hz Hn Hr. set (al := map (angle_of v) (a_data g)) in *.
  assert (Hne : al <> []) by (intros Z; apply map_eq_nil in Z; rewrite Z in Hn; cbn in Hn; lia).
  pose proof (ones_valid al Hne) as Hv.
  assert (Ep : prepare al (a_w g) (a_bins g) = Ok {| p_alpha := al; p_w := ones al; p_grouped := false; p_bin := 0; p_bounds := [] |}) by (rewrite Ew, Eb; reflexivity).
  assert (Et : to_alpha (a_data g) v (a_rotate g) = Ok al) by (rewrite Er; reflexivity).
  assert (T : trunc (Rsum (ones al)) = Z.of_nat (length (a_data g))) by (rewrite ones_total, trunc_INR; unfold al; now rewrite map_length).
  destruct (circular_run x g v _ _ (cycle_full _ _ _ Hc) Et Ep) as (kp & ray & s & s0 & Hp & ->); cbn [p_alpha p_w p_grouped p_bin p_bounds] in *.
  - rewrite T. lia.
  - apply circ_r_range, Hv.
  - cbv zeta. rewrite T, Ek in *.
    assert (Hm : circ_median al (Some (ones al)) (km_method (a_median g)) (km_average (a_median g)) (km_average_method (a_median g)) = Ok MNaN).
    { unfold circ_median. cbn [weights]. change (circ_r_s (combine al (ones al))) with (circ_r al None). rewrite not_concentrated by auto.
      rewrite Em, Ea. replace (forallb (fun x => Reqb x 1) (ones al)) with true; [reflexivity|].
      symmetry. apply forallb_forall. intros z Hz'. unfold ones in Hz'. apply in_map_iff in Hz'. destruct Hz' as (? & <- & _).
      destruct (Reqb_spec 1 1); congruence. }
    assert (N : 25 <= IZR (Z.of_nat (length (a_data g))) <= Rsum (ones al)).
    { rewrite ones_total. unfold al. rewrite map_length, <- INR_IZR_INZ. split; [|lra]. apply le_INR in Hn. cbn in Hn. lra. }
    destruct (Rlt_le_dec (ray_pval ray) (5/100)) as [L|L].
    + rewrite choose_25 by (auto; lia). destruct (Rltb_spec (ray_pval ray) (5/100)); [|lra].
      unfold mean_ci. cbn [String.eqb Ascii.eqb Bool.eqb]. rewrite Hp in L.
      destruct (fst (circ_mean_and_r al (Some (ones al)))) as [m| | |]; [|cbn [bind]; rewrite Hm; cbn [bind]; eexists; split; [reflexivity|split; reflexivity] ..].
      destruct (dispersion_ok _ _ m (x_z x) _ Hv Hz N L) as (lb & ub & D). rewrite D. cbn [bind]. rewrite Hm. cbn [bind].
      eexists. split; [reflexivity|split; reflexivity].
    + unfold choose_ci. destruct (Rltb_spec (ray_pval ray) (5/100)); [lra|]. cbn [andb bind]. rewrite Hm. cbn [bind].
      eexists. split; [reflexivity|split; reflexivity].
Qed.
