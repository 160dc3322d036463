(** Property theorems for the base class of the distributions (C69, C140-C146). *)
From Coq Require Import String.
From Verif Require Import Prelude NpModel CircleSpec IntSpec DistSpec DistModel UtilsModel DescModel VonModel VonSpec WnModel
  CcModel CcSpec CcProofs Cc2Proofs Cc3Proofs Cc4Proofs Cc5Proofs CcEx.
Open Scope string_scope.

(** ** C69: loc and scale *)
(** The full statement - every loc other than 0 and scale other than 1 raises TypeError - is false:
    a positional argument after the shapes is bound to loc without a check and shifts the density,
    and a keyword loc within 1e-8 of 0 is dropped. *)
Theorem C69_refuted :
  (exists shapes ok pdf x args loc, NoDup shapes /\ List.length args = List.length shapes /\ loc <> 0 /\
    exists a b, call_pdf shapes ok pdf x (args ++ [loc])%list [] = Ok (Fin a) /\ call_pdf shapes ok pdf x args [] = Ok (Fin b) /\ a <> b) /\
  (exists shapes ok pdf x args loc, loc <> 0 /\ exists a, call_pdf shapes ok pdf x args [("loc", KNum [loc])] = Ok (Fin a)).
Proof.
  destruct positional_loc as [P1 P2]. split.
  - exists ["mu"; "rho"], car_ok_l, car_pdf_l, 0, [0; 1 / 4], PI. pose proof PI_pos. split; [repeat constructor; cbn; intros H'; decompose [or] H'; try discriminate; contradiction|].
    split; [reflexivity|]. split; [lra|]. eexists _, _. split; [exact P1|]. split; [exact P2|]. intros E. assert (0 < 3 / (4 * PI)) by (apply Rdiv_lt_0_compat; lra). lra.
  - exists ["mu"; "rho"], car_ok_l, car_pdf_l, 0, [0; 1 / 4], (/ 10 ^ 9). split; [apply Rgt_not_eq, Rinv_0_lt_compat; lra|]. eexists. rewrite small_loc. exact P2.
Qed.
Print Assumptions C69_refuted.
(** What holds: keywords that are not default raise TypeError, keywords that are default have no
    effect, for every family (shapes, argument check and density).  Missing: positional loc and
    scale, and defaults up to the tolerance of np.allclose. *)
Theorem C69_partial : forall shapes ok pdf x args kw, dict kw ->
  (forall k v, binds kw k v ->
     k = "loc" /\ ~ default_like v 0 \/ k = "scale" /\ ~ default_like v 1 \/ In k ["floc"; "fscale"; "fix_loc"; "fix_scale"] ->
     call_pdf shapes ok pdf x args kw = Err TypeError) /\
  ((forall k v, binds kw k v -> k = "loc" /\ default_like v 0 \/ k = "scale" /\ default_like v 1) -> List.length args = List.length shapes ->
     call_pdf shapes ok pdf x args kw = Ok (public_pdf (ok args) (pdf args) x)).
Proof.
  intros shapes ok pdf x args kw D. split.
  - intros k v B H. apply call_bad; [exact D|]. exists k, v. exact (conj B H).
  - exact (call_default shapes ok pdf x args kw D).
Qed.
Print Assumptions C69_partial.
(** fit always passes floc = 0 and fscale = 1 on, or raises TypeError. *)
Theorem C69_fit : forall kw, dict kw ->
  bad_fit_kw kw /\ sanitize_fit kw = Err TypeError \/
  ~ bad_fit_kw kw /\ exists rest, sanitize_fit kw = Ok (("floc", KNum [0]) :: ("fscale", KNum [1]) :: rest) /\
    (forall k v, binds rest k v <-> binds kw k v /\ k <> "loc" /\ k <> "scale" /\ k <> "floc" /\ k <> "fscale").
Proof. exact sanitize_cases. Qed.
Print Assumptions C69_fit.
Example C69_example : dict [("loc", KNum [0]); ("scale", KNum [2])] /\ bad_kw [("loc", KNum [0]); ("scale", KNum [2])] /\
  dict [("scale", KNum [1])] /\ (forall k v, binds [("scale", KNum [1])] k v -> k = "loc" /\ default_like v 0 \/ k = "scale" /\ default_like v 1).
Proof. exact ex_kw. Qed.

(** ** C140: shape parameters by keyword *)
Theorem C140_sound : forall shapes args kw v, NoDup shapes -> moment_args shapes args kw = Ok v ->
  List.length v = List.length shapes /\
  forall i n, nth_error shapes i = Some n ->
    (i < List.length args)%nat /\ nth i v 0 = nth i args 0 /\ (forall w, kw_get n kw = Some w -> exists x, w = KNum [x] /\ isclose (nth i args 0) x = true) \/
    (List.length args <= i)%nat /\ kw_get n kw = Some (KNum [nth i v 0]).
Proof. exact moment_args_sound. Qed.
Print Assumptions C140_sound.
Theorem C140_complete : forall pre names args vs kw, NoDup (pre ++ names)%list -> List.length args = List.length pre -> List.length vs = List.length names ->
  dict kw -> (forall k v, binds kw k v -> In k names) ->
  (forall j n, nth_error names j = Some n -> kw_get n kw = Some (KNum [nth j vs 0])) ->
  moment_args (pre ++ names) args kw = Ok (args ++ vs)%list.
Proof. exact moment_args_complete. Qed.
Print Assumptions C140_complete.
Example C140_example : moment_args ["mu"; "kappa"; "psi"] [1] [("psi", KNum [3]); ("kappa", KNum [2])] = Ok [1; 2; 3] /\
  moment_args ["mu"; "kappa"; "psi"] [1] [("psi", KNum [3])] = Err TypeError.
Proof. exact ex_shapes. Qed.

(** ** C141: the statistics of a distribution *)
Theorem C141_values : forall f m1 m2 med, moments12 f m1 m2 -> / 10 ^ 12 < hypot (fst m1) (snd m1) ->
  exists mu r c2 s2, about_mean f mu r c2 s2 /\
    cc_mean m1 = Fin mu /\ cc_r m1 = r /\ cc_var m1 = 1 - r /\ cc_std m1 = Fin (sqrt (- 2 * ln r)) /\
    cc_dispersion m1 m2 = Fin ((1 - hypot c2 s2) / (2 * r ^ 2)) /\
    (r < 1 - / 10 ^ 12 -> cc_skewness m1 m2 = Fin (s2 / Rpower (1 - r) (3 / 2)) /\
                          cc_kurtosis m1 m2 = Fin ((c2 - r ^ 4) / (1 - r) ^ 2)) /\
    (1 - / 10 ^ 12 <= r -> cc_skewness m1 m2 = NaN /\ cc_kurtosis m1 m2 = NaN) /\
    cc_stats m1 m2 med = (cc_mean m1, med, r, 1 - r, cc_std m1, cc_dispersion m1 m2, cc_skewness m1 m2, cc_kurtosis m1 m2).
Proof. exact cc_values. Qed.
Print Assumptions C141_values.
Theorem C141_undirected : forall f m1 m2 med, moments12 f m1 m2 -> hypot (fst m1) (snd m1) <= / 10 ^ 12 ->
  cc_mean m1 = NaN /\ cc_std m1 = PInf /\ cc_dispersion m1 m2 = PInf /\
  cc_stats m1 m2 med = (NaN, med, cc_r m1, cc_var m1, PInf, PInf, cc_skewness m1 m2, cc_kurtosis m1 m2).
Proof. exact cc_values_none. Qed.
Print Assumptions C141_undirected.
Example C141_example : moments12 (car_pdf 1 (1 / 4)) (1 / 4 * cos 1, 1 / 4 * sin 1) (0, 0) /\ / 10 ^ 12 < hypot (1 / 4 * cos 1) (1 / 4 * sin 1) < 1 - / 10 ^ 12.
Proof. exact (conj (proj1 (proj2 ex_cc)) (proj2 (proj2 (proj2 (proj2 ex_cc))))). Qed.

(** ** C142: rotation and reflection *)
Theorem C142_rotation : forall f g t m1 m2 n1 n2 mu, circle_density f -> 0 <= t <= 2 * PI -> (forall x, 0 <= x <= 2 * PI -> g x = f (x - t)) ->
  moments12 f m1 m2 -> moments12 g n1 n2 -> / 10 ^ 12 < hypot (fst m1) (snd m1) -> cc_mean m1 = Fin mu ->
  cc_mean n1 = Fin (pymod (mu + t) (2 * PI)) /\ cc_r n1 = cc_r m1 /\ cc_var n1 = cc_var m1 /\ cc_std n1 = cc_std m1 /\
  cc_dispersion n1 n2 = cc_dispersion m1 m2 /\ cc_skewness n1 n2 = cc_skewness m1 m2 /\ cc_kurtosis n1 n2 = cc_kurtosis m1 m2.
Proof. exact cc_rotation. Qed.
Print Assumptions C142_rotation.
Theorem C142_reflection : forall f g m1 m2 n1 n2 mu, circle_density f -> (forall x, 0 <= x <= 2 * PI -> g x = f (2 * PI - x)) ->
  moments12 f m1 m2 -> moments12 g n1 n2 -> / 10 ^ 12 < hypot (fst m1) (snd m1) -> cc_mean m1 = Fin mu ->
  cc_mean n1 = Fin (pymod (- mu) (2 * PI)) /\ cc_r n1 = cc_r m1 /\ cc_var n1 = cc_var m1 /\ cc_std n1 = cc_std m1 /\
  cc_dispersion n1 n2 = cc_dispersion m1 m2 /\ cc_skewness n1 n2 = fopp (cc_skewness m1 m2) /\ cc_kurtosis n1 n2 = cc_kurtosis m1 m2.
Proof. exact cc_reflection. Qed.
Print Assumptions C142_reflection.
Example C142_example : circle_density (car_pdf 1 (1 / 4)) /\ moments12 (car_pdf 1 (1 / 4)) (1 / 4 * cos 1, 1 / 4 * sin 1) (0, 0) /\
  moments12 (car_pdf 3 (1 / 4)) (1 / 4 * cos 3, 1 / 4 * sin 3) (0, 0) /\ (forall x, car_pdf 3 (1 / 4) x = car_pdf 1 (1 / 4) (x - 2)) /\
  / 10 ^ 12 < hypot (1 / 4 * cos 1) (1 / 4 * sin 1) < 1 - / 10 ^ 12.
Proof. exact ex_cc. Qed.

(** ** C143: distribution statistics and sample statistics use the same formulas *)
Theorem C143_sample : forall s, (forall p, In p s -> 0 <= snd p) -> 0 < wtotal s ->
  let m1 := circ_moment s 1 0 in let m2 := circ_moment s 2 0 in
  / 10 ^ 12 < circ_r_s s < 1 - / 10 ^ 12 ->
  cc_dispersion m1 m2 = Fin (circ_dispersion s) /\ cc_skewness m1 m2 = Fin (circ_skewness s) /\ cc_kurtosis m1 m2 = Fin (circ_kurtosis s) /\
  cc_mean m1 = fst (circ_mean_and_r_s s) /\ cc_r m1 = snd (circ_mean_and_r_s s).
Proof. exact cc_sample. Qed.
Print Assumptions C143_sample.
Example C143_example : (forall p, In p ccS -> 0 <= snd p) /\ 0 < wtotal ccS /\ / 10 ^ 12 < circ_r_s ccS < 1 - / 10 ^ 12.
Proof. exact ex_ccS. Qed.

(** ** C144: closed forms of the families *)
Theorem C144_cardioid : forall mu rho f m1 m2, car_ok mu rho = true -> mu < 2 * PI -> / 10 ^ 12 < rho ->
  (forall x, public_pdf (car_ok mu rho) (car_pdf mu rho) x = Fin (f x)) -> trig_moment_of f 1 (fst m1) (snd m1) -> trig_moment_of f 2 (fst m2) (snd m2) ->
  stats_are m1 m2 mu rho (sqrt (- 2 * ln rho)) (1 / (2 * rho ^ 2)) 0 (- rho ^ 4 / (1 - rho) ^ 2).
Proof. exact car_stats. Qed.
Print Assumptions C144_cardioid.
Theorem C144_wrapcauchy : forall mu rho f m1 m2, wc_ok mu rho = true -> 0 <= mu < 2 * PI -> / 10 ^ 12 < rho < 1 - / 10 ^ 12 ->
  (forall x, public_pdf (wc_ok mu rho) (wc_pdf mu rho) x = Fin (f x)) -> trig_moment_of f 1 (fst m1) (snd m1) -> trig_moment_of f 2 (fst m2) (snd m2) ->
  stats_are m1 m2 mu rho (sqrt (- 2 * ln rho)) ((1 - rho ^ 2) / (2 * rho ^ 2)) 0 ((rho ^ 2 - rho ^ 4) / (1 - rho) ^ 2).
Proof. exact wc_stats. Qed.
Print Assumptions C144_wrapcauchy.
(** The wrapped normal has neither skewness nor excess kurtosis. *)
Theorem C144_wrapnorm : forall mu rho f m1 m2, wn_ok mu rho = true -> 0 <= mu < 2 * PI -> / 10 ^ 12 < rho < 1 - / 10 ^ 12 ->
  (forall x, public_pdf (wn_ok mu rho) (wn_pdf mu rho) x = Fin (f x)) -> trig_moment_of f 1 (fst m1) (snd m1) -> trig_moment_of f 2 (fst m2) (snd m2) ->
  stats_are m1 m2 mu rho (sqrt (- 2 * ln rho)) ((1 - rho ^ 4) / (2 * rho ^ 2)) 0 0.
Proof. exact wn_stats. Qed.
Print Assumptions C144_wrapnorm.
Theorem C144_vonmises : forall iv mu k f m1 m2, is_iv iv -> von_ok mu k = true -> 0 <= mu < 2 * PI ->
  / 10 ^ 12 < iv 1%nat k / iv 0%nat k < 1 - / 10 ^ 12 -> 0 <= iv 2%nat k / iv 0%nat k <= 1 ->
  (forall x, public_pdf (von_ok mu k) (von_pdf iv mu k) x = Fin (f x)) -> trig_moment_of f 1 (fst m1) (snd m1) -> trig_moment_of f 2 (fst m2) (snd m2) ->
  let r1 := iv 1%nat k / iv 0%nat k in let r2 := iv 2%nat k / iv 0%nat k in
  stats_are m1 m2 mu r1 (sqrt (- 2 * ln r1)) ((1 - r2) / (2 * r1 ^ 2)) 0 ((r2 - r1 ^ 4) / (1 - r1) ^ 2).
Proof. exact von_stats. Qed.
Print Assumptions C144_vonmises.
Example C144_example : car_ok 1 (1 / 4) = true /\ 1 < 2 * PI /\ / 10 ^ 12 < 1 / 4 /\
  (forall x, public_pdf (car_ok 1 (1 / 4)) (car_pdf 1 (1 / 4)) x = Fin (car_pdf 1 (1 / 4) x)) /\
  trig_moment_of (car_pdf 1 (1 / 4)) 1 (1 / 4 * cos 1) (1 / 4 * sin 1) /\ trig_moment_of (car_pdf 1 (1 / 4)) 2 0 0.
Proof.
  pose proof Dist4Proofs.PI_gt3. assert (Ok : car_ok 1 (1 / 4) = true) by (apply ex_car_ok; lra). split; [exact Ok|]. split; [lra|]. split; [exact ex_small|].
  split; [intros x; apply car_pub, Ok|]. exact (proj2 (car_m12 1 (1 / 4) Ok)).
Qed.

(** ** C145: the median rotates with the distribution *)
(** False: median is the quantile of one half counted from the angle 0.  cardioid(0, 1/4), whose
    mean direction and mode are 0, has its median at pi, and so has its rotation by pi. *)
Theorem C145_refuted : exists mu t rho m m', car_ok mu rho = true /\ car_ok (mu + t) rho = true /\
  cc_median (car_ok mu rho) (car_ppf mu rho) = Fin m /\ cc_median (car_ok (mu + t) rho) (car_ppf (mu + t) rho) = Fin m' /\
  (forall x, car_pdf (mu + t) rho (x + t) = car_pdf mu rho x) /\ cos (m' - (m + t)) < - (99 / 100) /\
  cc_mean (rho * cos mu, rho * sin mu) = Fin 0 /\ Rabs (m - PI) <= / 10 ^ 8.
Proof. exact median_refuted. Qed.
Print Assumptions C145_refuted.

(** ** C146: the numeric cdf of a batch *)
Theorem C146_batch : forall f quad M lo up xs, good_quad f quad M lo up -> List.length (cdf_integral quad lo up xs) = List.length xs /\
  forall i x, nth_error xs i = Some x -> exists v, nth_error (cdf_integral quad lo up xs) i = Some v /\ 0 <= v <= 1 /\
    Rabs (v - cdf_value quad lo up x) <= M * / 10 ^ 15.
Proof. exact batch_near. Qed.
Print Assumptions C146_batch.
Example C146_example : good_quad (fun _ => 1 / (2 * PI)) (fun a b => 1 / (2 * PI) * (b - a)) (1 / (2 * PI)) 0 (2 * PI).
Proof. exact ex_quad. Qed.
