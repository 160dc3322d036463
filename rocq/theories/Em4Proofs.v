From Verif Require Import Prelude NpModel NpProofs CircleSpec UtilsModel UtilsProofs DescModel Desc2Model DescProofs
  DescSpec DescApi DescApi2 HypProofs HypMultiModel HypMulti2Model HypMultiSpec HypMultiProofs HypMulti7Proofs
  CorrSpec CorrProofs Corr4Proofs Corr6Proofs ClusModel ClusSpec ClusProofs Clus2Proofs Clus3Proofs Clus4Proofs HypGofModel HypGofProofs EmModel EmSpec EmProofs Em2Proofs Em3Proofs.

(** * Labels *)
Lemma largest_fargmax g : g <> [] -> largest (map Fin g) (fargmax (map Fin g)).
Proof.
  intros N. unfold fargmax. rewrite first_nan_fin, fval_fin. destruct (argmax_spec g N) as (A & B & C). exists (np_max g).
  split; [|split].
  - rewrite nth_error_map, (nth_error_nth' g 0) by auto. cbn. now rewrite B.
  - intros u Hu. apply in_map_iff in Hu. destruct Hu as (u' & E & Hu). injection E as ->. destruct (np_max_in g N) as [_ M]. auto.
  - intros j u Hj Hu. rewrite nth_error_map in Hu. destruct (nth_error g j) as [w|] eqn:E; [|discriminate]. cbn in Hu. injection Hu as ->.
    rewrite <- (nth_error_nth _ _ 0 E). apply C. exact Hj.
Qed.
Lemma undefined_fargmax col : undefined col -> fargmax col = 0%nat.
Proof. intros H. unfold fargmax. destruct H as [|x l -> H]; [reflexivity|]. reflexivity. Qed.
Lemma drop_nan_spec hist : drop_nan hist = filter (fun v => match v with NaN => false | _ => true end) hist.
Proof. unfold drop_nan. apply filter_ext. intros [| | |]; reflexivity. Qed.
Lemma resp_ok {P} wt (ld : P -> R -> fl) (dens : P -> R -> R) ps cs alpha : cs <> [] -> length ps = length cs ->
  (forall q, In q ps -> 0 < wt q) -> Forall (log_of ld dens) cs ->
  responsibilities dens wt (map Fin ps) cs alpha (gammas wt ld (map Fin ps) cs alpha) (argmax_labels (gammas wt ld (map Fin ps) cs alpha)).
Proof.
  intros N L W F. destruct (gammas_bayes wt ld dens ps cs alpha N L W F) as (E & P1 & FG). exists ps, (bayes_cols dens (map wt ps) cs alpha).
  split; auto. split; auto. split; [exact P1|]. split; auto.
  rewrite E. unfold argmax_labels. rewrite map_map. clear -FG N. induction FG as [|g G (L & _) F IH]; cbn [map]; constructor; auto.
  apply largest_fargmax. intros ->. apply N. now apply length_zero_iff_nil.
Qed.
Lemma noresp_ok {P} wt (ld : P -> R -> fl) p cs alpha K : length cs = K -> length p = length cs ->
  In NaN p \/ (exists c, In c cs /\ forall x, ld c x = NaN) ->
  no_responsibilities K alpha (gammas wt ld p cs alpha) (argmax_labels (gammas wt ld p cs alpha)).
Proof.
  intros <- L H. pose proof (gamma_undefined wt ld p cs alpha L H) as U. pose proof (gammas_lengths wt ld p cs alpha L) as GL.
  split; [apply gammas_length|]. split.
  - apply Forall_forall. intros col Hc. rewrite Forall_forall in U, GL. auto.
  - rewrite <- (gammas_length wt ld p cs alpha). unfold argmax_labels. clear -U. induction U as [|col g H U IH]; cbn [map length repeat]; auto.
    rewrite IH, undefined_fargmax by auto. reflexivity.
Qed.

(** * MovM.fit *)
Lemma vm_begin_ok K alpha labels : length labels = length alpha -> (forall c, (c < K)%nat -> In c labels) -> (1 <= K)%nat ->
  let s := (even_weights K, map (fun c => vm_start (subset alpha labels c)) (seq 0 K)) in
  vm_begin kappa0 K alpha labels (conv s) /\ inv K s.
Proof.
  intros L C HK s. assert (Q : forall c, (c < K)%nat -> subset alpha labels c <> []) by (intros; apply subset_nonempty; auto). split.
  - unfold s, conv. cbn [fst snd]. split; auto. split; [reflexivity|]. cbn [fst snd]. split; [now rewrite !map_length, seq_length|].
    intros c new H. rewrite map_map, nth_error_map in H. destruct (nth_error (seq 0 K) c) as [c'|] eqn:E; [|discriminate]. cbn in H. injection H as <-.
    assert (Hc : (c < K)%nat) by (rewrite <- (seq_length K 0); apply nth_error_Some; congruence). apply nth_error_nth with (d := 0%nat) in E.
    rewrite seq_nth in E by auto. cbn in E. subst c'. apply vm_start_refit. auto.
  - split; [|split]; unfold s; cbn [fst snd].
    + apply repeat_length.
    + now rewrite map_length, seq_length.
    + left. split; [now apply even_shares|]. apply Forall_forall. intros c Hc. apply in_map_iff in Hc. destruct Hc as (i & <- & Hi).
      apply in_seq in Hi. apply (vm_start_refit _ (NaN, NaN)). apply Q. lia.
Qed.
Lemma movm_fit_eq I0 cfg old cands X m : (forall x, 0 < I0 x) -> cfg_ok cfg -> Forall (fun l => length l = length X) cands ->
  movm_fit I0 cfg old cands X = Ok m ->
  let alpha := in_radians (c_radian cfg) (c_cycle cfg) X in
  exists labels start, In labels cands /\ vm_begin kappa0 (c_K cfg) alpha labels start /\
    em_run (vm_pass I0 kappa0 alpha) (c_burnin cfg) (c_threshold cfg) (c_iters cfg) start (mx_p m, map pars (mx_cs m)) (mx_nll m) old (mx_flags m) /\
    inv (c_K cfg) (mx_p m, mx_cs m) /\ mx_alpha m = alpha /\ X <> [] /\
    mx_gamma m = gammas wt32 (vm_ld I0) (mx_p m) (mx_cs m) alpha /\ mx_labels m = argmax_labels (mx_gamma m).
Proof.
  intros HI (HK & HN & HT) CL E alpha. unfold movm_fit in E. destruct X as [|x0 X0]; [discriminate|]. set (X := x0 :: X0) in *.
  rewrite to_rad_in in E. fold alpha in E. cbv zeta in E. destruct (Nat.ltb (length alpha) (c_K cfg)) eqn:EK; [discriminate|].
  destruct (pick (c_K cfg) cands) as [labels|] eqn:EP; [|discriminate]. cbn [bind] in E.
  destruct (em_loop _ _ _ _ _ _ _) as [[[[p cs] hist] cv]|] eqn:EL; [|discriminate]. cbn [bind] in E. injection E as <-.
  destruct (pick_spec _ _ _ EP) as [Pi Pc]. rewrite Forall_forall in CL. specialize (CL labels Pi).
  assert (La : length alpha = length X) by apply in_radians_length.
  destruct (vm_begin_ok (c_K cfg) alpha labels ltac:(congruence) Pc HK) as [VB VI].
  apply em_loop_ok in EL; [|reflexivity|intros j [_ (u & v & H & _)]; destruct (j - 1)%nat; discriminate].
  destruct EL as (more & -> & PS & SR). cbn [app] in *.
  destruct (passes_map _ (vm_pass I0 kappa0 alpha) conv (inv (c_K cfg)) _ _ _ (fun s s' v => movm_step_spec I0 (c_K cfg) alpha s s' v HI
     ltac:(intros Z; rewrite Z in La; discriminate) HK) PS VI) as [PS' VI'].
  exists labels. eexists. split; auto. split; [exact VB|]. cbn [finish mx_p mx_cs mx_nll mx_flags mx_gamma mx_labels mx_alpha].
  split; [|split; [exact VI'|split; [auto|split; [discriminate|split; reflexivity]]]].
  exists more, cv. split; [exact PS'|]. split; [exact SR|]. split; [apply drop_nan_spec|]. reflexivity.
Qed.
(** What gamma_ and labels_ are. *)
Lemma movm_resp I0 K m alpha : (forall x, 0 < I0 x) -> (1 <= K)%nat -> inv K (mx_p m, mx_cs m) -> 
  mx_gamma m = gammas wt32 (vm_ld I0) (mx_p m) (mx_cs m) alpha -> mx_labels m = argmax_labels (mx_gamma m) ->
  (shares (mx_p m) /\ exists cs, map pars (mx_cs m) = map (fun c => (Fin (fst c), Fin (snd c))) cs /\
     Forall (fun c => 0 <= fst c < 2 * PI /\ / 1000 <= snd c) cs /\
     responsibilities (fun c x => vm_density I0 (fst c) (snd c) x) (fun q => q + / 10 ^ 32) (mx_p m) cs alpha (mx_gamma m) (mx_labels m)) \/
  ((undefined (mx_p m) \/ shares (mx_p m)) /\ (exists c, In c (map pars (mx_cs m)) /\ fst c = NaN) /\ no_responsibilities K alpha (mx_gamma m) (mx_labels m)).
Proof.
  intros HI HK (L1 & L2 & H) EG EL. cbn [fst snd] in *. assert (Nc : mx_cs m <> []) by (intros Z; rewrite Z in L2; cbn in L2; lia).
  destruct H as [[Sp F]|[U F]].
  - destruct (sound_or_lost _ F) as [Fs|(c & Hc & Lc)].
    + left. split; auto. exists (map num (map pars (mx_cs m))). split; [now apply sounds_num|]. split.
      { clear -Fs. induction Fs as [|c cs (mu & k & E & M & Hk) F IH]; cbn [map]; constructor; auto. rewrite E. cbn. lra. }
      destruct Sp as (ps & Ep & Pp & _). rewrite EL, EG, Ep.
      assert (Lp : length ps = length (mx_cs m)) by (rewrite Ep, map_length in L1; congruence).
      destruct (resp_ok wt32 (vm_ld I0) (dens_of I0) ps (mx_cs m) alpha Nc Lp (wt32_pos ps Pp) (sounds_log I0 _ HI Fs))
        as (ps' & G & E1 & E2 & PG & FG & LG).
      exists ps', G. split; auto. split; auto. split; [now apply posterior_num|]. split; auto. rewrite !map_length. exact FG.
    + right. split; auto. split; [exists (pars c); split; [now apply in_map|exact Lc]|]. rewrite EL, EG. apply noresp_ok; auto; [congruence|].
      right. exists c. split; auto. intros. now apply lost_ld.
  - right. split; [auto|]. assert (X : exists c, In c (mx_cs m) /\ lost c).
    { destruct (mx_cs m) as [|c cs]; [congruence|]. inversion F; subst. exists c. split; [now left|auto]. }
    destruct X as (c & Hc & Lc). split; [exists (pars c); split; [now apply in_map|exact Lc]|]. rewrite EL, EG. apply noresp_ok; auto; [congruence|].
    right. exists c. split; auto. intros. now apply lost_ld.
Qed.
Theorem movm_fit_spec I0 cfg old cands X m : (forall x, 0 < I0 x) -> cfg_ok cfg -> Forall (fun l => length l = length X) cands ->
  movm_fit I0 cfg old cands X = Ok m ->
  let alpha := in_radians (c_radian cfg) (c_cycle cfg) X in
  exists labels start, In labels cands /\ vm_begin kappa0 (c_K cfg) alpha labels start /\
    em_run (vm_pass I0 kappa0 alpha) (c_burnin cfg) (c_threshold cfg) (c_iters cfg) start (mx_p m, map pars (mx_cs m)) (mx_nll m) old (mx_flags m) /\
    length (mx_p m) = c_K cfg /\ length (mx_cs m) = c_K cfg /\
    ((shares (mx_p m) /\ exists cs, map pars (mx_cs m) = map (fun c => (Fin (fst c), Fin (snd c))) cs /\
       Forall (fun c => 0 <= fst c < 2 * PI /\ / 1000 <= snd c) cs /\
       responsibilities (fun c x => vm_density I0 (fst c) (snd c) x) (fun q => q + / 10 ^ 32) (mx_p m) cs alpha (mx_gamma m) (mx_labels m)) \/
     ((undefined (mx_p m) \/ shares (mx_p m)) /\ (exists c, In c (map pars (mx_cs m)) /\ fst c = NaN) /\
        no_responsibilities (c_K cfg) alpha (mx_gamma m) (mx_labels m))).
Proof.
  intros HI HC CL E alpha. destruct (movm_fit_eq I0 cfg old cands X m HI HC CL E) as (labels & start & A & B & C & D & _ & _ & F & G).
  exists labels, start. split; auto. split; auto. split; auto. destruct D as (D1 & D2 & D3). split; auto. split; auto.
  apply movm_resp; auto; [apply HC|]. split; auto.
Qed.
