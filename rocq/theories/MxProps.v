(** C216-C218: mixture densities, the constructors of the mixtures and their fitting methods. *)
From Verif Require Import Prelude NpModel CircleSpec UtilsModel DescModel CorrModel HypMultiModel ClusModel ClusSpec IntSpec DistModel DistSpec
  EmModel EmSpec Em2Proofs Em3Proofs Em9Proofs Em11Proofs EmEx WnModel MxModel MxSpec MxProofs Mx2Proofs MxEx.
From Coq Require Import String.
Import ListNotations.
Open Scope R_scope.
Open Scope list_scope.

(** ** C216: the predicted density of a fitted mixture is a probability density *)
(** MovM: when the fit left no NaN.  Missing: fits that leave NaN, for which the claim fails (next theorem). *)
Theorem C216_movm_partial : forall I0 cfg old cands X m, is_i0 I0 -> cfg_ok cfg -> Forall (fun l => List.length l = List.length X) cands ->
  movm_fit I0 cfg old cands X = Ok m ->
  (Forall (fun c => exists mu k, vm_mu c = Fin mu /\ vm_kappa c = Fin k) (mx_cs m) /\
   exists f, predicts_density (fun b k X => movm_predict_density I0 b k (Some m) (Some X)) f /\
     forall b k, movm_predict_density I0 b k (Some m) None = Ok (map (fun x => Fin (f x)) (density_grid 400 b k))) \/
  (exists c, In c (mx_cs m) /\ vm_mu c = NaN) /\ predicts_nothing (fun b k X => movm_predict_density I0 b k (Some m) (Some X)).
Proof. exact movm_mixture. Qed.
Print Assumptions C216_movm_partial.
Theorem C216_movm_refuted : forall I0, is_i0 I0 -> exists cfg cands X m, cfg_ok cfg /\ Forall (fun l => List.length l = List.length X) cands /\
  movm_fit I0 cfg (false, None) cands X = Ok m /\ forall x, movm_predict_density I0 true 360 (Some m) (Some [x]) = Ok [NaN].
Proof.
  intros I0 H. destruct (ex_balanced_nothing I0 H) as (m & E & P). exists cfg1, [[0; 0]%nat], [0; PI], m. split; [exact cfg1_ok|].
  split; [repeat constructor|]. split; [exact E|]. intros x. exact (P true 360 [x]).
Qed.
Print Assumptions C216_movm_refuted.
(** MoKJ: after every fit. *)
Theorem C216_mokj : forall moments mle tiny min_w cfg old kseed cands X m, 0 < tiny -> 0 < min_w -> cfg_ok cfg ->
  mokj_fit moments mle tiny min_w cfg old kseed cands X = Ok m ->
  exists f, predicts_density (fun b k X => mokj_predict_density b k (Some m) (Some X)) f /\
    forall b k, mokj_predict_density b k (Some m) None = Ok (map (fun x => Fin (f x)) (density_grid 400 b k)).
Proof. exact mokj_mixture. Qed.
Print Assumptions C216_mokj.
(** MoCD: for a family whose fits give positive densities. *)
Theorem C216_mocd_partial : forall P (pdf ld : P -> R -> fl) dens dfit methods cfg old cands X m,
  (forall m a w c, dfit m a w = Ok c -> log_of ld dens c /\ pdf_is_density (pdf c)) -> cfg_ok cfg ->
  mocd_fit ld dfit methods cfg old cands X = Ok m ->
  exists f, predicts_density (fun b k X => mocd_predict_density pdf b k (Some m) (Some X)) f /\
    forall b k, mocd_predict_density pdf b k (Some m) None = Ok (map (fun x => Fin (f x)) (density_grid 200 b k)).
Proof. intros P. exact mocd_mixture. Qed.
Print Assumptions C216_mocd_partial.
(** MoCD(wrapnorm): the density predicted opposite the data is negative. *)
Theorem C216_mocd_refuted : forall mle, exists cfg o X m v,
  mocd_init ex_wrapnorm None (FStr "auto") None ex_args = Ok o /\ o_cfg o = cfg /\ cfg_ok cfg /\
  mocd_fit wn_comp_ld (wn_dfit mle) (o_methods o) cfg (false, None) [[0]%nat] X = Ok m /\
  mocd_predict_density wn_comp_pdf true (2 * PI) (Some m) (Some [PI]) = Ok [Fin v] /\ v < 0.
Proof.
  intros mle. destruct (mocd_wn_negative mle) as (m & v & E & D & N). exists (cfg_cd true). eexists. exists [0], m, v.
  split; [exact ex_init|]. split; [reflexivity|]. split; [apply cfg_cd_ok|]. auto.
Qed.
Print Assumptions C216_mocd_refuted.
Example C216_example : (exists I0, is_i0 I0 /\ exists m, movm_fit I0 cfg1 (false, None) [[0; 0]%nat] [1; 1] = Ok m /\ forall c, In c (mx_cs m) -> vm_mu c <> NaN) /\
  (exists m, mokj_fit kj_moments kj_mle (/ 10 ^ 300) (/ 10 ^ 6) cfg1 (false, None) [0]%nat [[0; 0]%nat] [0; 1] = Ok m) /\
  exists I0, is_i0 I0 /\ (forall m a w c, vm_dfit m a w = Ok c -> log_of (vm_ld I0) (dens_of I0) c /\ pdf_is_density (vm_pdf I0 c)).
Proof.
  destruct i0_exists as [I0 H]. pose proof (is_i0_pos I0 H) as HI. split; [|split].
  - exists I0. split; [exact H|]. destruct (ex_movm I0 HI) as (m & E & _ & _ & _ & N). exists m. auto.
  - exact ex_mokj.
  - exists I0. split; [exact H|exact (ex_vm_dfit I0 H)].
Qed.

(** Before a fit there is no density: every class raises. *)
Theorem C216_unfitted : forall I0 P (pdf : P -> R -> fl) b k X,
  movm_predict_density I0 b k None X = Err TypeError /\ mokj_predict_density b k None X = Err ValueError /\
  mocd_predict_density pdf b k None X = Err ValueError.
Proof. intros. repeat split. Qed.
Print Assumptions C216_unfitted.

(** ** C217: the constructors accept exactly meaningful settings *)
Theorem C217_movm_mokj : forall a, let ok := sensible (a_burnin a) (a_K a) (a_iters a) (a_threshold a) (a_unit a) in
  (ok -> exists cfg, em_init a = Ok cfg /\ cfg_ok cfg /\ Z.of_nat (c_burnin cfg) = a_burnin a /\ Z.of_nat (c_K cfg) = a_K a /\ Z.of_nat (c_iters cfg) = a_iters a /\
     c_threshold cfg = a_threshold a /\ (c_radian cfg = true <-> a_unit a = "radian"%string) /\ c_cycle cfg = a_cycle a) /\
  (~ ok -> em_init a = Err ValueError).
Proof.
  intros a ok. unfold ok. clear ok. destruct (em_init_spec a) as [[S E]|[S E]]; split; intros H; try contradiction; [|exact E].
  exists (cfg_of a). split; [exact E|]. split; [exact (cfg_of_ok a S)|]. destruct S as (A & B & C & D & _). unfold cfg_of. cbn.
  rewrite !Z2Nat.id by lia. repeat split; apply String.eqb_eq.
Qed.
Print Assumptions C217_movm_mokj.
Theorem C217_mocd : forall d pn fm kw a,
  let names := match pn with Some l => l | None => d_shapes d end in
  let ok := sensible (a_burnin a) (a_K a) (a_iters a) (a_threshold a) (a_unit a) /\
    In (lower (d_name d)) ["cardioid"; "cartwright"; "wrapnorm"; "wrapcauchy"; "vonmises"]%string /\ d_weights d = true /\ names <> [] in
  (d_circular d = false -> mocd_init d pn fm kw a = Err TypeError) /\
  (d_circular d = true -> ok -> exists o, mocd_init d pn fm kw a = Ok o /\ cfg_ok (o_cfg o) /\ em_init a = Ok (o_cfg o) /\ o_names o = names) /\
  (d_circular d = true -> ~ ok -> mocd_init d pn fm kw a = Err ValueError).
Proof.
  intros d pn fm kw a names ok. destruct (mocd_init_spec d pn fm kw a) as [[H E]|[(H & S & I & W & N & E)|(H & S & E)]].
  - split; [auto|]. split; congruence.
  - split; [congruence|]. split.
    + intros _ _. eexists. split; [exact E|]. cbn [o_cfg o_names]. split; [exact (cfg_of_ok a S)|]. split; [|reflexivity].
      destruct (em_init_spec a) as [[_ Z]|[Z _]]; [exact Z|contradiction].
    + intros _ Z. exfalso. apply Z. split; [exact S|]. split; [exact I|]. split; [exact W|exact N].
  - split; [congruence|]. split; [|auto]. intros _ Z. exfalso. apply S. exact Z.
Qed.
Print Assumptions C217_mocd.
Example C217_example : sensible 0 1 1 (/ 10 ^ 16) "radian" /\ ~ sensible 0 1 1 0 "radian" /\ ~ sensible 0 1 1 1 "rad" /\
  mocd_init ex_wrapnorm None (FStr "auto") None ex_args =
    Ok {| o_cfg := cfg_cd true; o_names := ["mu"; "rho"]%string; o_methods := [Some "moments"; Some "mle"]%string |}.
Proof.
  split; [exact ex_args_sensible|]. split; [intros (_ & _ & _ & H & _); lra|]. split; [intros (_ & _ & _ & _ & [H|H]); discriminate|exact ex_init].
Qed.

(** ** C218: MoCD estimates its components by the requested method *)
Theorem C218_methods : forall P (ld : P -> R -> fl) dfit d pn fm kw a o old cands X m, mocd_init d pn fm kw a = Ok o ->
  mocd_fit ld dfit (o_methods o) (o_cfg o) old cands X = Ok m ->
  let by_method me := Forall (fun c => exists al w, dfit me al w = Ok c) (mx_cs m) in
  (forall s, kw = Some s -> by_method (Some (lower s))) /\
  (forall s, kw = None -> fm = FStr s -> lower s <> "auto"%string -> by_method (Some (lower s))) /\
  (kw = None -> fm = FNone -> by_method None) /\
  (forall s, kw = None -> fm = FStr s -> lower s = "auto"%string ->
     Forall (fun c => exists al w, dfit (Some "moments"%string) al w = Ok c \/
       (exists e, dfit (Some "moments"%string) al w = Err e) /\ dfit (Some "mle"%string) al w = Ok c) (mx_cs m)) /\
  (forall l, kw = None -> fm = FSeq l -> l <> [] ->
     Forall (fun c => exists al w, first_method (fun me => dfit me al w) (map (option_map lower) l) c) (mx_cs m)).
Proof.
  intros P ld dfit d pn fm kw a o old cands X m EO EM by_method. pose proof (mocd_from _ _ _ _ _ _ _ _ EM) as F.
  destruct (mocd_init_spec d pn fm kw a) as [[_ E]|[(_ & _ & _ & _ & _ & E)|(_ & _ & E)]]; try congruence.
  assert (O : o_methods o = match kw with Some m => [Some (lower m)] | None => normalise_fit_method fm end) by (rewrite E in EO; injection EO as <-; reflexivity).
  rewrite O in F. clear O E EO EM. unfold by_method. clear by_method.
  assert (One : forall me, Forall (came_from dfit [me]) (mx_cs m) -> Forall (fun c => exists al w, dfit me al w = Ok c) (mx_cs m)).
  { intros me. apply Forall_impl. intros c (al & w & H). exists al, w. inversion H as [|? ? ? ? ? H']; subst; [assumption|inversion H']. }
  split; [|split; [|split; [|split]]].
  - intros s ->. now apply One.
  - intros s -> -> N. cbn [normalise_fit_method] in F. destruct (String.eqb_spec (lower s) "auto") as [Z|_]; [contradiction|]. now apply One.
  - intros -> ->. now apply One.
  - intros s -> -> N. cbn [normalise_fit_method] in F. destruct (String.eqb_spec (lower s) "auto") as [_|Z]; [|contradiction].
    eapply Forall_impl; [|exact F]. intros c (al & w & H). exists al, w. inversion H as [|? ? e ? E1 H']; subst; [now left|right].
    split; [eauto|]. inversion H' as [|? ? ? ? ? H2]; subst; [assumption|inversion H2].
  - intros l -> -> N. destruct l as [|x l]; [congruence|]. exact F.
Qed.
Print Assumptions C218_methods.
(** An empty sequence of methods stands for fit's own default, like None. *)
Theorem C218_empty : forall P (ld : P -> R -> fl) dfit d pn a o old cands X m, mocd_init d pn (FSeq []) None a = Ok o ->
  o_methods o = [None] /\
  (mocd_fit ld dfit (o_methods o) (o_cfg o) old cands X = Ok m -> Forall (fun c => exists al w, dfit None al w = Ok c) (mx_cs m)).
Proof.
  intros P ld dfit d pn a o old cands X m EO.
  assert (O : o_methods o = [None]).
  { destruct (mocd_init_spec d pn (FSeq []) None a) as [[_ E]|[(_ & _ & _ & _ & _ & E)|(_ & _ & E)]]; try congruence. rewrite E in EO; injection EO as <-; reflexivity. }
  split; [exact O|]. intros EM. pose proof (mocd_from _ _ _ _ _ _ _ _ EM) as F. rewrite O in F. revert F.
  apply Forall_impl. intros c (al & w & H). exists al, w. inversion H as [|? ? ? ? ? H']; subst; [assumption|inversion H'].
Qed.
Print Assumptions C218_empty.
(** Names: sequences are read in the order of param_names, dictionaries by name. *)
Theorem C218_names : forall names, NoDup names ->
  (forall l, List.length l = List.length names -> exists d, array_to_params names (ESeq l) = Ok d /\ map fst d = names /\ params_to_array names d = Ok l) /\
  (forall l, List.length l <> List.length names -> array_to_params names (ESeq l) = Err ValueError) /\
  (forall d, array_to_params names (EDict d) = match params_to_array names d with Ok l => Ok (combine names l) | Err e => Err e end).
Proof.
  intros names ND. split; [|split].
  - intros l L. exists (combine names l). unfold array_to_params. rewrite L, Nat.eqb_refl. split; [reflexivity|]. split; [|exact (lookup_combine names l ND L)].
    revert l L. clear ND. induction names as [|n names IH]; intros [|x l] L; try discriminate L; [reflexivity|]. cbn. f_equal. apply IH. cbn in L. lia.
  - intros l L. unfold array_to_params. apply Nat.eqb_neq in L. now rewrite L.
  - intros d. unfold array_to_params, params_to_array. clear ND. induction names as [|n names IH]; [reflexivity|]. cbn [rmap].
    destruct (lookup n d) as [v|e]; cbn [bind]; [|reflexivity]. rewrite IH. destruct (rmap (fun n0 => lookup n0 d) names); reflexivity.
Qed.
Print Assumptions C218_names.
Example C218_example : (forall mle, exists o m, mocd_init ex_wrapnorm None (FStr "auto") None ex_args = Ok o /\
    mocd_fit wn_comp_ld (wn_dfit mle) (o_methods o) (o_cfg o) (false, None) [[0]%nat] [0] = Ok m) /\
  NoDup ["mu"; "rho"]%string /\ array_to_params ["mu"; "rho"]%string (EDict [("rho", 3); ("mu", 2)]%string) = Ok [("mu", 2); ("rho", 3)]%string.
Proof.
  split; [|split; [|reflexivity]].
  - intros mle. destruct (mocd_wn_negative mle) as (m & v & E & _). eexists. exists m. split; [exact ex_init|exact E].
  - repeat constructor; cbn; intuition discriminate.
Qed.
