(** circ_plot: the density curve. *)
From Coq Require Import String.
From Verif Require Import Prelude NpModel DescModel Desc2Model HypMultiModel BaseModel VzModel VzSpec VzProofs Vz2Proofs Vz3Proofs.
Import ListNotations.
Open Scope R_scope.
Open Scope list_scope.

Lemma plot_density_inv nonpar mixture o config p : circ_plot nonpar mixture o config = Draw p -> o_grouped o = false ->
  exists c dens, merge_dicts default_config (VDict (given config)) = Draw c /\ dget "density" c = Some dens /\
    if truthy dens then exists f, density_curve nonpar mixture o dens = Draw f /\ p_density p = Some f else p_density p = None.
Proof.
  unfold circ_plot, given. intros H G. cbv zeta in H. pstep H. rename a into c. pstep H. rename a into dens. pstep H. rename a into pts. pstep H. rename a into rose.
  pstep H. destruct a as [[bs width] extra]. cbv iota zeta in H. pstep H. pstep H. pstep H. pstep H. pstep H. pstep H. pstep H. injection H as <-. cbn [p_density].
  exists c, dens. split; [exact E|]. split; [apply item_get; assumption|]. rewrite G in E1. do 11 pstep E1.
  match goal with H : (match ?d with _ => _ end) = Draw pts, E : _ = Draw ?d |- _ => rename d into dd; rename E into Ed;
    assert (Hp : snd pts = dd) by (clear - H; repeat match type of H with (match ?e with _ => _ end) = _ => destruct e; try discriminate end; injection H as <-; reflexivity) end.
  rewrite Hp. rewrite G in E3. cbn [andb] in E3.
  assert (X : extra = None). { destruct (truthy rose).
    - pstep E3. match type of E3 with (let '(_, _) := ?q in _) = _ => destruct q as [beta w] end. cbv iota zeta in E3. repeat pstep E3. congruence.
    - pstep E3. match type of E3 with (match ?q with _ => _ end) = _ => destruct q end; congruence. }
  destruct (truthy dens).
  - pstep Ed. injection Ed as <-. eauto.
  - injection Ed as <-. exact X.
Qed.
Lemma linspace_length a b n : List.length (linspace a b n) = n.
Proof. unfold linspace. rewrite map_length, seq_length. reflexivity. Qed.
Lemma drawn_map f : drawn 100 f (map (fun t => (t, f t)) (linspace 0 (2 * PI) 100)).
Proof.
  split; [rewrite map_length; apply linspace_length|]. intros i Hi. set (g := fun t => (t, f t)).
  assert (Lh : (i < List.length (map g (linspace 0 (2 * PI) 100)))%nat) by (rewrite map_length, linspace_length; exact Hi).
  rewrite (nth_indep _ (0, 0) (g 0) Lh), map_nth, linspace_nth by exact Hi. replace (0 + INR i * ((2 * PI - 0) / INR (100 - 1))) with (2 * PI * (INR i / INR (100 - 1))) by (unfold Rdiv; ring). reflexivity.
Qed.
Lemma combine_linspace l : List.length (combine (linspace 0 (2 * PI) (List.length l)) l) = List.length l /\
  forall i, (i < List.length l)%nat -> nth i (combine (linspace 0 (2 * PI) (List.length l)) l) (0, 0) = (2 * PI * (INR i / INR (List.length l - 1)), nth i l 0).
Proof.
  split; [rewrite combine_length, linspace_length; apply Nat.min_id|]. intros i Hi. rewrite combine_nth by apply linspace_length. rewrite linspace_nth by exact Hi.
  f_equal. unfold Rdiv. ring.
Qed.
(** The dictionary used when one is given. *)
Lemma dens_dict config c sub : distinct_keys (VDict (given config)) -> merge_dicts default_config (VDict (given config)) = Draw c -> dget "density" (given config) = Some (VDict sub) ->
  exists d, dget "density" c = Some (VDict d) /\ truthy (VDict d) = true /\
    (forall k v, dget k sub = Some v -> ~ is_dict v -> dget k d = Some v) /\
    (forall k, dget k sub = None -> dget k d = dget k [("method", VStr "nonparametric"); ("color", VStr "black"); ("linestyle", VStr "-")]%string).
Proof.
  intros Hw E G. pose proof (dget_In _ _ _ G) as I. rewrite merge_fold in E. pose proof (top_at default_config "density" _ _ default_config c (proj1 Hw) I eq_refl E) as T.
  cbn in T. change (sub_fold [("method"%string, VStr "nonparametric"); ("color"%string, VStr "black"); ("linestyle"%string, VStr "-")] sub) with
    (sub_fold [("method"%string, VStr "nonparametric"); ("color"%string, VStr "black"); ("linestyle"%string, VStr "-")] sub) in T. destruct T as (d & S & D).
  pose proof (distinct_In _ Hw _ _ I) as Hs. exists d. split; [exact D|].
  assert (A : forall k v, dget k sub = Some v -> ~ is_dict v -> dget k d = Some v).
  { intros k v Gk Nd. pose proof (sub_at k v sub _ d (proj1 Hs) (dget_In _ _ _ Gk) S) as U. destruct v; try exact U. exfalso. apply Nd. eexists; reflexivity. }
  assert (B : forall k, dget k sub = None -> dget k d = dget k [("method", VStr "nonparametric"); ("color", VStr "black"); ("linestyle", VStr "-")]%string).
  { intros k Gk. apply (sub_other k sub); [apply dget_None, Gk|exact S]. }
  split; [|split; assumption]. destruct d; [|reflexivity]. exfalso. destruct (dget "color" sub) as [v|] eqn:Ev; [|specialize (B _ Ev); discriminate].
  pose proof (sub_at "color" v sub _ [] (proj1 Hs) (dget_In _ _ _ Ev) S) as U. cbn in U. destruct v; discriminate.
Qed.

Lemma plot_density nonpar mixture o config p : circ_plot nonpar mixture o config = Draw p -> distinct_keys (VDict (given config)) -> o_grouped o = false ->
  let D k := look (VDict (given config)) ["density"%string; k] in
  (dget "density" (given config) = Some (VBool false) -> p_density p = None) /\
  (dget "density" (given config) = None \/ dget "density" (given config) = Some (VBool true) \/
     (exists sub, dget "density" (given config) = Some (VDict sub)) /\ D "f"%string = None /\ D "h0"%string = None /\ (D "method"%string = None \/ D "method"%string = Some (VStr "nonparametric")) ->
     exists curve, p_density p = Some curve /\ drawn 100 (nonpar None o) curve) /\
  (forall h, D "h0"%string = Some (VNum h) -> D "f"%string = None -> D "method"%string = None \/ D "method"%string = Some (VStr "nonparametric") ->
     exists curve, p_density p = Some curve /\ drawn 100 (nonpar (Some h) o) curve) /\
  (D "method"%string = Some (VStr "MovM") -> D "f"%string = None -> exists q curve, mixture = Some q /\ p_density p = Some curve /\ drawn 100 q curve) /\
  (forall f, D "f"%string = Some (VList f) -> D "x"%string = None -> exists curve, p_density p = Some curve /\ List.length curve = List.length f /\
     forall i, (i < List.length f)%nat -> nth i curve (0, 0) = (2 * PI * (INR i / INR (List.length f - 1)), nth i f 0)) /\
  (forall f x, D "f"%string = Some (VList f) -> D "x"%string = Some (VList x) -> List.length x = List.length f /\ p_density p = Some (combine x f)).
Proof.
  intros H Hw Hg D. destruct (plot_density_inv _ _ _ _ _ H Hg) as (c & dens & M & G & T).
  assert (Mt := M). rewrite merge_fold in Mt.
  assert (ND : forall s, ~ is_dict (VStr s)) by (intros s [x X]; discriminate). assert (NN : forall s, ~ is_dict (VNum s)) by (intros s [x X]; discriminate). assert (NL : forall s, ~ is_dict (VList s)) by (intros s [x X]; discriminate).
  assert (Dd : forall sub, dget "density" (given config) = Some (VDict sub) -> forall k, D k = dget k sub).
  { intros sub K k. unfold D. cbn [look]. rewrite K. destruct (dget k sub); reflexivity. }
  assert (Du : forall k v, D k = Some v -> exists sub, dget "density" (given config) = Some (VDict sub)).
  { intros k v K. unfold D in K. cbn [look] in K. destruct (dget "density" (given config)) as [[| | | | |sub]|]; try discriminate. eauto. }
  assert (Default : dens = VDict [("method", VStr "nonparametric"); ("color", VStr "black"); ("linestyle", VStr "-")]%string -> exists curve, p_density p = Some curve /\ drawn 100 (nonpar None o) curve).
  { intros ->. cbn [truthy] in T. destruct T as (f & E & P). cbn in E. injection E as <-. eexists. split; [exact P|]. apply (drawn_map (nonpar None o)). }
  assert (Use : forall sub, dget "density" (given config) = Some (VDict sub) -> exists d f, density_curve nonpar mixture o (VDict d) = Draw f /\ p_density p = Some f /\
     (forall k v, D k = Some v -> ~ is_dict v -> dget k d = Some v) /\ (forall k, D k = None -> dget k d = dget k [("method", VStr "nonparametric"); ("color", VStr "black"); ("linestyle", VStr "-")]%string)).
  { intros sub K. destruct (dens_dict config c sub Hw M K) as (d & G2 & Tr & A & B). rewrite G in G2. injection G2 as ->. rewrite Tr in T. destruct T as (f & E & P). exists d, f. split; [exact E|]. split; [exact P|].
    split; intros k; rewrite (Dd sub K); [intros v; apply A|apply B]. }
  assert (Meth : forall d, (forall k v, D k = Some v -> ~ is_dict v -> dget k d = Some v) -> (forall k, D k = None -> dget k d = dget k [("method", VStr "nonparametric"); ("color", VStr "black"); ("linestyle", VStr "-")]%string) ->
     D "method"%string = None \/ D "method"%string = Some (VStr "nonparametric") -> dget "method" d = Some (VStr "nonparametric")).
  { intros d A B [K|K]; [rewrite (B _ K); reflexivity|apply (A _ _ K), ND]. }
  repeat apply conj.
  - intros K. pose proof (top_at default_config "density" _ _ default_config c (proj1 Hw) (dget_In _ _ _ K) eq_refl Mt) as U. cbn in U. rewrite G in U. injection U as ->. exact T.
  - intros [K|[K|(K & Kf & Kh & Km)]].
    + apply Default. rewrite (top_other default_config "density" _ _ _ (proj1 (dget_None _ _) K) Mt) in G. cbn in G. congruence.
    + apply Default. destruct (merge_true _ _ _ _ Hw M K) as [U _]. rewrite G in U. cbn in U. congruence.
    + destruct K as [sub K]. destruct (Use sub K) as (d & f & E & P & A & B). exists f. split; [exact P|]. unfold density_curve in E. cbn [get pbind] in E. rewrite (B _ Kf), (B _ Kh), (Meth d A B Km) in E. cbn in E. injection E as <-. apply (drawn_map (nonpar None o)).
  - intros h Kh Kf Km. destruct (Du _ _ Kh) as [sub K]. destruct (Use sub K) as (d & f & E & P & A & B). exists f. split; [exact P|]. unfold density_curve in E. cbn [get pbind] in E. rewrite (B _ Kf), (A _ _ Kh (NN _)), (Meth d A B Km) in E. cbn in E. injection E as <-. apply (drawn_map (nonpar (Some h) o)).
  - intros Km Kf. destruct (Du _ _ Km) as [sub K]. destruct (Use sub K) as (d & f & E & P & A & B). unfold density_curve in E. cbn [get pbind] in E. rewrite (B _ Kf), (A _ _ Km (ND _)) in E. cbn in E. destruct mixture as [q|]; [|discriminate]. injection E as <-. exists q. eexists. split; [reflexivity|]. split; [exact P|]. apply (drawn_map q).
  - intros l Kf Kx. destruct (Du _ _ Kf) as [sub K]. destruct (Use sub K) as (d & f & E & P & A & B). exists f. split; [exact P|]. unfold density_curve in E. cbn [get pbind] in E. rewrite (A _ _ Kf (NL _)), (B _ Kx) in E.
    cbn [dget String.eqb Ascii.eqb Bool.eqb] in E. injection E as <-. apply combine_linspace.
  - intros l x Kf Kx. destruct (Du _ _ Kf) as [sub K]. destruct (Use sub K) as (d & f & E & P & A & B). unfold density_curve in E. cbn [get pbind] in E. rewrite (A _ _ Kf (NL _)), (A _ _ Kx (NL _)) in E. destruct (Nat.eqb_spec (List.length x) (List.length l)) as [L|L]; [|discriminate]. injection E as <-. split; assumption.
Qed.
