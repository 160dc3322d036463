(** The formula interfaces. *)
From Verif Require Import Prelude NpModel UtilsModel RegModel RegSpec.
From Coq Require Import Ascii.
Local Open Scope string_scope.
Open Scope R_scope.

Definition none_of (c : ascii) (s : string) : Prop := ~ In c (list_ascii_of_string s).
Lemma split_none c s : none_of c s -> split_on c s = [s].
Proof.
  unfold none_of. induction s as [|a s IH]; intros H; [reflexivity|]. cbn in *. destruct (Ascii.eqb_spec a c) as [->|N]; [elim H; now left|].
  rewrite IH by (intros K; apply H; now right). reflexivity.
Qed.
Lemma split_app c s r : none_of c s -> split_on c (s ++ String c r) = s :: split_on c r.
Proof.
  unfold none_of. induction s as [|a s IH]; intros H; cbn in *; [now rewrite Ascii.eqb_refl|]. destruct (Ascii.eqb_spec a c) as [->|N]; [elim H; now left|].
  rewrite IH by (intros K; apply H; now right). reflexivity.
Qed.
Lemma ascii_app s r : list_ascii_of_string (s ++ r) = (list_ascii_of_string s ++ list_ascii_of_string r)%list.
Proof. induction s; cbn; [reflexivity|now f_equal]. Qed.
Lemma str_assoc a b c : ((a ++ b) ++ c = a ++ (b ++ c))%string.
Proof. induction a; cbn; [reflexivity|now f_equal]. Qed.
Lemma plain_space s a : plain s -> In a (list_ascii_of_string s) -> is_space a = false.
Proof.
  intros [_ H] Hin. destruct (H a Hin) as (_ & _ & N & K). unfold is_space. destruct (Nat.eqb_spec (nat_of_ascii a) 32); [contradiction|]. cbn [orb].
  destruct (Nat.leb_spec 9 (nat_of_ascii a)); [|reflexivity]. destruct (Nat.leb_spec (nat_of_ascii a) 13); [lia|reflexivity].
Qed.
Lemma rstrip_id s : (forall a, In a (list_ascii_of_string s) -> is_space a = false) -> rstrip s = s /\ rstrip (s ++ " ") = s.
Proof.
  induction s as [|a s IH]; intros H; [split; reflexivity|]. cbn [append rstrip]. destruct IH as [E1 E2]; [intros b Hb; apply H; now right|]. rewrite E1, E2.
  assert (E : is_space a = false) by (apply H; now left). destruct s; rewrite ?E; split; reflexivity.
Qed.
Lemma lstrip_id s r : plain s -> lstrip (s ++ r) = (s ++ r)%string /\ lstrip (" " ++ s ++ r) = (s ++ r)%string.
Proof.
  intros H. destruct s as [|a s]; [destruct H as [H _]; congruence|]. assert (E : is_space a = false) by (apply (plain_space _ _ H); now left).
  cbn [append lstrip]. rewrite E. change (is_space " ") with true. split; reflexivity.
Qed.
Lemma app_nil s : (s ++ "" = s)%string.
Proof. induction s; cbn; [reflexivity|now f_equal]. Qed.
Lemma strip_plain s : plain s -> strip (s ++ " ") = s /\ strip (" " ++ s) = s /\ strip (" " ++ s ++ " ") = s.
Proof.
  intros H. destruct (rstrip_id s (fun a => plain_space s a H)) as [E1 E2].
  unfold strip. destruct (lstrip_id s " " H) as [L1 L2]. destruct (lstrip_id s "" H) as [_ L3]. rewrite app_nil in L3. rewrite L1, L2, L3. auto.
Qed.
Lemma concat_cons x y xs : String.concat " + " (x :: y :: xs) = (x ++ " + " ++ String.concat " + " (y :: xs))%string.
Proof. reflexivity. Qed.
Lemma plain_none c s : plain s -> c = "~"%char \/ c = "+"%char -> none_of c s.
Proof. intros [_ H] Hc K. destruct (H c K) as (N1 & N2 & _). destruct Hc; contradiction. Qed.
Lemma none_app c s r : none_of c s -> none_of c r -> none_of c (s ++ r).
Proof. unfold none_of. intros H1 H2. rewrite ascii_app. intros K. apply in_app_or in K. tauto. Qed.
Lemma none_cons c a r : a <> c -> none_of c r -> none_of c (String a r).
Proof. unfold none_of. cbn. intros N H [K|K]; auto. Qed.
Lemma none_nil c : none_of c "".
Proof. intros []. Qed.
Lemma names_split xs : xs <> [] -> Forall plain xs -> map strip (split_on "+"%char (String " " (String.concat " + " xs))) = xs.
Proof.
  induction xs as [|x xs IH]; intros Hn H; [congruence|]. inversion H as [|? ? Hx Hxs]; subst. destruct (strip_plain x Hx) as (S1 & S2 & S3).
  destruct xs as [|y xs].
  - cbn [String.concat]. rewrite split_none; [cbn [map]; now rewrite <- S2 at 2|]. apply none_cons; [discriminate|]. apply plain_none; auto.
  - rewrite concat_cons. change (String " " (x ++ " + " ++ String.concat " + " (y :: xs)))%string with (" " ++ (x ++ " + " ++ String.concat " + " (y :: xs)))%string.
    replace (" " ++ (x ++ " + " ++ String.concat " + " (y :: xs)))%string with ((" " ++ x ++ " ") ++ String "+" (String " " (String.concat " + " (y :: xs))))%string
      by (rewrite !str_assoc; reflexivity).
    rewrite split_app by (apply none_app; [apply none_cons; [discriminate|apply none_nil]|apply none_app; [apply plain_none; auto|apply none_cons; [discriminate|apply none_nil]]]).
    cbn [map]. rewrite S3, IH by (auto; discriminate). reflexivity.
Qed.
Lemma concat_none xs : Forall plain xs -> none_of "~" (String.concat " + " xs).
Proof.
  induction xs as [|x xs IH]; intros H; [apply none_nil|]. inversion H as [|? ? Hx Hxs]; subst. destruct xs as [|y xs]; [cbn; apply plain_none; auto|].
  rewrite concat_cons. apply none_app; [apply plain_none; auto|]. apply none_app; [|apply IH; auto].
  repeat (apply none_cons; [discriminate|]). apply none_nil.
Qed.
Lemma names_of_formula y xs : plain y -> xs <> [] -> Forall plain xs -> formula_names (formula_text y xs) = Ok (y, xs).
Proof.
  intros Hy Hn H. unfold formula_names, formula_text.
  replace (y ++ " ~ " ++ String.concat " + " xs)%string with ((y ++ " ") ++ String "~" (String " " (String.concat " + " xs)))%string by (rewrite str_assoc; reflexivity).
  rewrite split_app by (apply none_app; [apply plain_none; auto|apply none_cons; [discriminate|apply none_nil]]).
  rewrite split_none by (apply none_cons; [discriminate|apply concat_none; exact H]). rewrite names_split by auto. destruct (strip_plain y Hy) as (-> & _). reflexivity.
Qed.
Lemma column_of d name c : column_is d name c -> column d name = Ok c.
Proof.
  intros (pre & post & -> & N). induction pre as [|[n c'] pre IH]; cbn [app column]; [now rewrite String.eqb_refl|].
  destruct (String.eqb_spec n name) as [->|]; [elim N; now left|]. apply IH. intros K. apply N. now right.
Qed.
Definition col (rows : list (list fl)) (j : nat) : list fl := map (fun r => nth j r NaN) rows.
Lemma columns_of d rows xs : forall s, (forall j name, nth_error xs j = Some name -> column_is d name (col rows (s + j))) ->
  columns d xs = Ok (map (col rows) (seq s (List.length xs))).
Proof.
  induction xs as [|x xs IH]; intros s H; [reflexivity|]. cbn [columns List.length seq map].
  rewrite (column_of d x (col rows s)) by (rewrite <- (Nat.add_0_r s); apply (H 0%nat); reflexivity). cbn [bind].
  rewrite (IH (S s)) by (intros j name Hj; replace (S s + j)%nat with (s + S j)%nat by lia; apply (H (S j)); exact Hj). reflexivity.
Qed.
Lemma nmap {A B} (f : A -> B) l i a b : (i < List.length l)%nat -> nth i (map f l) b = f (nth i l a).
Proof. intros Hi. rewrite (nth_indep _ b (f a)) by (now rewrite map_length). apply map_nth. Qed.
Lemma rows_back p rows : (forall r, In r rows -> List.length r = p) -> rows_of (List.length rows) (map (col rows) (seq 0 p)) = rows.
Proof.
  intros H. unfold rows_of. apply (nth_ext _ _ [] []); [now rewrite map_length, seq_length|]. intros i Hi. rewrite map_length, seq_length in Hi.
  rewrite (nmap _ _ i 0%nat) by (rewrite seq_length; exact Hi). rewrite seq_nth by exact Hi. cbn [plus]. rewrite map_map.
  assert (Lr : List.length (nth i rows []) = p) by (apply H, nth_In; exact Hi).
  apply (nth_ext _ _ NaN NaN); [rewrite map_length, seq_length; congruence|]. intros j Hj. rewrite map_length, seq_length in Hj.
  rewrite (nmap _ _ j 0%nat) by (rewrite seq_length; exact Hj). rewrite seq_nth by exact Hj. cbn [plus].
  unfold col. rewrite (nmap _ _ i []) by exact Hi. reflexivity.
Qed.
(** A table holding the responses and the predictors under these names. *)
Definition table_of (d : frame) (y : string) (xs : list string) (theta : list fl) (rows : list (list fl)) : Prop :=
  plain y /\ xs <> [] /\ Forall plain xs /\ List.length theta = List.length rows /\ (forall r, In r rows -> List.length r = List.length xs) /\
  column_is d y theta /\ forall j name, nth_error xs j = Some name -> column_is d name (map (fun r => nth j r NaN) rows).
Lemma formula_nonempty y xs : plain y -> exists a s, formula_text y xs = String a s.
Proof. intros [N _]. destruct y as [|a s]; [congruence|]. cbn. eauto. Qed.

Lemma cc_formula lstsq inv pinv chi2 d y xs theta rows t' x' order level : table_of d y xs theta rows ->
  CCRegression lstsq inv pinv chi2 (Some (formula_text y xs)) (Some d) t' x' order level =
  CCRegression lstsq inv pinv chi2 None None (Some theta) (Some (X2 (List.length xs) rows)) order level.
Proof.
  intros (Hy & Hn & Hxs & El & Hr & Cy & Cx). destruct (formula_nonempty y xs Hy) as (a & s & E). unfold CCRegression. rewrite E.
  unfold cc_parse. rewrite <- E, names_of_formula by auto. cbn [bind fst snd]. rewrite (column_of d y theta Cy). cbn [bind].
  rewrite (columns_of d rows xs 0 Cx). cbn [bind fst snd]. rewrite El, (rows_back (List.length xs) rows Hr). reflexivity.
Qed.
Lemma existsb_finite l : existsb is_null l = true -> finite l = None.
Proof.
  induction l as [|x l IH]; cbn; [discriminate|]. destruct x; cbn; auto. intros H. now rewrite (IH H).
Qed.
Lemma nulls_rows rows p : (forall r, In r rows -> List.length r = p) -> existsb (existsb is_null) (map (col rows) (seq 0 p)) = true -> finite_rows rows = None.
Proof.
  intros Hr H. apply existsb_exists in H. destruct H as (c & Hc & H). apply in_map_iff in Hc. destruct Hc as (j & <- & Hj). apply in_seq in Hj.
  apply existsb_exists in H. destruct H as (v & Hv & Hnull). unfold col in Hv. apply in_map_iff in Hv. destruct Hv as (r & <- & Hin).
  assert (F : finite r = None). { apply existsb_finite. apply existsb_exists. exists (nth j r NaN). split; [apply nth_In; rewrite (Hr r Hin); lia|exact Hnull]. }
  clear Hr. induction rows as [|r' rows IH]; [destruct Hin|]. cbn. destruct Hin as [->|Hin]; [now rewrite F|]. rewrite (IH Hin). destruct (finite r'); reflexivity.
Qed.
Definition same_fit (x y : res clreg) (names : list string) : Prop :=
  match x, y with
  | Ok c, Ok c' => cl_p c = cl_p c' /\ cl_obs c = cl_obs c' /\ cl_mt c = cl_mt c' /\ cl_fit c = cl_fit c' /\ cl_names c = names
  | Err e, Err e' => e = e'
  | _, _ => False
  end.
Lemma cl_formula i0 i1 solve pinv d y xs theta rows t' x' mt b0 a0 g0 tol it : table_of d y xs theta rows ->
  same_fit (CLRegression i0 i1 solve pinv (Some (formula_text y xs)) (Some d) t' x' mt b0 a0 g0 tol it)
           (CLRegression i0 i1 solve pinv None None (Some theta) (Some (X2 (List.length xs) rows)) mt b0 a0 g0 tol it) xs.
Proof.
  intros (Hy & Hn & Hxs & El & Hr & Cy & Cx). destruct (formula_nonempty y xs Hy) as (a & s & E). unfold CLRegression, cl_source. rewrite E.
  unfold cl_parse. rewrite <- E, names_of_formula by auto. cbn [bind fst snd]. rewrite (column_of d y theta Cy). cbn [bind].
  destruct (existsb is_null theta) eqn:En.
  - cbn [bind]. unfold cl_prepare. destruct theta as [|x theta]; [discriminate|]. rewrite (existsb_finite _ En). reflexivity.
  - rewrite (columns_of d rows xs 0 Cx). cbn [bind]. destruct (existsb (existsb is_null) (map (col rows) (seq 0 (List.length xs)))) eqn:Ex.
    + cbn [bind]. unfold cl_prepare. destruct theta as [|x theta]; [reflexivity|]. destruct (finite (x :: theta)); [|reflexivity].
      destruct (negb (forallb (fun r => Nat.eqb (List.length r) (List.length xs)) rows)); [reflexivity|]. destruct (negb (Nat.eqb (List.length rows) (List.length v))); [reflexivity|].
      rewrite (nulls_rows rows _ Hr Ex). reflexivity.
    + cbn [bind fst snd]. rewrite El, (rows_back (List.length xs) rows Hr). destruct (cl_prepare theta (X2 (List.length xs) rows)) as [[p l]|e]; [|reflexivity]. cbn [bind].
      destruct (type_of mt) as [m|]; [|reflexivity]. destruct (coerce_vector b0 p); [|reflexivity]. cbn [bind]. destruct (coerce_vector g0 p); [|reflexivity]. cbn [bind].
      destruct (cl_loop _ _ _ _ _ _); [|reflexivity]. cbn [bind]. cbn. auto.
Qed.
Definition numbers (l : list fl) : Prop := forall x, In x l -> exists r, x = Fin r.
Lemma finite_spec l : match finite l with Some v => l = map Fin v | None => ~ numbers l end.
Proof.
  induction l as [|x l IH]; cbn; [reflexivity|]. destruct x as [r| | |]; try (intros H; destruct (H _ (or_introl eq_refl)) as [? ?]; discriminate).
  destruct (finite l) as [v|]; [now rewrite IH|]. intros H. apply IH. intros x Hx. apply H. now right.
Qed.
Lemma finite_rows_spec m : match finite_rows m with Some v => m = map (map Fin) v | None => ~ forall r, In r m -> numbers r end.
Proof.
  induction m as [|r m IH]; cbn; [reflexivity|]. pose proof (finite_spec r) as F. destruct (finite r) as [v|]; [|intros H; apply F, H; now left].
  destruct (finite_rows m) as [w|]; [now rewrite F, IH|]. intros H. apply IH. intros x Hx. apply H. now right.
Qed.
Lemma finite_map' v : finite (map Fin v) = Some v.
Proof. induction v as [|x v IH]; cbn; [reflexivity|now rewrite IH]. Qed.
Lemma finite_rows_map' v : finite_rows (map (map Fin) v) = Some v.
Proof. induction v as [|x v IH]; cbn; [reflexivity|now rewrite finite_map', IH]. Qed.
Lemma cc_one_dim lstsq inv pinv chi2 theta l order level :
  CCRegression lstsq inv pinv chi2 None None (Some theta) (Some (X1 l)) order level =
  CCRegression lstsq inv pinv chi2 None None (Some theta) (Some (X2 1 (map (fun x => [x]) l))) order level.
Proof.
  unfold CCRegression. cbn [bind fst snd]. destruct (cc_theta theta) as [t|]; [|reflexivity]. cbn [bind]. unfold cc_x.
  assert (F : forallb (fun r : list fl => Nat.eqb (List.length r) 1) (map (fun x => [x]) l) = true) by (induction l; cbn; auto). rewrite F. cbn [negb].
  assert (G : finite_rows (map (fun x => [x]) l) = match finite l with Some v => Some (map (fun x => [x]) v) | None => None end).
  { clear. induction l as [|x l IH]; cbn; [reflexivity|]. rewrite IH. destruct x; try reflexivity. destruct (finite l); reflexivity. }
  rewrite G. destruct (finite l) as [v|]; [|reflexivity]. cbn [bind fst snd]. rewrite map_map. reflexivity.
Qed.
Lemma cc_outcomes lstsq inv pinv chi2 theta p rows order level :
  let good := numbers theta /\ (forall r, In r rows -> List.length r = p /\ numbers r) /\ List.length theta = List.length rows /\ (1 <= order)%Z /\ 0 < level < 1 in
  (good -> exists c, CCRegression lstsq inv pinv chi2 None None (Some theta) (Some (X2 p rows)) order level = Ok c) /\
  (~ good -> CCRegression lstsq inv pinv chi2 None None (Some theta) (Some (X2 p rows)) order level = Err ValueError).
Proof.
  intros good. unfold CCRegression. cbn [bind fst snd]. unfold cc_theta. pose proof (finite_spec theta) as Ft. pose proof (finite_rows_spec rows) as Fr.
  destruct (finite theta) as [t|]; cbn [bind].
  2:{ split; [intros (H & _); contradiction|reflexivity]. }
  unfold cc_x. destruct (forallb (fun r : list fl => Nat.eqb (List.length r) p) rows) eqn:El; cbn [negb bind].
  2:{ split; [|reflexivity]. intros (_ & H & _). assert (K : forallb (fun r : list fl => Nat.eqb (List.length r) p) rows = true) by (apply forallb_forall; intros r Hr; apply Nat.eqb_eq, (H r Hr)). congruence. }
  destruct (finite_rows rows) as [m|]; cbn [bind].
  2:{ split; [|reflexivity]. intros (_ & H & _). elim Fr. intros r Hr. apply (H r Hr). }
  cbn [fst snd]. assert (Nt : numbers theta) by (subst; intros x Hx; apply in_map_iff in Hx; destruct Hx as (v & <- & _); eauto).
  assert (Nr : forall r, In r rows -> List.length r = p /\ numbers r).
  { intros r Hr. split; [apply Nat.eqb_eq; exact (proj1 (forallb_forall _ _) El r Hr)|]. subst. apply in_map_iff in Hr. destruct Hr as (v & <- & _). intros x Hx. apply in_map_iff in Hx. destruct Hx as (u & <- & _). eauto. }
  destruct (Z.ltb_spec order 1). { split; [intros (_ & _ & _ & K & _); lia|reflexivity]. }
  destruct (Rltb_spec 0 level); [|split; [intros (_ & _ & _ & _ & K); lra|reflexivity]].
  destruct (Rltb_spec level 1); [|split; [intros (_ & _ & _ & _ & K); lra|reflexivity]]. cbn [andb negb].
  unfold cc_fit. rewrite !map_length. assert (Lt : List.length theta = List.length t) by (subst; apply map_length). assert (Lm : List.length rows = List.length m) by (subst; apply map_length).
  destruct (Nat.eqb_spec (List.length t) (List.length m)); cbn [negb].
  - split; [intros; eexists; reflexivity|]. intros N. elim N. split; [exact Nt|]. split; [exact Nr|]. split; [congruence|]. split; [lia|lra].
  - split; [intros (_ & _ & K & _); congruence|reflexivity].
Qed.
