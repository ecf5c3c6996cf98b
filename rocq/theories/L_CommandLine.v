(* Parsing the command line. *)
From Coq Require Import String Ascii.
From Verif Require Import M_Prelude M_Scalar M_Basis M_State M_Operators M_Main M_Program M_CommandLine S_Program S_CommandLine.
From Verif Require Import S_Output L_Scalar L_Dict L_Print.
Local Open Scope string_scope.

Lemma is_digit_ok c : In c (list_ascii_of_string "0123456789") <-> is_digit c = true.
Proof.
  split.
  - cbn. intros H. repeat (destruct H as [<-|H]; [reflexivity|]). destruct H.
  - destruct c as [[] [] [] [] [] [] [] []]; try discriminate; cbn; tauto.
Qed.
Lemma digits_ok s : decimal_digits s <-> all_digits s = true.
Proof.
  unfold decimal_digits. induction s as [|c s IH]; cbn [list_ascii_of_string all_digits]; [split; auto|].
  rewrite Forall_cons_iff, IH, is_digit_ok, andb_true_iff. reflexivity.
Qed.
Lemma digits_dot t u : all_digits t = true -> u <> "" -> all_digits u = true -> digits_dot_digits (t ++ "." ++ u) = true.
Proof.
  intros Ht Hu Hd. induction t as [|c t IH]; cbn in *.
  - destruct u; [contradiction|]. cbn. exact Hd.
  - apply andb_true_iff in Ht as [Hc Ht]. destruct (Ascii.eqb_spec c "."%char) as [->|_]; [discriminate|]. rewrite Hc, IH; auto.
Qed.
Lemma dot_digits s : digits_dot_digits s = true -> exists a b, s = a ++ "." ++ b /\ all_digits a = true /\ b <> "" /\ all_digits b = true.
Proof.
  induction s as [|c s IH]; [discriminate|]. cbn. destruct (Ascii.eqb_spec c "."%char) as [->|_].
  - intros H. apply andb_true_iff in H as [H1 H2]. exists "", s. split; [reflexivity|]. split; [reflexivity|]. split; [intros ->; discriminate|auto].
  - intros H. apply andb_true_iff in H as [H1 H2]. destruct (IH H2) as (a & b & -> & Ha & Hb & Hd). exists (String c a), b. split; [reflexivity|]. cbn. rewrite H1. auto.
Qed.
Lemma no_eq s : (forall c, In c (list_ascii_of_string s) -> c <> "="%char) -> split_eq s = None.
Proof.
  induction s as [|c s IH]; intros H; auto. cbn. destruct (Ascii.eqb_spec c "="%char) as [E|E]; [elim (H c); cbn; auto|].
  rewrite IH; auto. intros x Hx. apply H. cbn. auto.
Qed.
Lemma app_chars s t : list_ascii_of_string (s ++ t) = (list_ascii_of_string s ++ list_ascii_of_string t)%list.
Proof. induction s; cbn; congruence. Qed.
Lemma prefix_cons a s b t : String.prefix (String a s) (String b t) = Ascii.eqb a b && String.prefix s t.
Proof. change (String.prefix (String a s) (String b t)) with (if ascii_dec a b then String.prefix s t else false). destruct (ascii_dec a b), (Ascii.eqb_spec a b); cbn [andb]; congruence. Qed.
Lemma prefix_nil t : String.prefix "" t = true. Proof. destruct t; reflexivity. Qed.
Lemma prefix_app s x : String.prefix s x = true -> exists t, x = s ++ t.
Proof.
  revert x. induction s as [|a s IH]; intros x H; [exists x; reflexivity|]. destruct x as [|b x]; [discriminate|]. rewrite prefix_cons in H. apply andb_true_iff in H as [E H].
  apply Ascii.eqb_eq in E as <-. apply IH in H as (t & ->). exists t. reflexivity.
Qed.
(* a value is recognised *)
Section O.
Context {F : ofield}.
Notation strs := (@option_strings F).
Lemma second_char c s : c <> "-"%char -> c <> "h"%char -> existsb (eqb (String "-" (String c s))) strs = false.
Proof.
  intros H1 H2. apply not_true_iff_false. intros H. apply existsb_exists in H as (o & Ho & E). destruct (eqb_spec (String "-" (String c s)) o) as [<-|]; [|discriminate].
  cbn in Ho. repeat (destruct Ho as [Ho|Ho]; [injection Ho as Ho _; congruence|]). destruct Ho.
Qed.
Lemma value_ok s : value_like s -> @classify F s = Some (Value s).
Proof.
  intros [H|H].
  - assert (P : String.prefix "-" s = false).
    { destruct s as [|c s]; auto. rewrite prefix_cons. destruct (Ascii.eqb_spec "-" c) as [<-|]; auto. elim (H s). reflexivity. }
    unfold classify. rewrite P. cbn [negb]. destruct (eqb_spec s "--") as [->|]; [discriminate P|reflexivity].
  - assert (X : exists c s', s = String "-" (String c s') /\ (is_digit c = true \/ c = "."%char) /\ negative_number s = true /\
                  (forall x, In x (list_ascii_of_string s) -> x <> "="%char)).
    { assert (D : forall t x, decimal_digits t -> In x (list_ascii_of_string t) -> x <> "="%char).
      { intros t x Ht Hx. unfold decimal_digits in Ht. rewrite Forall_forall in Ht. specialize (Ht x Hx). apply is_digit_ok in Ht. intros ->. discriminate. }
      destruct H as [(t & -> & Ht & Hd)|(t & u & -> & Hd & Hu & Hd')].
      - destruct t as [|c t]; [contradiction|]. exists c, t. split; [reflexivity|]. pose proof (proj1 (digits_ok _) Hd) as G. split.
        + left. cbn in G. apply andb_true_iff in G. tauto.
        + split; [cbn in G |- *; rewrite G; reflexivity|]. intros x [<-|Hx]; [discriminate|]. eapply D; eauto.
      - pose proof (proj1 (digits_ok _) Hd) as G. pose proof (proj1 (digits_ok _) Hd') as G'.
        assert (N : negative_number ("-" ++ t ++ "." ++ u) = true) .
        { change (negative_number ("-" ++ t ++ "." ++ u)) with (true && ((negb (eqb (t ++ "." ++ u) "") && all_digits (t ++ "." ++ u)) || digits_dot_digits (t ++ "." ++ u))).
          rewrite (digits_dot t u) by auto. rewrite orb_true_r. reflexivity. }
        assert (E : forall x, In x (list_ascii_of_string ("-" ++ t ++ "." ++ u)) -> x <> "="%char).
        { intros x. rewrite !app_chars. intros Hx. apply in_app_iff in Hx as [[<-|[]]|Hx]; [discriminate|]. apply in_app_iff in Hx as [Hx|Hx]; [exact (D t x Hd Hx)|].
          apply in_app_iff in Hx as [[<-|[]]|Hx]; [discriminate|exact (D u x Hd' Hx)]. }
        destruct t as [|c t].
        + exists "."%char, u. auto.
        + exists c, (t ++ "." ++ u). split; [reflexivity|]. split; [|auto]. left. cbn in G. apply andb_true_iff in G. tauto. }
    destruct X as (c & s' & -> & Hc & N & E). set (s := String "-" (String c s')) in *.
    assert (C1 : c <> "-"%char) by (intros ->; destruct Hc; discriminate). assert (C2 : c <> "h"%char) by (intros ->; destruct Hc; discriminate).
    unfold classify. assert (Q : eqb s "--" = false). { destruct (eqb_spec s "--") as [Q|]; auto. unfold s in Q. injection Q. congruence. }
    assert (Q' : eqb s "-" = false). { destruct (eqb_spec s "-") as [Q'|]; auto. discriminate Q'. }
    rewrite Q, Q'. assert (P0 : String.prefix "-" s = true) by (unfold s; rewrite prefix_cons, prefix_nil; reflexivity). rewrite P0. cbn [negb]. unfold s at 1. rewrite second_char by auto.
    rewrite no_eq by auto. unfold matching.
    assert (P1 : String.prefix "--" s = false). { unfold s. rewrite !prefix_cons. destruct (Ascii.eqb_spec "-" c); [congruence|reflexivity]. }
    assert (P2 : String.prefix "-h" s = false). { unfold s. rewrite !prefix_cons. destruct (Ascii.eqb_spec "h" c); [congruence|reflexivity]. }
    rewrite P1, P2, N. reflexivity.
Qed.
Lemma value_ok_l vs : Forall value_like vs -> map_opt (@classify F) vs = Some (map Value vs).
Proof. induction vs as [|v vs IH]; intros H; auto. apply Forall_cons_iff in H as [Hv H]. cbn. rewrite value_ok, IH by auto. reflexivity. Qed.
Notation dash o := (String.append "--" o).
Definition all_names : list string := (opts_ints ++ opts_floats ++ opts_int ++ opts_float)%list.
Lemma option_ok o : In o all_names -> @classify F (dash o) = Some (Option (dash o) None).
Proof. intros H. cbn in H. repeat (destruct H as [<-|H]; [reflexivity|]). destruct H. Qed.
Lemma group_name g : group_ok g -> In (fst g) all_names.
Proof. intros [_ [[H _]|[H _]]]; unfold all_names; rewrite !in_app_iff in *; tauto. Qed.
Definition item_of (g : group) : item * list string := (Option (dash (fst g)) None, snd g).
Lemma map_opt_app {A B} (f : A -> option B) l l' : map_opt f (l ++ l') = match map_opt f l, map_opt f l' with Some a, Some b => Some (a ++ b)%list | _, _ => None end.
Proof. induction l as [|x l IH]; cbn. - destruct (map_opt f l'); reflexivity. - rewrite IH. destruct (f x), (map_opt f l), (map_opt f l'); reflexivity. Qed.
Lemma groups_classified gs : Forall group_ok gs ->
  map_opt (@classify F) (flat_map (fun g => (dash (fst g)) :: snd g) gs) = Some (flat_map (fun g => Option (dash (fst g)) None :: map Value (snd g)) gs).
Proof.
  induction gs as [|g gs IH]; intros H; [reflexivity|]. apply Forall_cons_iff in H as [Hg H]. cbn [flat_map].
  change (((dash (fst g)) :: snd g) ++ flat_map (fun g => (dash (fst g)) :: snd g) gs)%list with ([dash (fst g)] ++ snd g ++ flat_map (fun g => (dash (fst g)) :: snd g) gs)%list.
  rewrite !map_opt_app, IH by auto. cbn [map_opt]. rewrite option_ok by (apply group_name; auto). rewrite value_ok_l by apply Hg. reflexivity.
Qed.
Lemma grouped_values vs l : grouped (map Value vs ++ l) = (vs ++ fst (grouped l), snd (grouped l))%list.
Proof. unfold grouped. rewrite fold_right_app. induction vs as [|v vs IH]; cbn [map fold_right app]. - destruct (fold_right _ _ _); reflexivity. - rewrite IH. reflexivity. Qed.
Lemma grouped_option o e l : grouped (Option o e :: l) = ([], (Option o e, fst (grouped l)) :: snd (grouped l)).
Proof. reflexivity. Qed.
Lemma grouped_groups gs : grouped (flat_map (fun g : group => Option (dash (fst g)) None :: map Value (snd g)) gs) = ([], map item_of gs).
Proof.
  induction gs as [|g gs IH]; [reflexivity|]. cbn [flat_map map]. rewrite <- app_comm_cons, grouped_option, grouped_values, IH. cbn [fst snd]. rewrite app_nil_r. reflexivity.
Qed.
Variable py_int : string -> option Z.
Variable py_float : string -> option F.
Notation cv := (convert py_int py_float).
Definition kind (o : string) : okind :=
  if existsb (String.eqb o) opts_ints then OInt true else if existsb (String.eqb o) opts_floats then OFloat true else
  if existsb (String.eqb o) opts_int then OInt false else OFloat false.
Lemma find_opt o : In o all_names -> exists df, find (fun t => eqb (dash o) (dash (fst t))) (@the_options F) = Some (o, (kind o, df)).
Proof. intros H. cbn in H. repeat (destruct H as [<-|H]; [eexists; reflexivity|]). destruct H. Qed.
Lemma kind_in o : In o all_names -> (In o opts_ints -> kind o = OInt true) /\ (In o opts_floats -> kind o = OFloat true) /\ (In o opts_int -> kind o = OInt false) /\ (In o opts_float -> kind o = OFloat false).
Proof.
  intros _. split; [|split; [|split]]; intros H; cbn in H; repeat (destruct H as [<-|H]; [reflexivity|]); destruct H.
Qed.
Lemma map_opt_ok {A} (f : string -> option A) l : Forall (fun v => f v <> None) l -> exists r, map_opt f l = Some r /\ map f l = map Some r.
Proof.
  induction l as [|v l IH]; intros H; [exists []; auto|]. apply Forall_cons_iff in H as [Hv H]. destruct (IH H) as (r & E1 & E2). destruct (f v) as [x|] eqn:E; [|congruence].
  exists (x :: r). cbn. rewrite E, E1, E2. auto.
Qed.
Lemma map_opt_none {A} (f : string -> option A) l : ~ Forall (fun v => f v <> None) l -> map_opt f l = None.
Proof.
  induction l as [|v l IH]; intros H; [elim H; constructor|]. cbn. destruct (f v) as [x|] eqn:E; auto. rewrite IH; auto. intros C. apply H. constructor; auto. congruence.
Qed.
Definition names_kind (o : string) : Prop := In o opts_ints \/ In o opts_floats \/ In o opts_int \/ In o opts_float.
(* value of an option: what was written *)
Definition written (o : string) (vs : list string) (x : @ovalue F) : Prop :=
  match x with
  | VInts l => In o opts_ints /\ map py_int vs = map Some l
  | VFloats l => In o opts_floats /\ map py_float vs = map Some l
  | VInt z => In o opts_int /\ map py_int vs = [Some z]
  | VFloat z => In o opts_float /\ map py_float vs = [Some z]
  end.
Lemma disjoint o : (In o opts_ints -> ~ In o (opts_floats ++ opts_int ++ opts_float)) /\ (In o opts_floats -> ~ In o (opts_ints ++ opts_int ++ opts_float)) /\
  (In o opts_int -> ~ In o (opts_ints ++ opts_floats ++ opts_float)) /\ (In o opts_float -> ~ In o (opts_ints ++ opts_floats ++ opts_int)).
Proof.
  split; [|split; [|split]]; intros H C; cbn in H; repeat (destruct H as [<-|H]; [cbn in C; repeat (destruct C as [C|C]; [discriminate C|]); destruct C|]); destruct H.
Qed.
Lemma conv_ok g : group_ok g -> convertible py_int py_float g -> exists x, cv (kind (fst g)) (snd g) = Some x /\ written (fst g) (snd g) x.
Proof.
  intros Hg Hc. destruct (kind_in (fst g) (group_name g Hg)) as (K1 & K2 & K3 & K4). destruct (disjoint (fst g)) as (D1 & D2 & D3 & D4). rewrite !in_app_iff in *.
  destruct g as [o vs]. cbn [fst snd] in *. destruct Hg as [_ Hg], Hc as [[Ho Hc]|[Ho Hc]]; cbn [fst snd] in *; rewrite !in_app_iff in *; destruct (map_opt_ok _ _ Hc) as (r & E1 & E2).
  - destruct Ho as [Ho|Ho].
    + destruct Hg as [[_ Hn]|[Hg _]]; [|tauto]. rewrite (K1 Ho). destruct vs as [|v vs]; [contradiction|]. exists (VInts r). unfold convert. rewrite E1. split; [reflexivity|split; auto].
    + destruct Hg as [[Hg _]|[_ Hn]]; [tauto|]. rewrite (K3 Ho). destruct vs as [|v [|]]; try discriminate. cbn in Hc. apply Forall_cons_iff in Hc as [Hv _].
      destruct (py_int v) as [z|] eqn:Ez; [|congruence]. exists (VInt z). cbn. rewrite Ez. auto.
  - destruct Ho as [Ho|Ho].
    + destruct Hg as [[_ Hn]|[Hg _]]; [|tauto]. rewrite (K2 Ho). destruct vs as [|v vs]; [contradiction|]. exists (VFloats r). unfold convert. rewrite E1. split; [reflexivity|split; auto].
    + destruct Hg as [[Hg _]|[_ Hn]]; [tauto|]. rewrite (K4 Ho). destruct vs as [|v [|]]; try discriminate. cbn in Hc. apply Forall_cons_iff in Hc as [Hv _].
      destruct (py_float v) as [z|] eqn:Ez; [|congruence]. exists (VFloat z). cbn. rewrite Ez. auto.
Qed.
Lemma conv_none g : group_ok g -> ~ convertible py_int py_float g -> cv (kind (fst g)) (snd g) = None.
Proof.
  intros Hg Hc. destruct (kind_in (fst g) (group_name g Hg)) as (K1 & K2 & K3 & K4). pose proof (group_name g Hg) as HN. unfold all_names in HN.
  destruct g as [o vs]. unfold convertible in Hc. cbn [fst snd] in *. rewrite !in_app_iff in *.
  assert (X : forall A (f : string -> option A) B (h : A -> B) v, map_opt f [v] = None -> option_map h (f v) = None) by (intros A f B h v; cbn; destruct (f v); auto; discriminate).
  destruct HN as [HN|[HN|[HN|HN]]].
  - rewrite (K1 HN). destruct vs; [reflexivity|]. unfold convert. rewrite map_opt_none; [reflexivity|tauto].
  - rewrite (K2 HN). destruct vs; [reflexivity|]. unfold convert. rewrite map_opt_none; [reflexivity|tauto].
  - rewrite (K3 HN). destruct vs as [|v [|]]; [reflexivity| |reflexivity]. unfold convert. apply X, map_opt_none. tauto.
  - rewrite (K4 HN). destruct vs as [|v [|]]; [reflexivity| |reflexivity]. unfold convert. apply X, map_opt_none. tauto.
Qed.
Lemma some_dec {A} (o : option A) : {o <> None} + {~ o <> None}.
Proof. destruct o; [left; discriminate|right; tauto]. Qed.
Lemma conv_dec g : group_ok g -> convertible py_int py_float g \/ ~ convertible py_int py_float g.
Proof.
  intros Hg. unfold convertible. destruct (in_dec string_dec (fst g) (opts_ints ++ opts_int)) as [H1|H1], (in_dec string_dec (fst g) (opts_floats ++ opts_float)) as [H2|H2];
  destruct (Forall_dec (fun v => py_int v <> None) (fun v => some_dec (py_int v)) (snd g)) as [H3|H3];
  destruct (Forall_dec (fun v => py_float v <> None) (fun v => some_dec (py_float v)) (snd g)) as [H4|H4]; tauto.
Qed.
Lemma conv_dec_all gs : Forall group_ok gs -> Forall (convertible py_int py_float) gs \/ ~ Forall (convertible py_int py_float) gs.
Proof.
  induction gs as [|g gs IH]; intros H; [left; constructor|]. apply Forall_cons_iff in H as [Hg H]. destruct (conv_dec g Hg), (IH H); [left; auto|right..]; rewrite Forall_cons_iff; tauto.
Qed.
Lemma given_snoc gs g name : given (gs ++ [g]) name = if String.eqb (fst g) name then Some (snd g) else given gs name.
Proof. unfold given. rewrite rev_app_distr. cbn [rev app find]. destruct (String.eqb (fst g) name); reflexivity. Qed.
Notation consume := (consume py_int py_float).
Notation consume_all := (consume_all py_int py_float).
Lemma consume_group ns g x : group_ok g -> cv (kind (fst g)) (snd g) = x ->
  consume ns (item_of g) = match x with Some x => Some (dset ns (fst g) x, []) | None => None end.
Proof.
  intros Hg Hx. destruct (find_opt _ (group_name g Hg)) as (df & E). unfold item_of, M_CommandLine.consume.
  match goal with |- context [find ?f the_options] => replace (find f the_options) with (Some (fst g, (kind (fst g), df))) by (symmetry; exact E) end.
  assert (M : multi (kind (fst g)) = true \/ multi (kind (fst g)) = false /\ length (snd g) = 1%nat).
  { destruct (kind_in (fst g) (group_name g Hg)) as (K1 & K2 & K3 & K4). destruct Hg as [_ [[H _]|[H Hl]]]; rewrite in_app_iff in H; destruct H as [H|H].
    - left. rewrite (K1 H). reflexivity. - left. rewrite (K2 H). reflexivity. - right. rewrite (K3 H). auto. - right. rewrite (K4 H). auto. }
  assert (R : (if multi (kind (fst g)) then (snd g, []) else (firstn 1 (snd g), skipn 1 (snd g))) = (snd g, [])).
  { destruct M as [-> |[-> Hl]]; auto. destruct (snd g) as [|v [|]]; try discriminate. reflexivity. }
  rewrite R, Hx. destruct x; reflexivity.
Qed.
Lemma consume_all_app ns l l' : consume_all ns (l ++ l') =
  match consume_all ns l with Some (ns', r) => match consume_all ns' l' with Some (ns'', r') => Some (ns'', (r ++ r')%list) | None => None end | None => None end.
Proof.
  revert ns. induction l as [|g l IH]; intros ns; cbn [app M_CommandLine.consume_all].
  - destruct (consume_all ns l') as [[a b]|]; reflexivity.
  - destruct (consume ns g) as [[ns1 r1]|]; auto. rewrite IH. destruct (consume_all ns1 l) as [[ns2 r2]|]; auto. destruct (consume_all ns2 l') as [[ns3 r3]|]; auto. rewrite app_assoc. reflexivity.
Qed.
Lemma consume_groups gs : Forall group_ok gs -> Forall (convertible py_int py_float) gs -> forall ns, exists ns', consume_all ns (map item_of gs) = Some (ns', []) /\
  forall o, match given gs o with None => dget ns' o = dget ns o | Some vs => exists x, dget ns' o = Some x /\ written o vs x end.
Proof.
  induction gs as [|g gs IH] using rev_ind; intros Hg Hc ns.
  - exists ns. split; [reflexivity|]. intros o. reflexivity.
  - apply Forall_app in Hg as [Hg Hg1], Hc as [Hc Hc1]. apply Forall_cons_iff in Hg1 as [Hg1 _], Hc1 as [Hc1 _]. destruct (IH Hg Hc ns) as (ns1 & E1 & H1).
    destruct (conv_ok g Hg1 Hc1) as (x & Ex & Wx). exists (dset ns1 (fst g) x). split.
    + rewrite map_app, consume_all_app, E1. cbn [map M_CommandLine.consume_all]. rewrite (consume_group _ _ _ Hg1 Ex). reflexivity.
    + intros o. rewrite given_snoc. destruct (String.eqb_spec (fst g) o) as [<-|Hne].
      * exists x. rewrite dget_dset_same. auto.
      * rewrite dget_dset_other by auto. apply H1.
Qed.
Lemma consume_bad gs : Forall group_ok gs -> ~ Forall (convertible py_int py_float) gs -> forall ns, consume_all ns (map item_of gs) = None.
Proof.
  induction gs as [|g gs IH]; intros Hg Hc ns; [elim Hc; constructor|]. apply Forall_cons_iff in Hg as [Hg1 Hg]. cbn [map M_CommandLine.consume_all].
  rewrite (consume_group ns g _ Hg1 eq_refl). destruct (cv (kind (fst g)) (snd g)) eqn:E; auto. rewrite IH; auto. intros C. apply Hc. constructor; auto.
  destruct (conv_dec g Hg1) as [K|K]; auto. rewrite conv_none in E by auto. discriminate.
Qed.
Notation parse := (parse_args py_int py_float).
Lemma parse_split vs gs : Forall value_like vs -> Forall group_ok gs ->
  parse (vs ++ flat_map (fun g => dash (fst g) :: snd g) gs) =
  match consume_all defaults (map item_of gs) with
  | Some (ns, rest) => match (vs ++ rest)%list with [h0; radial] => Some (h0, radial, main_args ns) | _ => None end | None => None end.
Proof.
  intros Hv Hg. unfold parse_args. rewrite map_opt_app, value_ok_l, groups_classified by auto. rewrite grouped_values, grouped_groups. cbn [fst snd]. rewrite app_nil_r. reflexivity.
Qed.
Lemma parse_ok h0 radial gs : value_like h0 -> value_like radial -> Forall group_ok gs -> Forall (convertible py_int py_float) gs ->
  exists a, parse (command_line h0 radial gs) = Some (h0, radial, a) /\ arguments_of py_int py_float gs a.
Proof.
  intros H1 H2 Hg Hc. destruct (consume_groups gs Hg Hc defaults) as (ns & E & H). exists (main_args ns). split.
  - change (command_line h0 radial gs) with ([h0; radial] ++ flat_map (fun g => dash (fst g) :: snd g) gs)%list. rewrite parse_split by auto. rewrite E. reflexivity.
  - assert (HL : forall o def, In o opts_ints -> dget (@defaults F) o = Some (VInts def) -> is_list py_int gs o def (get_ints ns o)).
    { intros o def Ho Hd. unfold is_list, get_ints. specialize (H o). destruct (given gs o) as [vs|].
      - destruct H as (x & -> & W). destruct (disjoint o) as (D & _). specialize (D Ho). rewrite !in_app_iff in D. destruct x; cbn [written] in W; tauto.
      - rewrite H, Hd. reflexivity. }
    assert (HF : forall o def, In o opts_floats -> dget (@defaults F) o = Some (VFloats def) -> is_list py_float gs o def (get_floats ns o)).
    { intros o def Ho Hd. unfold is_list, get_floats. specialize (H o). destruct (given gs o) as [vs|].
      - destruct H as (x & -> & W). destruct (disjoint o) as (_ & D & _). specialize (D Ho). rewrite !in_app_iff in D. destruct x; cbn [written] in W; tauto.
      - rewrite H, Hd. reflexivity. }
    assert (HZ : forall o def, In o opts_int -> dget (@defaults F) o = Some (VInt def) -> is_one py_int gs o def (get_int ns o)).
    { intros o def Ho Hd. unfold is_one, get_int. specialize (H o). destruct (given gs o) as [vs|].
      - destruct H as (x & -> & W). destruct (disjoint o) as (_ & _ & D & _). specialize (D Ho). rewrite !in_app_iff in D. destruct x; cbn [written] in W; tauto.
      - rewrite H, Hd. reflexivity. }
    assert (HR : forall o def, In o opts_float -> dget (@defaults F) o = Some (VFloat def) -> is_one py_float gs o def (get_float ns o)).
    { intros o def Ho Hd. unfold is_one, get_float. specialize (H o). destruct (given gs o) as [vs|].
      - destruct H as (x & -> & W). destruct (disjoint o) as (_ & _ & _ & D). specialize (D Ho). rewrite !in_app_iff in D. destruct x; cbn [written] in W; tauto.
      - rewrite H, Hd. reflexivity. }
    clear H. unfold arguments_of. cbv zeta.
    assert (II : forall (o : string) l, existsb (String.eqb o) l = true -> In o l).
    { intros o l Ho. apply existsb_exists in Ho as (x & Hx & Ex). apply String.eqb_eq in Ex. congruence. }
    repeat split; (apply HL || apply HF || apply HZ || apply HR); try (apply II; reflexivity); reflexivity.
Qed.
Lemma parse_bad h0 radial gs : value_like h0 -> value_like radial -> Forall group_ok gs -> ~ Forall (convertible py_int py_float) gs -> parse (command_line h0 radial gs) = None.
Proof.
  intros H1 H2 Hg Hc. change (command_line h0 radial gs) with ([h0; radial] ++ flat_map (fun g => dash (fst g) :: snd g) gs)%list. rewrite parse_split by auto. rewrite consume_bad by auto. reflexivity.
Qed.
Lemma parse_files vs gs : Forall value_like vs -> Forall group_ok gs -> length vs <> 2%nat -> parse (vs ++ flat_map (fun g => dash (fst g) :: snd g) gs) = None.
Proof.
  intros Hv Hg Hn. rewrite parse_split by auto. destruct (conv_dec_all gs Hg) as [Hc|Hc].
  - destruct (consume_groups gs Hg Hc defaults) as (ns & E & _). rewrite E, app_nil_r. destruct vs as [|a [|b [|]]]; try reflexivity. elim Hn. reflexivity.
  - rewrite consume_bad by auto. reflexivity.
Qed.
(* options without a value *)
Lemma consume_unknown ns g l : In (Unknown, g) l -> consume_all ns l = None.
Proof.
  revert ns. induction l as [|x l IH]; intros ns [].
  - subst x. reflexivity.
  - cbn [M_CommandLine.consume_all]. destruct (consume ns x) as [[ns' r]|]; auto. rewrite IH; auto.
Qed.
Lemma grouped_unknown l : In Unknown l -> exists g, In (Unknown, g) (snd (grouped l)).
Proof.
  induction l as [|i l IH]; intros []; subst; cbn.
  - eexists. left. reflexivity.
  - destruct (IH H) as (g & Hg). destruct i; cbn; eauto.
Qed.
Lemma classify_none l s : In s l -> @classify F s = None -> map_opt (@classify F) l = None.
Proof. induction l as [|x l IH]; intros Hi E; [destruct Hi|]. destruct Hi as [<-|Hi]; cbn. - rewrite E. auto. - rewrite IH by auto. destruct (@classify F x); auto. Qed.
Lemma map_opt_In l items s i : map_opt (@classify F) l = Some items -> In s l -> @classify F s = Some i -> In i items.
Proof.
  revert items. induction l as [|x l IH]; intros items E Hi Ei; [destruct Hi|]. destruct Hi as [<-|Hi]; cbn in E; destruct (@classify F x) eqn:Ex; try discriminate; destruct (map_opt _ l) eqn:El; try discriminate; injection E as <-.
  - left. congruence.
  - right. eauto.
Qed.
Lemma parse_unknown argv s : In s argv -> @classify F s = Some Unknown -> parse argv = None.
Proof.
  intros Hs E. unfold parse_args. destruct (map_opt classify argv) as [items|] eqn:Em; auto. pose proof (map_opt_In _ _ _ _ Em Hs E) as Hi.
  apply grouped_unknown in Hi as (g & Hg). destruct (grouped items) as [vs gs]. cbn [snd] in Hg. rewrite (consume_unknown _ g) by auto. reflexivity.
Qed.
Lemma before_split s : before_eq s = match split_eq s with Some (o, _) => o | None => s end.
Proof. induction s as [|c s IH]; auto. cbn. destruct (Ascii.eqb c "="); auto. rewrite IH. destruct (split_eq s) as [[a b]|]; reflexivity. Qed.
Lemma with_prefix_none s : (forall o t, In o all_opts -> o <> s ++ t) -> with_prefix (F := F) s = [].
Proof.
  intros H. unfold with_prefix. destruct (filter _ _) as [|o l] eqn:E; auto. assert (Ho : In o (filter (String.prefix s) (@option_strings F))) by (rewrite E; left; auto).
  apply filter_In in Ho as [Ho Hp]. apply prefix_app in Hp as (t & ->). elim (H (s ++ t) t); auto.
  clear -Ho. cbn in Ho. unfold all_opts. cbn. tauto.
Qed.
Lemma unknown_ok s : unknown_option s -> @classify F s = Some Unknown.
Proof.
  intros ((t & -> & Ht) & Hv & Hsp & Ho & Hh). set (s := "-" ++ t) in *. unfold classify.
  assert (NN : forall x, In x (@option_strings F) -> before_eq s <> x).
  { intros x Hx E. apply (Ho x ""); [clear -Hx; cbn in Hx; unfold all_opts; cbn; tauto|]. rewrite E. clear. induction x; cbn; congruence. }
  assert (Q1 : eqb s "--" = false) by (destruct (eqb_spec s "--") as [E|]; auto; elim (Ho "--help" "help"); [cbn; auto|rewrite E; reflexivity]).
  assert (Q2 : String.prefix "-" s = true) by (unfold s; change ("-" ++ t) with (String "-" t); rewrite prefix_cons, prefix_nil; reflexivity).
  assert (Q3 : existsb (eqb s) (@option_strings F) = false).
  { apply not_true_iff_false. intros C. apply existsb_exists in C as (x & Hx & E). destruct (eqb_spec s x) as [->|]; [|discriminate]. apply (NN x Hx).
    clear -Hx. cbn in Hx. repeat (destruct Hx as [<-|Hx]; [reflexivity|]). destruct Hx. }
  assert (Q4 : eqb s "-" = false) by (destruct (eqb_spec s "-") as [E|]; auto; unfold s in E; injection E; intros ->; contradiction).
  rewrite Q1, Q2, Q3, Q4. cbn [negb].
  assert (Q5 : match split_eq s with Some (o, v) => if existsb (eqb o) (@option_strings F) then Some (Option o (Some v)) else None | None => None end = None).
  { pose proof (before_split s) as B. destruct (split_eq s) as [[o v]|]; auto. destruct (existsb (eqb o) option_strings) eqn:C; auto.
    apply existsb_exists in C as (x & Hx & E). destruct (eqb_spec o x) as [->|]; [|discriminate]. elim (NN x Hx B). }
  rewrite Q5.
  assert (Q6 : matching (F := F) s = []).
  { unfold matching. pose proof (with_prefix_none (before_eq s) Ho) as W. rewrite before_split in W. destruct (String.prefix "--" s).
    - destruct (split_eq s) as [[o v]|]; rewrite W; reflexivity.
    - destruct (String.prefix "-h" s) eqn:P; auto. apply prefix_app in P as (u & P). elim (Hh u P). }
  rewrite Q6. assert (Q7 : negative_number s = false).
  { apply not_true_iff_false. intros C. apply Hv. right. unfold s in C |- *. clear -C Ht. change (negative_number ("-" ++ t)) with (true && ((negb (eqb t "") && all_digits t) || digits_dot_digits t)) in C.
    cbn [andb] in C. apply orb_true_iff in C as [C|C].
    - left. exists t. apply andb_true_iff in C as [_ C]. split; [reflexivity|]. split; [assumption|]. apply digits_ok, C.
    - right. apply dot_digits in C as (a & b & -> & Ha & Hb & Hd). exists a, b. split; [reflexivity|]. rewrite !digits_ok. auto. }
  assert (Q8 : has_space s = false). { clear -Hsp. induction s as [|c s IH]; auto. cbn in *. destruct (Ascii.eqb_spec c " "%char) as [->|]; [tauto|]. apply IH. tauto. }
  rewrite Q7, Q8. reflexivity.
Qed.
Lemma parse_unknown_option argv s : In s argv -> unknown_option s -> parse argv = None.
Proof. intros Hs Hu. apply (parse_unknown argv s Hs), unknown_ok, Hu. Qed.
Lemma parse_help argv s : In s argv -> s = "-h" \/ s = "--help" -> parse argv = None.
Proof.
  intros Hs Hh. assert (E : @classify F s = Some (Option s None)) by (destruct Hh as [-> | ->]; reflexivity).
  unfold parse_args. destruct (map_opt classify argv) as [items|] eqn:Em; auto. pose proof (map_opt_In _ _ _ _ Em Hs E) as Hi.
  assert (G : exists g, In (Option s None, g) (snd (grouped items))).
  { clear -Hi. induction items as [|i l IH]; [destruct Hi|]. destruct Hi as [->|Hi]; cbn; [eexists; left; reflexivity|]. destruct (IH Hi) as (g & Hg). destruct i; cbn; eauto. }
  destruct G as (g & Hg). destruct (grouped items) as [vs gs]. cbn [snd] in Hg.
  assert (N : forall ns, consume_all ns gs = None); [|rewrite N; reflexivity].
  clear -Hg Hh. induction gs as [|x l IH]; intros ns; [destruct Hg|]. cbn [M_CommandLine.consume_all]. destruct Hg as [->|Hg].
  - replace (consume ns (Option s None, g)) with (@None (@namespace F * list string)); auto. destruct Hh as [-> | ->]; reflexivity.
  - destruct (consume ns x) as [[ns' r]|]; auto. rewrite IH; auto.
Qed.
End O.
Section Prog.
Context {F : ofield}.
Variable py_int : string -> option Z.
Variable py_float : string -> option F.
Lemma program_ok R mainh pickles tables h0 radial gs : value_like h0 -> value_like radial -> Forall group_ok gs -> Forall (convertible py_int py_float) gs ->
  exists a, arguments_of py_int py_float gs a /\
    (accepted a -> get_spectra py_int py_float R mainh pickles tables (command_line h0 radial gs) = Some (mainh (pickles h0) a (tables radial))) /\
    (~ accepted a -> get_spectra py_int py_float R mainh pickles tables (command_line h0 radial gs) = Some ([], repeat (Err AssertionError) R)).
Proof.
  intros H1 H2 H3 H4. destruct (parse_ok py_int py_float h0 radial gs H1 H2 H3 H4) as (a & E & Ha). exists a. split; [exact Ha|]. unfold get_spectra. rewrite E.
  split; intros Hacc.
  - apply checks_exact in Hacc. rewrite Hacc. reflexivity.
  - destruct (sanity_checks a) as [[]|e] eqn:Ec; [elim Hacc; apply checks_exact; auto|]. pose proof (checks_err a e Ec) as ->. reflexivity.
Qed.
Lemma program_CF_ok R mainCF jsons tables h0 radial gs : value_like h0 -> value_like radial -> Forall group_ok gs -> Forall (convertible py_int py_float) gs ->
  exists a, arguments_of py_int py_float gs a /\
    (accepted_CF a -> get_spectra_using_CF py_int py_float R mainCF jsons tables (command_line h0 radial gs) = Some (mainCF (jsons h0) a (tables radial))) /\
    (~ accepted_CF a -> exists e, get_spectra_using_CF py_int py_float R mainCF jsons tables (command_line h0 radial gs) = Some ([], repeat (Err e) R)).
Proof.
  intros H1 H2 H3 H4. destruct (parse_ok py_int py_float h0 radial gs H1 H2 H3 H4) as (a & E & Ha). exists a. split; [exact Ha|]. unfold get_spectra_using_CF. rewrite E.
  split; intros Hacc.
  - apply checks_CF_exact in Hacc. rewrite Hacc. reflexivity.
  - destruct (sanity_checks_CF a) as [[]|e] eqn:Ec; [elim Hacc; apply checks_CF_exact; auto|]. exists e. reflexivity.
Qed.
Lemma ordered_last ls x l : dget (ordered ls x) l = match find (fun ln => Z.eqb (fst ln) l) (rev (combine ls x)) with Some ln => Some (snd ln) | None => None end.
Proof.
  unfold ordered. induction (combine ls x) as [|kv m IH] using rev_ind; [reflexivity|]. rewrite fold_left_app, rev_app_distr. cbn [fold_left rev app find].
  rewrite dget_dset. cbn [eqb EqB_Z]. rewrite (Z.eqb_sym l). destruct (fst kv =? l)%Z; auto.
Qed.
(* the parameters of the Hamiltonian *)
Lemma setup_params hamiltonian (a : @args F) su : main_setup hamiltonian a = Ok su ->
  exists hp, hamiltonian (nbaths_of (ordered (a_ls a) (a_nBaths a))) (nbaths_of (ordered (a_ls a) (a_nValBaths a))) hp = Ok (su_hOp su) /\ parameters_of a hp.
Proof.
  unfold main_setup. cbv zeta. destruct (excited_restrictions _ _ _ _ _ _) as [rs|]; [|discriminate]. cbn [bind]. unfold hField3.
  destruct (a_hField a) as [|hx [|hy [|hz [|]]]] eqn:Eh; try discriminate. cbn [bind]. destruct (hamiltonian _ _ _) as [h|] eqn:Ehm; [|discriminate]. cbn [bind].
  destruct (get_basis _ _ _ _ _ _) as [b|]; [|discriminate]. cbn [bind]. intros E. injection E as <-. eexists. split; [exact Ehm|].
  unfold parameters_of. cbn. rewrite Eh. repeat (split; [reflexivity|]). intros l. apply ordered_last.
Qed.
Lemma setup_field hamiltonian (a : @args F) su : main_setup hamiltonian a = Ok su -> length (a_hField a) = 3%nat.
Proof. intros E. apply setup_params in E as (hp & _ & H). destruct H as (_ & _ & _ & _ & _ & _ & _ & H & _). rewrite H. reflexivity. Qed.
End Prog.
