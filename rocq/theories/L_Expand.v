(* expand_basis, serial mode; the abstract expansion both modes implement. *)
From Coq Require Import Permutation Sorted.
From Verif Require Import M_Prelude M_Scalar M_PSR M_Ladder M_State M_Mpi M_Hamiltonian S_Fock S_Ops S_Ham.
From Verif Require Import L_Scalar L_Sum L_Dict L_PSR L_Fock L_State L_ApplyOp L_Ops L_FockP L_Ham L_Sort.
Local Open Scope Z_scope.

Section LExp.
Context {F : ofield}.
Variables (n : nat) (op : op_t F) (rs : option restrictions_t).
Hypothesis (Hw : wf_op n op) (Hr : wf_restr rs).

Definition linkedk (b x : pybytes) : Prop := exists c t, length c = n /\ b = key c /\ x = key t /\ linked n op rs c t.

(* keys of an exact column *)
Lemma exact_keys c col x : length c = n -> col_exact n op rs c col -> In x (dkeys col) <-> linkedk (key c) x.
Proof.
  intros Hc [[Hnd Hv] Hx]. split.
  - intros Hi. destruct (Hv x Hi) as (t & Ht & ->). exists c, t. repeat split; auto; apply Hx; auto.
  - intros (c' & t & Hc' & Ek & -> & HL). apply key_inj in Ek; [|congruence]. subst c'.
    apply Hx; auto. apply HL.
Qed.

(* one round of the expansion: the new states *)
Definition round (basis todo bn : list pybytes) : Prop :=
  NoDup bn /\ forall x, In x bn <-> ~ In x basis /\ exists b, In b todo /\ linkedk b x.
Inductive Exp : list pybytes -> nat -> list pybytes -> Prop :=
| Exp_done basis i : (length basis <= i)%nat -> Exp basis i basis
| Exp_step basis i bn final : (i < length basis)%nat -> round basis (skipn i basis) bn ->
    Exp (basis ++ py_sorted bn) (length basis) final -> Exp basis i final.

Lemma Exp_fun basis i f1 : Exp basis i f1 -> forall f2, Exp basis i f2 -> f1 = f2.
Proof.
  induction 1 as [basis i Hi|basis i bn final Hi [Hn1 Hb1] _ IH]; intros f2 H2; inversion H2; subst; auto; try lia.
  match goal with H : round _ _ _ |- _ => destruct H as [Hn2 Hb2] end.
  apply IH. replace (py_sorted bn) with (py_sorted bn0); auto.
  apply py_sorted_ext; auto. intros x. rewrite Hb1, Hb2. tauto.
Qed.

(* ---- what the expansion computes ---- *)
Lemma Exp_spec basis0 : NoDup basis0 -> (forall b, In b basis0 -> valid_key n b) ->
  forall basis i final, Exp basis i final ->
  (exists new, basis = basis0 ++ new) -> NoDup basis ->
  (forall b, In b basis -> exists c, b = key c /\ Reach n op rs basis0 c) ->
  (forall b x, In b (firstn i basis) -> linkedk b x -> In x basis) -> (i <= length basis)%nat ->
  (exists new, final = basis0 ++ new) /\ NoDup final /\
  (forall k, In k final <-> exists c, k = key c /\ Reach n op rs basis0 c).
Proof.
  intros Hn0 Hv0 basis i final HE.
  assert (Hlen : forall c, Reach n op rs basis0 c -> length c = n).
  { intros c Hc. destruct Hc as [c Hc _|s t _ [Ht _]]; auto. }
  induction HE as [basis i Hi|basis i bn final Hi [Hnb Hb] HE IH]; intros Hpre Hnd Hre Hcl Hile.
  - split; [auto|]. split; [auto|]. intros k. split; [auto|].
    intros (c & -> & Hc). rewrite firstn_all2 in Hcl by lia.
    induction Hc as [c Hc Hi0|s t Hs IHs HL].
    + destruct Hpre as [new ->]. apply in_or_app; auto.
    + apply (Hcl (key s)); auto. exists s, t. repeat split; auto; apply HL.
  - apply IH; clear IH.
    + destruct Hpre as [new ->]. exists (new ++ py_sorted bn). rewrite app_assoc. auto.
    + apply NoDup_app_intro; auto.
      * apply py_sorted_NoDup; auto.
      * intros x H1 H2. apply py_sorted_In, Hb in H2. tauto.
    + intros b Hin. apply in_app_or in Hin as [Hin|Hin]; auto.
      apply py_sorted_In, Hb in Hin as (_ & b' & Hb' & c & t & Hc & -> & -> & HL).
      exists t. split; auto. assert (Hin : In (key c) basis). { rewrite <- (firstn_skipn i basis). apply in_or_app; auto. }
      destruct (Hre _ Hin) as (c' & E & Hc'). apply key_inj in E; [|rewrite (Hlen c') by auto; auto]. subst c'.
      eapply ReachS; eauto.
    + intros b x Hin Hx. rewrite firstn_app, firstn_all2, Nat.sub_diag, app_nil_r in Hin by lia.
      apply in_or_app. destruct (in_dec_key x basis) as [|Hnx]; auto. right.
      apply py_sorted_In, Hb. split; auto. rewrite <- (firstn_skipn i basis) in Hin. apply in_app_or in Hin as [Hin|Hin].
      * exfalso. apply Hnx. eapply Hcl; eauto.
      * exists b. auto.
    + rewrite app_length. lia.
Qed.
Lemma Exp_spec0 basis0 final : NoDup basis0 -> (forall b, In b basis0 -> valid_key n b) -> Exp basis0 0 final ->
  (exists new, final = basis0 ++ new) /\ NoDup final /\
  (forall k, In k final <-> exists c, k = key c /\ Reach n op rs basis0 c).
Proof.
  intros Hn0 Hv0 HE. eapply Exp_spec; eauto.
  - exists []. rewrite app_nil_r. auto.
  - intros b Hb. destruct (Hv0 b Hb) as (c & Hc & ->). exists c. split; auto. apply Reach0; auto.
  - intros b x []. 
  - lia.
Qed.

(* sizes *)
Lemma allcfg_length m : length (allcfg m) = (2 ^ m)%nat.
Proof. unfold config in *. induction m as [|m IH]; simpl; auto. rewrite app_length, !map_length. unfold config in *. rewrite IH. lia. Qed.
Lemma basis_bound basis : NoDup basis -> (forall b, In b basis -> valid_key n b) -> (length basis <= 2 ^ n)%nat.
Proof.
  intros Hn Hv. rewrite <- allcfg_length, <- (map_length key). apply NoDup_incl_length; auto.
  intros b Hb. destruct (Hv b Hb) as (c & Hc & ->). apply in_map, allcfg_In. auto.
Qed.
Lemma linkedk_valid b x : linkedk b x -> valid_key n x.
Proof. intros (c & t & _ & _ & -> & (Ht & _)). exists t. auto. Qed.
Lemma round_valid basis todo bn : (forall b, In b basis -> valid_key n b) -> NoDup basis -> round basis todo bn ->
  (forall b, In b (basis ++ py_sorted bn) -> valid_key n b) /\ NoDup (basis ++ py_sorted bn).
Proof.
  intros Hv Hnd [Hn Hb]. split.
  - intros b Hi. apply in_app_or in Hi as [Hi|Hi]; auto. apply py_sorted_In, Hb in Hi as (_ & b' & _ & HL).
    eapply linkedk_valid; eauto.
  - apply NoDup_app_intro; auto.
    + apply py_sorted_NoDup; auto.
    + intros x H1 H2. apply py_sorted_In, Hb in H2. tauto.
Qed.

(* ---- serial ---- *)
Definition hext (h h' : hdict_t F) : Prop := forall k col, dget h k = Some col -> dget h' k = Some col.

Lemma serial_pass_ok basis todo : forall h acc, hdict_exact n op rs h -> NoDup acc ->
  (forall b, In b todo -> valid_key n b) ->
  exists h' bn, serial_pass (Z.of_nat n) op rs basis todo h acc = (h', Ok bn) /\
    hdict_exact n op rs h' /\ hext h h' /\ (forall k, In k (dkeys h') <-> In k (dkeys h) \/ In k todo) /\
    (NoDup (dkeys h) -> NoDup (dkeys h')) /\
    NoDup bn /\ (forall x, In x bn <-> In x acc \/ (~ In x basis /\ exists b, In b todo /\ linkedk b x)).
Proof.
  induction todo as [|b todo IH]; intros h acc Hh Hacc Hv; cbn [serial_pass].
  - exists h, acc. split; [auto|]. split; [auto|]. split; [intros k col; auto|]. split; [simpl; tauto|]. split; [auto|]. split; [auto|].
    intros x. simpl. split; [tauto|]. intros [|(_ & b & [] & _)]; auto.
  - assert (Hset : forall c col x, length c = n -> b = key c -> col_exact n op rs c col ->
       In x (set_update acc (set_diff (dkeys col) basis)) <-> In x acc \/ (~ In x basis /\ linkedk b x)).
    { intros c col x Hc -> Hx. rewrite set_update_In, set_diff_In, (exact_keys c col x) by auto. tauto. }
    destruct (dget h b) as [col|] eqn:Eb.
    + destruct (Hh b col Eb) as (c & Hc & Ekb & Hx).
      destruct (IH h (set_update acc (set_diff (dkeys col) basis))) as (h' & bn & E & Hh' & He & Hk & Hnd & Hn & Hb); auto.
      { apply set_update_NoDup; auto. } { intros; apply Hv; right; auto. }
      exists h', bn. split; [exact E|]. split; [auto|]. split; [auto|]. split; [|split; [auto|split; [auto|]]].
      * intros k. rewrite Hk. simpl. split; [tauto|]. intros [|[<-|]]; auto. left. apply dget_Some_key. eauto.
      * intros x. rewrite Hb, (Hset c col x) by auto. split.
        -- intros [[|[H1 H2]]|(H1 & b' & H2 & H3)]; auto; right; split; auto; [exists b|exists b']; split; auto; [left|right]; auto.
        -- intros [|(H1 & b' & [<-|H2] & H3)]; auto. right. split; auto. exists b'. auto.
    + destruct (Hv b (or_introl eq_refl)) as (c & Hc & ->).
      destruct (r_column_exact n op rs c Hw Hr Hc) as (col & Ec & Hx). rewrite Ec.
      destruct (IH (dset h (key c) col) (set_update acc (set_diff (dkeys col) basis))) as (h' & bn & E & Hh' & He & Hk & Hnd & Hn & Hb).
      { intros k v. rewrite dget_dset. destruct (eqb_spec k (key c)) as [->|].
        - intros [= <-]. exists c. auto.
        - apply Hh. }
      { apply set_update_NoDup; auto. } { intros; apply Hv; right; auto. }
      exists h', bn. split; [exact E|]. split; [auto|]. split; [|split; [|split; [|split; [auto|]]]].
      * intros k v Ek. apply He. rewrite dget_dset. destruct (eqb_spec k (key c)) as [->|]; auto. congruence.
      * intros k. rewrite Hk, in_dkeys_dset. simpl. intuition congruence.
      * intros H. apply Hnd. apply NoDup_dset; auto.
      * intros x. rewrite Hb, (Hset c col x) by auto. split.
        -- intros [[|[H1 H2]]|(H1 & b' & H2 & H3)]; auto; right; split; auto; [exists (key c)|exists b']; split; auto; [left|right]; auto.
        -- intros [|(H1 & b' & [<-|H2] & H3)]; auto. right. split; auto. exists b'. auto.
Qed.

Lemma expand_serial_ok fuel : forall basis i h, hdict_exact n op rs h -> NoDup basis ->
  (forall b, In b basis -> valid_key n b) -> (i <= length basis)%nat ->
  ((i < length basis)%nat -> (2 ^ n < fuel + length basis)%nat) ->
  exists h' final, expand_serial fuel (Z.of_nat n) op rs basis i h = (h', Ok final) /\ Exp basis i final /\
    hdict_exact n op rs h' /\ hext h h' /\ (NoDup (dkeys h) -> NoDup (dkeys h')) /\
    (forall k, In k (dkeys h') <-> In k (dkeys h) \/ In k (skipn i final)) /\
    exists new, final = basis ++ new.
Proof.
  induction fuel as [|fuel IH]; intros basis i h Hh Hn Hv Hi Hf; cbn [expand_serial];
    destruct (Nat.ltb_spec i (length basis)) as [Hlt|Hge].
  - pose proof (basis_bound basis Hn Hv). lia.
  - exists h, basis. split; [auto|]. split; [constructor; lia|]. split; [auto|]. split; [intros k v; auto|]. split; [auto|].
    split; [|exists []; rewrite app_nil_r; auto]. intros k. rewrite skipn_all2 by lia. simpl. tauto.
  - destruct (serial_pass_ok basis (skipn i basis) h []) as (h1 & bn & E & Hh1 & He1 & Hk1 & Hnd1 & Hnb & Hb); auto.
    { constructor. } { intros b Hb. apply Hv. rewrite <- (firstn_skipn i basis). apply in_or_app; auto. }
    rewrite E.
    assert (HR : round basis (skipn i basis) bn). { split; auto. intros x. rewrite Hb. simpl. tauto. }
    destruct (round_valid basis (skipn i basis) bn Hv Hn HR) as [Hv' Hn'].
    destruct (IH (basis ++ py_sorted bn) (length basis) h1) as (h' & final & E' & HE & Hh' & He' & Hnd' & Hk' & new & Hpre); auto.
    { rewrite app_length. lia. }
    { rewrite !app_length. specialize (Hf Hlt). lia. }
    exists h', final. split; [exact E'|]. split; [eapply Exp_step; eauto|]. split; [auto|].
    split; [intros k v Hkv; auto|]. split; [auto|]. split; [|exists (py_sorted bn ++ new); rewrite app_assoc; auto].
    intros k. rewrite Hk', Hk1.
    assert (Es : forall x, In x (skipn i final) <-> In x (skipn i basis) \/ In x (skipn (length basis) final)).
    { intros x. rewrite Hpre, <- app_assoc, !skipn_app, Nat.sub_diag, skipn_all2 with (n := length basis) by lia.
      replace (i - length basis)%nat with 0%nat by lia. simpl. rewrite in_app_iff. tauto. }
    rewrite Es. tauto.
  - exists h, basis. split; [auto|]. split; [constructor; lia|]. split; [auto|]. split; [intros k v; auto|]. split; [auto|].
    split; [|exists []; rewrite app_nil_r; auto]. intros k. rewrite skipn_all2 by lia. simpl. tauto.
Qed.
End LExp.
