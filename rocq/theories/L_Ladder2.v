(* The create/remove functions against the representation-independent specification. *)
From Verif Require Import M_Prelude M_PSR M_Ladder S_Occ S_Routes S_Ladder L_PSR L_PSR2 L_Ladder.
Local Open Scope Z_scope.

Lemma create_any_correct k n f i v : (i < n)%nat -> rep k n f v ->
  exists w amp, create_any (Z.of_nat n) (Z.of_nat i) v = Ok (w, amp) /\ create_answer k n f i w amp.
Proof.
  intros Hi H. unfold create_answer.
  destruct k, v; simpl in H; try tauto; cbn [create_any].
  - apply rep_str_iff in H; subst s. rewrite create_ustr_eq by auto. cbn [rmap].
    destruct (f i); cbn [fst snd]; do 2 eexists; split; eauto. split; auto. apply rep_str_iff; auto.
  - apply rep_tuple_iff in H; subst t. rewrite create_utuple_eq by auto. cbn [rmap].
    destruct (f i); cbn [fst snd]; do 2 eexists; split; eauto. split; auto. apply rep_tuple_iff; auto.
  - apply rep_int_iff in H; subst i0. rewrite create_uint_eq by auto. cbn [rmap].
    destruct (f i); cbn [fst snd]; do 2 eexists; split; eauto. split; auto. apply rep_int_iff; auto.
  - apply rep_bits_iff in H; subst b. rewrite create_ubitarray_eq by auto. cbn [rmap].
    destruct (f i); cbn [fst snd]; do 2 eexists; split; eauto. split; auto. apply rep_bits_iff; auto.
  - apply rep_bytes_iff in H; subst x. rewrite create_ubytes_eq by auto. cbn [rmap].
    destruct (f i); cbn [fst snd]; do 2 eexists; split; eauto. split; auto. apply rep_bytes_iff; auto.
Qed.

Lemma remove_any_correct k n f i v : (i < n)%nat -> rep k n f v ->
  exists w amp, remove_any (Z.of_nat n) (Z.of_nat i) v = Ok (w, amp) /\ remove_answer k n f i w amp.
Proof.
  intros Hi H. unfold remove_answer.
  destruct k, v; simpl in H; try tauto; cbn [remove_any].
  - apply rep_str_iff in H; subst s. rewrite remove_ustr_eq by auto. cbn [rmap].
    destruct (f i); cbn [fst snd]; do 2 eexists; split; eauto. split; auto. apply rep_str_iff; auto.
  - apply rep_tuple_iff in H; subst t. rewrite remove_utuple_eq by auto. cbn [rmap].
    destruct (f i); cbn [fst snd]; do 2 eexists; split; eauto. split; auto. apply rep_tuple_iff; auto.
  - apply rep_int_iff in H; subst i0. rewrite remove_uint_eq by auto. cbn [rmap].
    destruct (f i); cbn [fst snd]; do 2 eexists; split; eauto. split; auto. apply rep_int_iff; auto.
  - apply rep_bits_iff in H; subst b. rewrite remove_ubitarray_eq by auto. cbn [rmap].
    destruct (f i); cbn [fst snd]; do 2 eexists; split; eauto. split; auto. apply rep_bits_iff; auto.
  - apply rep_bytes_iff in H; subst x. rewrite remove_ubytes_eq by auto. cbn [rmap].
    destruct (f i); cbn [fst snd]; do 2 eexists; split; eauto. split; auto. apply rep_bytes_iff; auto.
Qed.

Lemma fermi_sign_nonzero f i : fermi_sign f i <> 0.
Proof. unfold fermi_sign. destruct (Nat.even _); lia. Qed.
Lemma fermi_sign_cases f i : fermi_sign f i = 1 \/ fermi_sign f i = -1.
Proof. unfold fermi_sign. destruct (Nat.even _); auto. Qed.

(* two implementations started on the same occupation agree *)
Lemma create_any_agree k k' n f i v v' : (i < n)%nat -> rep k n f v -> rep k' n f v' ->
  exists w w' amp,
    create_any (Z.of_nat n) (Z.of_nat i) v = Ok (w, amp) /\
    create_any (Z.of_nat n) (Z.of_nat i) v' = Ok (w', amp) /\
    (amp <> 0 -> exists g, rep k n g w /\ rep k' n g w').
Proof.
  intros Hi H H'.
  destruct (create_any_correct k n f i v Hi H) as (w & a & E & A).
  destruct (create_any_correct k' n f i v' Hi H') as (w' & a' & E' & A').
  unfold create_answer in *. destruct (f i).
  - subst a a'. exists w, w', 0. repeat split; auto. congruence.
  - destruct A as [-> R], A' as [-> R']. exists w, w', (fermi_sign f i). repeat split; auto. eauto.
Qed.
Lemma remove_any_agree k k' n f i v v' : (i < n)%nat -> rep k n f v -> rep k' n f v' ->
  exists w w' amp,
    remove_any (Z.of_nat n) (Z.of_nat i) v = Ok (w, amp) /\
    remove_any (Z.of_nat n) (Z.of_nat i) v' = Ok (w', amp) /\
    (amp <> 0 -> exists g, rep k n g w /\ rep k' n g w').
Proof.
  intros Hi H H'.
  destruct (remove_any_correct k n f i v Hi H) as (w & a & E & A).
  destruct (remove_any_correct k' n f i v' Hi H') as (w' & a' & E' & A').
  unfold remove_answer in *. destruct (f i).
  - destruct A as [-> R], A' as [-> R']. exists w, w', (fermi_sign f i). repeat split; auto. eauto.
  - subst a a'. exists w, w', 0. repeat split; auto. congruence.
Qed.

Lemma electrons_below_set f i v : electrons_below (occ_set f i v) i = electrons_below f i.
Proof.
  unfold electrons_below. f_equal. apply filter_ext_in'. intros k Hk. apply in_seq in Hk. unfold occ_set.
  destruct (Nat.eqb_spec k i); [lia|reflexivity].
Qed.
Lemma fermi_sign_set f i v : fermi_sign (occ_set f i v) i = fermi_sign f i.
Proof. unfold fermi_sign. rewrite electrons_below_set. reflexivity. Qed.
Lemma fermi_sign_sq f i : fermi_sign f i * fermi_sign f i = 1.
Proof. destruct (fermi_sign_cases f i) as [-> | ->]; reflexivity. Qed.

Lemma remove_after_create k n f i v w amp : (i < n)%nat -> rep k n f v ->
  create_any (Z.of_nat n) (Z.of_nat i) v = Ok (w, amp) -> amp <> 0 ->
  remove_any (Z.of_nat n) (Z.of_nat i) w = Ok (v, amp) /\ amp * amp = 1.
Proof.
  intros Hi H E Ha.
  destruct (create_any_correct k n f i v Hi H) as (w' & a' & E' & A).
  rewrite E in E'. injection E' as <- <-. unfold create_answer in A.
  destruct (f i) eqn:Ef; [congruence|]. destruct A as [-> R].
  destruct (remove_any_correct k n _ i w Hi R) as (u & a & Eu & A).
  unfold remove_answer in A. unfold occ_set at 1 in A. rewrite Nat.eqb_refl in A.
  destruct A as [-> R']. rewrite fermi_sign_set in Eu.
  split; [|apply fermi_sign_sq].
  assert (R'' : rep k n f u).
  { eapply rep_same; [|exact R']. intros k' _. unfold occ_set.
    destruct (Nat.eqb_spec k' i); subst; auto. }
  rewrite (rep_unique _ _ _ _ _ R'' H) in Eu. exact Eu.
Qed.
Lemma create_after_remove k n f i v w amp : (i < n)%nat -> rep k n f v ->
  remove_any (Z.of_nat n) (Z.of_nat i) v = Ok (w, amp) -> amp <> 0 ->
  create_any (Z.of_nat n) (Z.of_nat i) w = Ok (v, amp) /\ amp * amp = 1.
Proof.
  intros Hi H E Ha.
  destruct (remove_any_correct k n f i v Hi H) as (w' & a' & E' & A).
  rewrite E in E'. injection E' as <- <-. unfold remove_answer in A.
  destruct (f i) eqn:Ef; [|congruence]. destruct A as [-> R].
  destruct (create_any_correct k n _ i w Hi R) as (u & a & Eu & A).
  unfold create_answer in A. unfold occ_set at 1 in A. rewrite Nat.eqb_refl in A.
  destruct A as [-> R']. rewrite fermi_sign_set in Eu.
  split; [|apply fermi_sign_sq].
  assert (R'' : rep k n f u).
  { eapply rep_same; [|exact R']. intros k' _. unfold occ_set.
    destruct (Nat.eqb_spec k' i); subst; auto. }
  rewrite (rep_unique _ _ _ _ _ R'' H) in Eu. exact Eu.
Qed.

(* Orbital index beyond the system: str, bitarray, bytes raise IndexError, int raises ValueError. *)
Lemma py_index_high len i : Z.of_nat len <= i -> py_index len i = None.
Proof.
  intros H. unfold py_index.
  destruct (Z.ltb_spec i (Z.of_nat len)); [lia|]. rewrite andb_false_r.
  destruct (Z.ltb_spec i 0); [lia|]. rewrite andb_false_r. reflexivity.
Qed.
Definition is_err {A} (r : res A) : Prop := exists e, r = Err e.
Lemma ladder_out_of_range k n f i v : k <> KTuple -> rep k n f v -> Z.of_nat n <= i ->
  is_err (create_any (Z.of_nat n) i v) /\ is_err (remove_any (Z.of_nat n) i v).
Proof.
  intros Hk H Hi. unfold is_err.
  destruct k, v; simpl in H; try tauto; try congruence; cbn [create_any remove_any].
  - apply rep_str_iff in H. subst s. unfold create_ustr, remove_ustr, py_nth.
    rewrite to01_length, obits_length, py_index_high by auto. cbn. eauto.
  - unfold create_uint, remove_uint, py_shl1.
    destruct (Z.ltb_spec (Z.of_nat n - 1 - i) 0); [|lia]. cbn. eauto.
  - apply rep_bits_iff in H. subst b. unfold create_ubitarray, remove_ubitarray, py_nth.
    rewrite obits_length, py_index_high by auto. cbn. eauto.
  - apply rep_bytes_iff in H. subst x. unfold create_ubytes, remove_ubytes.
    assert (B : bytes2bitarray (tobytes (obits n f)) (Z.of_nat n) = obits n f).
    { rewrite <- (obits_length n f) at 2. apply bytes2bitarray_tobytes. }
    rewrite B. unfold create_ubitarray, remove_ubitarray, py_nth.
    rewrite obits_length, py_index_high by auto. cbn. eauto.
Qed.
