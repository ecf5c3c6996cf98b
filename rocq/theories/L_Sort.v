(* Python's sets and sorted() on bytes objects. *)
From Coq Require Import Permutation Sorted.
From Verif Require Import M_Prelude M_Scalar M_PSR M_State M_Hamiltonian L_PSR L_Dict L_Fock.

Lemma bytes_ltb_irrefl x : bytes_ltb x x = false.
Proof. induction x as [|a x IH]; simpl; auto. rewrite N.ltb_irrefl. auto. Qed.
Lemma bytes_ltb_trans x : forall y z, bytes_ltb x y = true -> bytes_ltb y z = true -> bytes_ltb x z = true.
Proof.
  induction x as [|a x IH]; intros [|b y] [|c z]; simpl; auto; try discriminate.
  destruct (N.ltb_spec a b), (N.ltb_spec b a), (N.ltb_spec b c), (N.ltb_spec c b), (N.ltb_spec a c), (N.ltb_spec c a);
    intros; try discriminate; try lia; auto. eapply IH; eauto.
Qed.
Lemma bytes_ltb_total x : forall y, bytes_ltb x y = false -> bytes_ltb y x = false -> x = y.
Proof.
  induction x as [|a x IH]; intros [|b y]; simpl; auto; try discriminate.
  destruct (N.ltb_spec a b), (N.ltb_spec b a); intros; try discriminate; try lia.
  f_equal; [lia|auto].
Qed.
Definition blt x y := bytes_ltb x y = true.

Lemma insert_sorted_perm x l : Permutation (insert_sorted x l) (x :: l).
Proof.
  induction l as [|y l IH]; simpl; auto. destruct (bytes_ltb y x); auto.
  rewrite IH. apply perm_swap.
Qed.
Lemma py_sorted_perm l : Permutation (py_sorted l) l.
Proof. induction l as [|x l IH]; simpl; auto. rewrite insert_sorted_perm. auto. Qed.
Lemma insert_sorted_sorted x l : ~ In x l -> StronglySorted blt l -> StronglySorted blt (insert_sorted x l).
Proof.
  induction l as [|y l IH]; intros Hx Hs; simpl; [repeat constructor|].
  inversion Hs as [|? ? Hs' Hf]; subst.
  destruct (bytes_ltb y x) eqn:E.
  - constructor; [apply IH; auto; intros Hi; apply Hx; right; auto|].
    eapply Permutation_Forall; [symmetry; apply insert_sorted_perm|]. constructor; auto.
  - constructor; auto.
    assert (Hyx : blt x y).
    { unfold blt. destruct (bytes_ltb x y) eqn:E2; auto. exfalso. apply Hx. left. symmetry. apply bytes_ltb_total; auto. }
    constructor; auto. eapply Forall_impl; [|exact Hf]. intros z Hz. eapply bytes_ltb_trans; eauto.
Qed.
Lemma py_sorted_sorted l : NoDup l -> StronglySorted blt (py_sorted l).
Proof.
  induction l as [|x l IH]; intros Hn; simpl; [constructor|]. apply NoDup_cons_iff in Hn as [Hx Hn].
  apply insert_sorted_sorted; auto. intros Hi. apply Hx. eapply Permutation_in; [apply py_sorted_perm|auto].
Qed.
Lemma sorted_unique l : forall l', StronglySorted blt l -> StronglySorted blt l' ->
  (forall x, In x l <-> In x l') -> l = l'.
Proof.
  induction l as [|a l IH]; intros [|b l'] Hs Hs' Hi; auto.
  - exfalso. apply (proj2 (Hi b)). left; auto.
  - exfalso. apply (proj1 (Hi a)). left; auto.
  - inversion Hs as [|? ? Hs1 Hf1]; inversion Hs' as [|? ? Hs2 Hf2]; subst.
    rewrite Forall_forall in Hf1, Hf2.
    assert (Hab : a = b).
    { destruct (proj1 (Hi a) (or_introl eq_refl)) as [|H1]; auto.
      destruct (proj2 (Hi b) (or_introl eq_refl)) as [|H2]; auto.
      exfalso. specialize (Hf1 b H2). specialize (Hf2 a H1).
      pose proof (bytes_ltb_trans _ _ _ Hf1 Hf2) as H. rewrite bytes_ltb_irrefl in H. discriminate. }
    subst b. f_equal. apply IH; auto. intros x. split; intros Hx.
    + destruct (proj1 (Hi x) (or_intror Hx)) as [->|]; auto. specialize (Hf1 x Hx). unfold blt in Hf1. rewrite bytes_ltb_irrefl in Hf1. discriminate.
    + destruct (proj2 (Hi x) (or_intror Hx)) as [->|]; auto. specialize (Hf2 x Hx). unfold blt in Hf2. rewrite bytes_ltb_irrefl in Hf2. discriminate.
Qed.
Lemma py_sorted_In l x : In x (py_sorted l) <-> In x l.
Proof. split; apply Permutation_in; [|symmetry]; apply py_sorted_perm. Qed.
Lemma py_sorted_NoDup l : NoDup l -> NoDup (py_sorted l).
Proof. apply Permutation_NoDup. symmetry. apply py_sorted_perm. Qed.
Lemma py_sorted_ext l l' : NoDup l -> NoDup l' -> (forall x, In x l <-> In x l') -> py_sorted l = py_sorted l'.
Proof.
  intros H H' Hi. apply sorted_unique; try (apply py_sorted_sorted; auto). intros x. rewrite !py_sorted_In. auto.
Qed.

(* ---- sets ---- *)
Lemma inb_false {A} `{EqB A} (x : A) l : inb x l = false <-> ~ In x l.
Proof. rewrite <- inb_In. destruct (inb x l); split; congruence. Qed.
Section Sets.
Context {A : Type} `{EqB A}.
Lemma pyset_In (l : list A) x : In x (pyset l) <-> In x l.
Proof.
  induction l as [|a l IH]; simpl; [tauto|]. destruct (inb a l) eqn:E.
  - rewrite IH. apply inb_In in E. split; auto. intros [->|]; auto.
  - simpl. rewrite IH. tauto.
Qed.
Lemma pyset_NoDup (l : list A) : NoDup (pyset l).
Proof.
  induction l as [|a l IH]; simpl; [constructor|]. destruct (inb a l) eqn:E; auto.
  constructor; auto. rewrite pyset_In. apply inb_false. auto.
Qed.
Lemma set_inter_In (l m : list A) x : In x (set_inter l m) <-> In x l /\ In x m.
Proof. unfold set_inter. rewrite filter_In, pyset_In, inb_In. tauto. Qed.
Lemma set_inter_NoDup (l m : list A) : NoDup (set_inter l m).
Proof. apply NoDup_filter, pyset_NoDup. Qed.
Lemma set_diff_In (l m : list A) x : In x (set_diff l m) <-> In x l /\ ~ In x m.
Proof. unfold set_diff. rewrite filter_In, pyset_In, negb_true_iff, inb_false. tauto. Qed.
Lemma set_diff_NoDup (l m : list A) : NoDup (set_diff l m).
Proof. apply NoDup_filter, pyset_NoDup. Qed.
End Sets.
Lemma set_update_In t : forall s x, In x (set_update s t) <-> In x s \/ In x t.
Proof.
  unfold set_update. induction t as [|a t IH]; intros s x; simpl; [tauto|]. rewrite IH.
  destruct (inb a s) eqn:E.
  - apply inb_In in E. split; [tauto|]. intros [Hx|[->|Hx]]; auto.
  - rewrite in_app_iff. simpl. tauto.
Qed.
Lemma set_update_NoDup t : forall s, NoDup s -> NoDup (set_update s t).
Proof.
  unfold set_update. induction t as [|a t IH]; intros s Hs; simpl; auto. apply IH.
  destruct (inb a s) eqn:E; auto. apply NoDup_snoc; auto. apply inb_false; auto.
Qed.
