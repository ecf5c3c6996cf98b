(* For the examples: argsort by insertion. *)
From Coq Require Import Permutation Sorted.
From Verif Require Import M_Prelude M_Scalar M_PSR M_State L_Scalar S_Main.

Section Sort.
Context {F : ofield}.
Variable l : list F.
Let k (i : nat) : F := nth i l 0%F.
Fixpoint ins (i : nat) (js : list nat) : list nat :=
  match js with
  | [] => [i]
  | j :: js' => if (k j <? k i)%F then j :: ins i js' else i :: js
  end.
Lemma ins_perm i js : Permutation (ins i js) (i :: js).
Proof. induction js as [|j js IH]; simpl; auto. destruct (k j <? k i)%F; auto. rewrite IH. apply perm_swap. Qed.
Lemma ins_sorted i js : ascending (map k js) -> ascending (map k (ins i js)).
Proof.
  induction js as [|j js IH]; simpl; intros H; [repeat constructor|]. inversion H as [|? ? Hs Hf]; subst. destruct (k j <? k i)%F eqn:E; simpl.
  - constructor; [now apply IH|]. apply Forall_forall. intros x Hx. apply in_map_iff in Hx as (m & <- & Hm). apply (Permutation_in _ (ins_perm i js)) in Hm.
    destruct Hm as [<-|Hm]; [now apply flt_le|]. rewrite Forall_forall in Hf. apply Hf. now apply in_map.
  - constructor; auto. constructor; auto. rewrite Forall_forall in *. intros x Hx. apply fle_trans with (k j); auto.
Qed.
Definition isort : list nat := fold_right ins [] (seq 0 (length l)).
Lemma isort_perm : Permutation isort (seq 0 (length l)).
Proof. unfold isort. induction (seq 0 (length l)) as [|i js IH]; simpl; auto. rewrite ins_perm. now constructor. Qed.
Lemma isort_sorted : ascending (map k isort).
Proof. unfold isort. induction (seq 0 (length l)) as [|i js IH]; simpl; [constructor|]. now apply ins_sorted. Qed.
End Sort.
Lemma isort_works {F : ofield} : argsort_works (@isort F).
Proof. intros l. split; [apply isort_perm|apply isort_sorted]. Qed.

(* an ascending list, decided *)
Fixpoint ascb {F : ofield} (l : list F) : bool :=
  match l with [] => true | x :: l' => forallb (fun y => negb (y <? x)%F) l' && ascb l' end.
Lemma ascb_ok {F : ofield} (l : list F) : ascb l = true -> ascending l.
Proof.
  induction l as [|x l IH]; simpl; intros H; [constructor|]. apply andb_prop in H as [H1 H2]. constructor; [apply IH; auto|].
  apply Forall_forall. intros y Hy. rewrite forallb_forall in H1. now apply H1, negb_true_iff in Hy.
Qed.
