(* Specification of operators as dictionaries: adjoint, value of a process, Hermiticity.
   A is the kind of orbital label (index or (l,s,m)). *)
From Verif Require Import M_Prelude M_Scalar M_PSR M_State S_Fock.
Local Open Scope Z_scope.

Definition dag_ladder {A} (l : A * ascii) : A * ascii := (fst l, if Ascii.eqb (snd l) "a"%char then "c"%char else "a"%char).
(* (l1 l2 ... lk)^dagger = lk^dagger ... l1^dagger *)
Definition dag {A} (p : list (A * ascii)) : list (A * ascii) := map dag_ladder (rev p).
Definition good_label {A} (l : A * ascii) : Prop := snd l = "a"%char \/ snd l = "c"%char.
Section O.
Context {F : ofield} {A : Type} {EA : EqB A}.
Definition good_labels (op : gop A F) : Prop := Forall (fun ph => Forall good_label (fst ph)) op.
(* coefficient of a process, 0 if absent *)
Definition val (op : gop A F) (p : list (A * ascii)) : cx F := match dget op p with Some v => v | None => c0 end.
(* coefficients of p and its adjoint are conjugate *)
Definition herm_op (op : gop A F) : Prop :=
  good_labels op /\ forall p h, dget op p = Some h -> dget op (dag p) = Some (cconj h).
End O.
