(* Specification of the spectrum summed over three perpendicular polarisations. *)
From Verif Require Import M_Prelude M_Scalar M_PSR M_State M_Basis M_Expect M_Operators S_Fock S_Basis S_Expect S_Operators S_Symmetry S_TimeReversal S_Dichroism.

Section I.
Context {F : ofield}.
Definition dot3 (a b : list F) : F := (nth 0 a 0 * nth 0 b 0 + nth 1 a 0 * nth 1 b 0 + nth 2 a 0 * nth 2 b 0)%F.
(* three perpendicular vectors of length one *)
Definition triad (e : list (list F)) : Prop :=
  length e = 3%nat /\ Forall (fun v => length v = 3%nat) e /\
  forall i j, (i < 3)%nat -> (j < 3)%nat -> dot3 (nth i e []) (nth j e []) = if Nat.eqb i j then 1%F else 0%F.
(* the sum of the k-th values for the first three transition operators *)
Definition sum3 (g : nat -> list (cx F)) (k : nat) : cx F := (nth k (g 0%nat) c0 + nth k (g 1%nat) c0 + nth k (g 2%nat) c0)%C.
End I.
