(* Specification of spectra whose operators have no final states: closed and empty shells. *)
From Verif Require Import M_Prelude M_Scalar M_PSR M_State M_Basis M_Expect M_Operators S_Fock S_Ops S_Basis S_Expect S_Operators.
Local Open Scope Z_scope.

Section S.
Context {F : ofield}.
(* no product of ladder operators of op leads anywhere from a product state of psi *)
Definition blocked (n : nat) (op : op_t F) (psi : psi_t F) : Prop :=
  forall c p, length c = n -> In (key c) (dkeys psi) -> In p (dkeys op) -> proc_act p c = None.
(* all orbitals of the shell l are occupied (b = true) or empty (b = false) in every product state of psi *)
Definition shell_all (nb : nbaths_t) (l : Z) (b : bool) (psi : psi_t F) : Prop :=
  forall c x, length c = n_orb nb -> In (key c) (dkeys psi) -> in_shell l x -> nth (Z.to_nat (coord_index nb x)) c (negb b) = b.
(* a file with nT columns of zeros and their sum *)
Definition zero_file (mesh : list F) (nT : nat) : list (list F) := mesh :: repeat 0%F (length mesh) :: repeat (repeat 0%F (length mesh)) nT.
End S.
