(* Specification of shifted levels: c is added to the energy of an electron for every unit of the charge w of its orbital. *)
From Verif Require Import M_Prelude M_Scalar M_PSR M_State M_Basis M_Operators S_Fock S_Basis S_Expect S_Operators S_Sector.
From Verif Require S_Dict.
Local Open Scope Z_scope.

Section S.
Context {F : ofield}.
(* op' = op + c Q with Q|t> = charge w t |t> *)
Definition levels_added (n : nat) (w : Z -> Z) (c : F) (op op' : op_t F) : Prop :=
  forall t s, length t = n -> length s = n ->
    opelem op' t s = (opelem op t s + if list_eq_dec Bool.bool_dec t s then creal (c * fofZ (charge w t))%F else c0)%C.
(* sum_i c w(i) c_i^+ c_i, with orbital numbers and with coordinates *)
Definition levels (n : nat) (w : Z -> Z) (c : F) : op_t F :=
  map (fun i => ([(Z.of_nat i, "c"%char); (Z.of_nat i, "a"%char)], creal (c * fofZ (w (Z.of_nat i)))%F)) (seq 0 n).
Definition site_levels (nb : nbaths_t) (w : spinorb -> Z) (c : F) : sop_t F :=
  flat_map (fun i => match i2c nb (Z.of_nat i) with Ok x => [(hop2 x x, creal (c * fofZ (w x))%F)] | Err _ => [] end) (seq 0 (n_orb nb)).
(* energies that are all shifted by d c *)
Definition moved_mesh (c : F) (d : Z) (l : list F) : list F := map (fun x => (x + c * fofZ d)%F) l.
(* two Hamiltonians that differ by the shift of the levels; neither has elements below the cut-off of the code *)
Definition shifted_hamiltonians (n : nat) (w : Z -> Z) (c : F) (op op' : op_t F) : Prop :=
  wf_op n op /\ wf_op n op' /\ assert_hermitian op = Ok tt /\ assert_hermitian op' = Ok tt /\ S_Dict.no_small n op /\ S_Dict.no_small n op' /\ conserves w op /\ levels_added n w c op op'.
(* the states, whose charges are a, with their energies before and after the shift *)
Definition shifted_states (n : nat) (w : Z -> Z) (c : F) (a : nat -> Z) (es es' : list F) (psis : list (psi_t F)) : Prop :=
  Forall (valid_psi n) psis /\ length psis = length es /\ length es' = length es /\
  forall i, (i < length es)%nat -> in_sector n w (a i) (amp (nth i psis [])) /\ nth i es' 0%F = (nth i es 0 + c * fofZ (a i))%F.
End S.
