(* Specification of two choices of the states of the same levels. *)
From Verif Require Import M_Prelude M_Scalar M_PSR M_State S_Fock S_Symmetry S_TimeReversal.

Section S.
Context {F : ofield}.
(* the states are orthogonal and normalised *)
Definition orthonormal_states (n : nat) (psis : list (psi_t F)) : Prop :=
  forall i j, (i < length psis)%nat -> (j < length psis)%nat -> vdot n (amp (nth i psis [])) (amp (nth j psis [])) = if Nat.eqb i j then c1 else c0.
(* v is a combination of those states whose energy is e *)
Definition in_level (n : nat) (es : list F) (psis : list (psi_t F)) (e : F) (v : config -> cx F) : Prop :=
  exists a : nat -> cx F, (forall i, (i < length psis)%nat -> nth i es 0%F <> e -> a i = c0) /\
    forall t, length t = n -> v t = csum (fun i => a i * amp (nth i psis []) t)%C (seq 0 (length psis)).
(* two orthonormal sets of states with the energies es; for each energy the states span the same space *)
Definition same_levels (n : nat) (es : list F) (psis psis' : list (psi_t F)) : Prop :=
  length psis = length es /\ length psis' = length es /\ orthonormal_states n psis /\ orthonormal_states n psis' /\
  forall i, (i < length es)%nat -> in_level n es psis (nth i es 0%F) (amp (nth i psis' [])) /\ in_level n es psis' (nth i es 0%F) (amp (nth i psis [])).
(* orthonormal eigenstates of A with the energies es, to which no eigenstate with one of these energies can be added *)
Definition whole_levels (n : nat) (A : op_t F) (es : list F) (psis : list (psi_t F)) : Prop :=
  length psis = length es /\ orthonormal_states n psis /\ (forall i, (i < length es)%nat -> eigenvector n A (nth i es 0%F) (amp (nth i psis []))) /\
  forall i v, (i < length es)%nat -> eigenvector n A (nth i es 0%F) v -> in_level n es psis (nth i es 0%F) v.
End S.
