(* Specification of the response of a state to a transition, and of the transitions with circular polarisation. *)
From Verif Require Import M_Prelude M_Scalar M_PSR M_State M_Basis M_Expect M_Operators S_Fock S_Basis S_Expect S_Operators S_Symmetry S_TimeReversal.
Local Open Scope Z_scope.

Section D.
Context {F : ofield}.
(* g = <Tv| (z - A)^-1 |Tv>: exactly one vector x satisfies (z - A) x = Tv, and g = <Tv|x> *)
Definition response (n : nat) (A : op_t F) (z : cx F) (T : (config -> cx F) -> config -> cx F) (v : config -> cx F) (g : cx F) : Prop :=
  exists x, (forall t, length t = n -> z * x t - opv n A x t = T v t)%C /\ vdot n (T v) x = g /\
    forall x', (forall t, length t = n -> z * x' t - opv n A x' t = T v t)%C -> forall t, length t = n -> x' t = x t.
(* a transition with the operator D, and with D1 + c D2: c = i and c = -i are the two circular polarisations in the plane of D1 and D2 *)
Definition transition (n : nat) (D : op_t F) (v : config -> cx F) : config -> cx F := opv n D v.
Definition two_transitions (n : nat) (D1 D2 : op_t F) (c : cx F) (v : config -> cx F) (t : config) : cx F := (opv n D1 v t + c * opv n D2 v t)%C.
(* removal (lab_a) or addition (lab_c) of an electron in the spin-orbital x *)
Definition one_electron (nb : nbaths_t) (lab : ascii) (x : spinorb) : op_t F := [([(coord_index nb x, lab)], c1)].
(* time reversal takes the transition S to the transition S', perhaps with the opposite sign *)
Definition reversed (bp bs : bkey -> Z -> Z) (nb : nbaths_t) (S S' : (config -> cx F) -> config -> cx F) : Prop :=
  exists a, (a = 1 \/ a = -1) /\ forall v t, length t = n_orb nb -> timerev bp bs nb (S v) t = (cofZ a * S' (timerev bp bs nb v) t)%C.
(* the radial functions on the mesh are real *)
Definition real_functions (mesh : list (F * (cx F * cx F))) : Prop :=
  Forall (fun p => cconj (fst (snd p)) = fst (snd p) /\ cconj (snd (snd p)) = snd (snd p)) mesh.
End D.
