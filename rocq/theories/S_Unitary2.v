(* Specification of the change of the bath orbitals in the crystal-field program. *)
From Verif Require Import M_Prelude M_Scalar M_PSR M_State M_Basis M_Operators S_Fock S_Ops S_Basis S_Expect S_Operators S_Symmetry S_Unitary.
Local Open Scope Z_scope.

Section S.
Context {F : ofield}.
(* g groups of five orbitals, from the number b0 on, are turned by the matrix m; the other orbitals are kept *)
Definition group_turn (b0 g : nat) (m : nat -> nat -> cx F) (j i : nat) : cx F :=
  if (b0 <=? j)%nat && (j <? b0 + 5 * g)%nat && (b0 <=? i)%nat && (i <? b0 + 5 * g)%nat && ((j - b0) / 5 =? (i - b0) / 5)%nat
  then m ((j - b0) mod 5)%nat ((i - b0) mod 5)%nat else if Nat.eqb j i then c1 else c0.
(* the bath orbitals of the 3d shell, nB of them, are turned by the matrix m *)
Definition bath_turn (nb : nbaths_t) (nB : Z) (m : list (list (cx F))) : nat -> nat -> cx F :=
  group_turn (Z.to_nat (coord_index nb (SBath (KInt 2) 0))) (Z.to_nat (nB / 5)) (at_m m).
(* the one-particle matrix of an operator that consists of hoppings *)
Definition hop_matrix (nb : nbaths_t) (h : gop spinorb F) (i j : nat) : cx F := val (indexed nb h) [(Z.of_nat i, lab_c); (Z.of_nat j, lab_a)].
Definition only_hops (h : gop spinorb F) : Prop := forall p, In p (dkeys h) -> exists x y, p = hop2 x y.
(* the impurity orbitals are not turned *)
Definition kept_impurity (nb : nbaths_t) (u : nat -> nat -> cx F) : Prop := forall i, Z.of_nat i < n_imp nb -> kept (n_orb nb) u i.
End S.
