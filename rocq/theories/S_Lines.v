(* Specification of the photoemission of a core level with spin-orbit coupling. *)
From Verif Require Import M_Prelude M_Scalar M_PSR M_State M_Basis M_Expect M_Operators S_Fock S_Ops S_Basis S_Expect S_Operators S_Thermal.
Local Open Scope Z_scope.

Section S.
Context {F : ofield}.
(* the 2p orbitals have the energy e and no hopping to others *)
Definition core_level (h0 : gop spinorb F) (e : F) : Prop := forall x y, in_shell 1 x \/ in_shell 1 y -> val h0 (hop2 x y) = if eqb x y then creal e else c0.
Local Open Scope of_scope.
(* -Im 1/(w + i d) *)
Definition lorentzian (d w : F) : F := d / (w * w + d * d).
(* the part of the orbital with spin s and magnetic number m in the level j = 3/2 and in j = 1/2 *)
Definition weight32 (x : spinorb) : F := match x with SImp _ s m => (fofZ 2 + (if (s =? 1)%Z then fofZ m else - fofZ m)) / fofZ 3 | _ => 0 end.
Definition weight12 (x : spinorb) : F := match x with SImp _ s m => (1 - (if (s =? 1)%Z then fofZ m else - fofZ m)) / fofZ 3 | _ => 0 end.
(* lines at e + xi/2 and e - xi; four and two of them in the sum *)
Definition two_lines (mesh : list F) (d e xi : F) (cols : list (list F)) : Prop :=
  exists total parts, cols = mesh :: total :: parts /\ length parts = 6%nat /\ length total = length mesh /\
    (forall t, (t < 6)%nat -> length (nth t parts []) = length mesh /\ forall k, (k < length mesh)%nat ->
       nth k (nth t parts []) 0 = weight32 (nth t (shell_list 1) (SImp 0 0 0)) * lorentzian d (nth k mesh 0 - (e + xi / fofZ 2)) +
                                  weight12 (nth t (shell_list 1) (SImp 0 0 0)) * lorentzian d (nth k mesh 0 - (e - xi))) /\
    forall k, (k < length mesh)%nat -> nth k total 0 = fofZ 4 * lorentzian d (nth k mesh 0 - (e + xi / fofZ 2)) + fofZ 2 * lorentzian d (nth k mesh 0 - (e - xi)).
End S.
