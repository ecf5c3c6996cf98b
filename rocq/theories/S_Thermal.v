(* Specification of the thermal (Boltzmann) average. *)
From Verif Require Import M_Prelude M_Scalar.

Section Thermal.
Context {F : ofield}.
Variable fexp : F -> F.
Local Open Scope of_scope.

(* what is used of the exponential function *)
Definition exp_laws : Prop := (forall x, 0 < fexp x) /\ (forall x y, fexp (x + y) = fexp x * fexp y).

Fixpoint ftotal (l : list F) : F := match l with [] => 0 | x :: l' => x + ftotal l' end.
Fixpoint ctotal (l : list (cx F)) : cx F := match l with [] => c0 | x :: l' => cadd x (ctotal l') end.

Variables kT : F.
(* Boltzmann factor, partition function and probability *)
Definition boltzmann (e : F) : F := fexp (- (e / kT)).
Definition partition_function (energies : list F) : F := ftotal (map boltzmann energies).
Definition probability (energies : list F) (e : F) : F := boltzmann e / partition_function energies.
(* component i of the averaged observable *)
Definition average_at (energies : list F) (obs : list (list (cx F))) (i : nat) : cx F :=
  ctotal (map (fun eo => cmul (creal (probability energies (fst eo))) (nth i (snd eo) c0)) (combine energies obs)).
End Thermal.
