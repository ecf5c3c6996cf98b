(* Specification of resonant inelastic scattering *)
From Verif Require Import M_Prelude M_Scalar M_PSR M_State S_Fock S_Ham S_Green L_Sum.

Section SRIXS.
Context {F : ofield}.
Local Open Scope cx_scope.

(* psi' is op |psi>, projected on the allowed configurations *)
Definition op_image (n : nat) (op : op_t F) (rs : option restrictions_t) (psi psi' : psi_t F) : Prop :=
  forall t, length t = n ->
    (allowed_opt rs t -> amp psi' t = csum (fun s => opelem op t s * amp psi s) (allcfg n)) /\
    (~ allowed_opt rs t -> amp psi' t = c0).
(* |psi1> = tIn|psi>, |psi2> = (z1 - h)^-1 |psi1>, |psi3> = tOut|psi2>, g = <psi3| (z2 - h)^-1 |psi3> *)
Definition kramers_heisenberg (n : nat) (rs : option restrictions_t) (h : config -> config -> cx F) (tIn tOut : op_t F)
  (psi : psi_t F) (z1 z2 : cx F) (g : cx F) : Prop :=
  exists psi1 psi2 psi3, op_image n tIn rs psi psi1 /\ fock_solves n z1 h (amp psi2) psi1 /\ op_image n tOut rs psi2 psi3 /\
    fock_green n z2 h psi3 g.

(* the linear equations rows x = y; a solver that is exact for the systems with only one solution *)
Definition solution (rows : list (list (cx F))) (x y : list (cx F)) : Prop :=
  length x = length rows /\
  forall i, (i < length rows)%nat -> csum (fun j => vf (nth i rows []) j * vf x j) (seq 0 (length rows)) = vf y i.
Definition exact_solver (solve : list (list (cx F)) -> list (cx F) -> list (cx F)) : Prop :=
  forall rows y, (forall r, In r rows -> length r = length rows) -> length y = length rows ->
    (forall x, solution rows x (repeat c0 (length rows)) -> x = repeat c0 (length rows)) ->
    solution rows (solve rows y) y.
End SRIXS.
