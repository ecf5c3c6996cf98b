(* For the examples of the program properties: 2p6 3d9 without bath states.  The energy of the missing d electron is 1/2 or 1 for
   the spin-orbitals 8 and 7 and 3/2 for the others; the two lowest states are kept. *)
From Coq Require Import QArith Qcanon Permutation String.
From Verif Require Import M_Prelude M_Scalar M_PSR M_Ladder M_State M_Mpi M_Hamiltonian M_Basis M_Average M_Expect M_Operators M_Main M_Program S_Program X_Util X_Ops X_Main.
Local Open Scope Z_scope.
Definition zeros (n : nat) : list QcF := repeat (q 0 1) n.
Definition x_args (T : QcF) : @args QcF := mkArgs [1; 2] [0; 0] [0; 0] [6; 9] [0; 0] [0; 0] [0; 0] (zeros 5) (zeros 3) (zeros 3) (zeros 4) (q 0 1) (q 0 1) (q 0 1) (zeros 3)
  2 3 (q 1 2) T (q 10 1) (q 1 5) (q 1 5) (q 1 5).
Definition x_meshes : @meshes QcF := mkMeshes [q 0 1; q 1 1] [[q 0 1; q 0 1; q 1 1]] [q 0 1; q 1 1] [q 1 2; q 3 2]
  [[q 0 1; q 0 1; q 1 1]] [[q 0 1; q 0 1; q 1 1]; [q 1 1; q 0 1; q 0 1]] [(q 1 1, q 1 1, q 1 1)].
Definition x_hop (nb nv : nbaths_t) (hp : @ham_params QcF) : res (op_t QcF) := Ok [([(8, lab_c); (8, lab_a)], qr 1 1); ([(7, lab_c); (7, lab_a)], qr 1 2)].
Definition x_unit (N i : nat) : list (cx QcF) := map (fun j => if Nat.eqb i j then qr 1 1 else qr 0 1) (seq 0 N).
Definition x_eigsh (N : nat) (h : M_Hamiltonian.mat QcF) (k : Z) : res (list QcF * list (list (cx QcF))) := Ok ([q 1 1; q 1 2], [x_unit N 8; x_unit N 7]).
Definition x_gaunt (l1 l2 l3 m1 m2 m3 : Z) : QcF := if (m1 =? 0) && (m2 =? 0) && (m3 =? 0) then q 1 1 else q 0 1.
Definition x_radial : list (QcF * QcF) := [(q 1 1, q 1 1); (q 2 1, q 1 2)].
Definition x_main (ranks : nat) (a : @args QcF) := main qsqrt (fun _ => q 1 1) (fun x => x) (fun x => x) (fun x => x) (q 1 1000) (q 22 7) x_gaunt (fun _ x => x) (fun _ _ _ _ => qr 1 1) (fun _ y => y)
  (fun _ _ => Err ValueError) x_eigsh isort 1000 (fun _ _ _ _ x => x) ranks x_hop x_meshes a x_radial.
Definition x_printed (T : QcF) : res (list (cx QcF)) :=
  do su <- main_setup x_hop (x_args T);
  do ep <- nth_res (eigensystem (fun _ _ => Err ValueError) x_eigsh isort 1 (n_spin_orbitals (su_nBaths su)) (su_hOp su) (su_basis su) 2 LanczosDiag slaterWeightMin) 0;
  do ep <- ep;
  printThermalExpValues qsqrt (fun _ => q 1 1) (q 1 1000) (nbaths_of (su_nBaths su)) (fst ep) (snd ep) T (fofZ 10).
