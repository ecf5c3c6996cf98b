(* Specification of absorption as a quadratic form of the polarisation. *)
From Verif Require Import M_Prelude M_Scalar.

Section T.
Context {F : ofield}.
(* x, y, z, x + y, x + z, y + z *)
Definition six_pols : list (list F) := [[1; 0; 0]; [0; 1; 0]; [0; 0; 1]; [1; 1; 0]; [1; 0; 1]; [0; 1; 1]]%F.
(* sum_ab e_a e_b s_ab, where s_xx, s_yy, s_zz are the first three values and 2 s_xy = s_(x + y) - s_x - s_y, and so on *)
Definition quad (e : list F) (s : nat -> F) : F :=
  let x := nth 0 e 0%F in let y := nth 1 e 0%F in let z := nth 2 e 0%F in
  (x * x * s 0%nat + y * y * s 1%nat + z * z * s 2%nat + x * y * (s 3%nat - s 0%nat - s 1%nat) + x * z * (s 4%nat - s 0%nat - s 2%nat) + y * z * (s 5%nat - s 1%nat - s 2%nat))%F.
(* the same for complex values *)
Definition cquad (e : list F) (s : nat -> cx F) : cx F := mkC (quad e (fun j => re (s j))) (quad e (fun j => im (s j))).
End T.
