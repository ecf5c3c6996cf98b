(* Specification of the radial integrals of the scattering operator. *)
From Verif Require Import M_Prelude M_Scalar L_Sum.

Section SNIXS.
Context {F : ofield}.
(* sum over the intervals of the width times the mean of the two end values *)
Definition trapezoid (N : nat) (x : nat -> F) (y : nat -> cx F) : cx F :=
  csum (fun i => (creal (x (S i) - x i)%F * ((y i + y (S i)) / cofZ 2))%C) (seq 0 (N - 1)).
(* int Ri* j_k(q r) Rj r^2 dr on the mesh points (r, (Ri, Rj)) *)
Definition radial_int (j : Z -> F -> F) (q : F) (mesh : list (F * (cx F * cx F))) (k : Z) : cx F :=
  let p i := nth i mesh (0%F, (c0, c0)) in
  trapezoid (length mesh) (fun i => fst (p i))
    (fun i => let r := fst (p i) in (cconj (fst (snd (p i))) * creal (j k (q * r))%F * snd (snd (p i)) * (creal r * creal r))%C).
(* i^k for k >= 0 *)
Definition i_power (k : Z) : cx F := Nat.iter (Z.to_nat k) (fun z => (cI * z)%C) c1.
End SNIXS.
