(* Specification of moments: <y|M^p|y> of matrices and of operators on the Fock space. *)
From Verif Require Import M_Prelude M_Scalar M_PSR M_State S_Fock S_Ham S_Green L_Sum.

Section Moments.
Context {F : ofield}.
Local Open Scope cx_scope.

(* M^p y and <y|M^p|y> *)
Fixpoint mpow (N : nat) (M : nat -> nat -> cx F) (p : nat) (y : nat -> cx F) : nat -> cx F :=
  match p with O => y | S p' => mv N M (mpow N M p' y) end.
Definition moment (N : nat) (M : nat -> nat -> cx F) (y : nat -> cx F) (p : nat) : cx F := ip N y (mpow N M p y).
(* h^p |psi> and <psi|h^p|psi> *)
Fixpoint fpow (n : nat) (h : config -> config -> cx F) (p : nat) (psi : psi_t F) : config -> cx F :=
  match p with O => amp psi | S p' => fun t => csum (fun s => h t s * fpow n h p' psi s) (allcfg n) end.
Definition fock_moment (n : nat) (h : config -> config -> cx F) (psi : psi_t F) (p : nat) : cx F :=
  csum (fun t => cconj (amp psi t) * fpow n h p psi t) (allcfg n).
(* For one real symmetric tridiagonal matrix T of size k, the same for all z: g(z) = <psi|psi> <0|(z - T)^-1|0>, and
   <psi|psi> <0|T^p|0> = <psi|h^p|psi> for all p < 2k. Here <psi|psi> is the moment 0. *)
Definition lanczos_green (n : nat) (h : config -> config -> cx F) (psi : psi_t F) (k : nat) (zs gs : list (cx F)) : Prop :=
  length gs = length zs /\
  exists al be : list F, length al = k /\
    (forall i, (i < length zs)%nat -> exists r, resolvent k (nth i zs c0) (tridiag al be) unit0 r /\ nth i gs c0 = fock_moment n h psi 0 * r) /\
    (forall p, (p < 2 * k)%nat -> fock_moment n h psi 0 * moment k (tridiag al be) unit0 p = fock_moment n h psi p).

(* the energies w + e + i delta *)
Definition mesh_z (omega : list F) (e delta : F) : list (cx F) := map (fun w => mkC (w + e)%F delta) omega.
(* The result of a calculation with at most ks Lanczos vectors: the moments are kept, and the values are exact if ks is
   at least the number of configurations that can be reached from psi. *)
Definition truncated_green (n : nat) (op : op_t F) (rs : option restrictions_t) (h : config -> config -> cx F) (omega : list F) (delta : F) (ks : Z)
  (e : F) (psi : psi_t F) (g : list (cx F)) : Prop :=
  exists basis, is_closure n op rs (dkeys psi) basis /\
    lanczos_green n h psi (Z.to_nat (Z.min ks (Z.of_nat (length basis)))) (mesh_z omega e delta) g /\
    (Z.le (Z.of_nat (length basis)) ks -> forall k, (k < length omega)%nat -> fock_green n (nth k (mesh_z omega e delta) c0) h psi (nth k g c0)).
End Moments.
