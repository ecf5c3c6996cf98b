(* Specification of electrons without interaction. *)
From Verif Require Import M_Prelude M_Scalar M_PSR M_State M_Basis M_Operators S_Fock S_Ops S_Basis S_Expect S_Operators S_Symmetry S_TimeReversal S_Thermal S_Moments S_Unitary.
Local Open Scope Z_scope.

Section S.
Context {F : ofield}.
Local Open Scope cx_scope.
(* the operator is sum_ij h_ij c_i^+ c_j *)
Definition free_hamiltonian (n : nat) (h : nat -> nat -> cx F) (op : op_t F) : Prop := forall t s, length t = n -> length s = n -> opelem op t s = opelem (hops n h) t s.
Definition kdelta (i j : nat) : cx F := if Nat.eqb i j then c1 else c0.
(* G is the inverse of the n-by-n matrix z - h *)
Definition one_particle_green (n : nat) (h : nat -> nat -> cx F) (z : cx F) (G : nat -> nat -> cx F) : Prop := forall i j, (i < n)%nat -> (j < n)%nat ->
  csum (fun k => (z * kdelta i k - h i k) * G k j) (seq 0 n) = kdelta i j /\ csum (fun k => G i k * (z * kdelta k j - h k j)) (seq 0 n) = kdelta i j.
(* the matrix of the hoppings of an operator *)
Definition hop_elements (op : op_t F) (i j : nat) : cx F := val op [(Z.of_nat i, lab_c); (Z.of_nat j, lab_a)].
(* all Slater integrals vanish *)
Definition no_interaction (hp : @ham_params F) : Prop := forall x, In x (hp_Fdd hp ++ hp_Fpp hp ++ hp_Fpd hp ++ hp_Gpd hp) -> x = 0%F.
(* the annihilation or creation operator of the orbital i *)
Definition orbital_op (label : ascii) (i : nat) : op_t F := [([(Z.of_nat i, label)], c1)].
(* normalised eigenstates *)
Definition eigenstates (n : nat) (op : op_t F) (es : list F) (psis : list (psi_t F)) : Prop :=
  length psis = length es /\ forall i, (i < length es)%nat -> valid_psi n (nth i psis []) /\ vdot n (amp (nth i psis [])) (amp (nth i psis [])) = c1 /\ eigenvector n op (nth i es 0%F) (amp (nth i psis [])).
(* the restrictions leave room for one electron more and one less *)
Definition room_for_one (n : nat) (rs : option restrictions_t) (v : config -> cx F) : Prop := forall label i s t, label = lab_c \/ label = lab_a -> (i < n)%nat -> length s = n -> length t = n ->
  v s <> c0 -> opelem (orbital_op label i) t s <> c0 -> allowed_opt rs t.
(* the orbitals of the list are occupied in the state *)
Definition occupied (n : nat) (orbs : list nat) (v : config -> cx F) : Prop := forall i s, In i orbs -> length s = n -> v s <> c0 -> nth i s false = true.
(* the columns of PS.dat: the mesh, the sum, and -Im G_ii(w + i delta) for each orbital i of the list; G k is the matrix at the point k of the mesh *)
Definition free_file (mesh : list F) (orbs : list nat) (G : nat -> nat -> nat -> cx F) (cols : list (list F)) : Prop :=
  exists total parts, cols = mesh :: total :: parts /\ length parts = length orbs /\ length total = length mesh /\
    (forall t, (t < length orbs)%nat -> length (nth t parts []) = length mesh /\
       forall k, (k < length mesh)%nat -> nth k (nth t parts []) 0%F = (- im (G k (nth t orbs O) (nth t orbs O)))%F) /\
    forall k, nth k total 0%F = ftotal (map (fun c => nth k c 0%F) parts).
End S.
