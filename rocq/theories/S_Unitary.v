(* Specification of unitary changes of the orbitals: the orbital i becomes sum_j u_ji |j>. *)
From Verif Require Import M_Prelude M_Scalar M_PSR M_State M_Basis M_Operators S_Fock S_Basis S_Expect S_Operators S_Symmetry S_TimeReversal S_Levels.
From Verif Require S_Dict.
Local Open Scope Z_scope.

Section S.
Context {F : ofield}.
Definition unitary_orbitals (n : nat) (u : nat -> nat -> cx F) : Prop := forall i j, (i < n)%nat -> (j < n)%nat ->
  csum (fun k => cconj (u k i) * u k j)%C (seq 0 n) = (if Nat.eqb i j then c1 else c0) /\ csum (fun k => u i k * cconj (u j k))%C (seq 0 n) = (if Nat.eqb i j then c1 else c0).
(* sum_j u_ji c_j^+ creates an electron in the turned orbital i *)
Definition turned_creator (n : nat) (u : nat -> nat -> cx F) (i : nat) : op_t F := map (fun j => ([(Z.of_nat j, lab_c)], u j i)) (seq 0 n).
Definition vacuum (n : nat) (t : config) : cx F := if list_eq_dec Bool.bool_dec t (repeat false n) then c1 else c0.
(* the product state with the electrons of c, the occupation numbers of the orbitals k, k + 1, ..., in the turned orbitals *)
Fixpoint turned_product (n : nat) (u : nat -> nat -> cx F) (k : nat) (c : config) : config -> cx F :=
  match c with
  | [] => vacuum n
  | b :: c' => if b then opv n (turned_creator n u k) (turned_product n u (S k) c') else turned_product n u (S k) c'
  end.
(* the state with the amplitudes v for the turned product states *)
Definition turned (n : nat) (u : nat -> nat -> cx F) (v : config -> cx F) (t : config) : cx F := csum (fun s => turned_product n u 0 s t * v s)%C (allcfg n).
(* B acts on the turned states as A on the states *)
Definition turns (n : nat) (u : nat -> nat -> cx F) (A B : op_t F) : Prop := forall v t, length t = n -> turned n u (opv n A v) t = opv n B (turned n u v) t.
(* the orbital i is not turned; an operator of such orbitals *)
Definition kept (n : nat) (u : nat -> nat -> cx F) (i : nat) : Prop := forall j, (j < n)%nat -> u j i = if Nat.eqb j i then c1 else c0.
Definition kept_op (n : nat) (u : nat -> nat -> cx F) (A : op_t F) : Prop := forall p l, In p (dkeys A) -> In l p -> kept n u (Z.to_nat (fst l)).
(* sum_ij h_ij c_i^+ c_j *)
Definition hops (n : nat) (h : nat -> nat -> cx F) : op_t F :=
  flat_map (fun i => map (fun j => ([(Z.of_nat i, lab_c); (Z.of_nat j, lab_a)], h i j)) (seq 0 n)) (seq 0 n).
(* u h u^+ *)
Definition turned_hops (n : nat) (u h : nat -> nat -> cx F) (k l : nat) : cx F := csum (fun i => csum (fun j => u k i * h i j * cconj (u l j))%C (seq 0 n)) (seq 0 n).
(* the sets of orbitals of the restrictions are not mixed with others *)
Definition unmixed (n : nat) (u : nat -> nat -> cx F) (rs : option restrictions_t) : Prop :=
  match rs with
  | None => True
  | Some r => Forall (fun x => forall i j, (i < n)%nat -> (j < n)%nat -> u j i <> c0 -> (In (Z.of_nat i) (fst x) <-> In (Z.of_nat j) (fst x))) r
  end.
(* two Hamiltonians, of which the second acts on the turned states as the first on the states; neither has elements below the cut-off of the code *)
Definition turned_hamiltonians (n : nat) (u : nat -> nat -> cx F) (rs : option restrictions_t) (op op' : op_t F) : Prop :=
  unitary_orbitals n u /\ wf_op n op /\ wf_op n op' /\ assert_hermitian op = Ok tt /\ assert_hermitian op' = Ok tt /\ S_Dict.no_small n op /\ S_Dict.no_small n op' /\
  turns n u op op' /\ wf_restr rs /\ unmixed n u rs.
(* psis' are orthonormal states which span, energy by energy, the same space as the turned states of psis *)
Definition turned_levels (n : nat) (u : nat -> nat -> cx F) (es : list F) (psis psis' : list (psi_t F)) : Prop :=
  Forall (valid_psi n) psis /\ Forall (valid_psi n) psis' /\ length psis = length es /\
  exists psis1, Forall (valid_psi n) psis1 /\ same_levels n es psis1 psis' /\
    forall i t, (i < length es)%nat -> length t = n -> amp (nth i psis1 []) t = turned n u (amp (nth i psis [])) t.
End S.
