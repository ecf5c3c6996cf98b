(* Specification of Hamiltonian matrices and of the reachable many-body basis. *)
From Verif Require Import M_Prelude M_Scalar M_PSR M_State S_Fock.

Section SHam.
Context {F : ofield}.

(* 1e-12 *)
Definition eps12 : F := (1 / fofZ 1000000000000)%F.
(* a matrix element with squared modulus below 1e-12 counts as zero *)
Definition cut12 (x : cx F) : cx F := if (cabs2 x <? eps12)%F then c0 else x.

Definition hermitian (N : nat) (m : nat -> nat -> cx F) : Prop :=
  forall i j, (i < N)%nat -> (j < N)%nat -> m i j = cconj (m j i).

(* t occurs in the restricted action of op on s *)
Definition linked (n : nat) (op : op_t F) (rs : option restrictions_t) (s t : config) : Prop :=
  length t = n /\ allowed_opt rs t /\ (eps12 <= cabs2 (opelem op t s))%F.
(* configurations reachable from those in B *)
Inductive Reach (n : nat) (op : op_t F) (rs : option restrictions_t) (B : list pybytes) : config -> Prop :=
| Reach0 c : length c = n -> In (key c) B -> Reach n op rs B c
| ReachS s t : Reach n op rs B s -> linked n op rs s t -> Reach n op rs B t.

(* col is the restricted, cut action of op on the product state c *)
Definition col_exact (n : nat) (op : op_t F) (rs : option restrictions_t) (c : config) (col : psi_t F) : Prop :=
  valid_psi n col /\
  forall t, length t = n ->
    (In (key t) (dkeys col) <-> linked n op rs c t) /\
    (linked n op rs c t -> dget col (key t) = Some (opelem op t c)).
(* every entry of h_dict is such a column *)
Definition hdict_exact (n : nat) (op : op_t F) (rs : option restrictions_t) (h : dict pybytes (psi_t F)) : Prop :=
  forall k col, dget h k = Some col -> exists c, length c = n /\ k = key c /\ col_exact n op rs c col.
(* m is the matrix of the restricted operator in the given basis *)
Definition restricted_matrix (n : nat) (op : op_t F) (rs : option restrictions_t) (basis : list pybytes)
  (m : nat -> nat -> cx F) : Prop :=
  forall i j ci cj, nth_error basis i = Some (key ci) -> nth_error basis j = Some (key cj) ->
    length ci = n -> length cj = n ->
    (linked n op rs cj ci -> m i j = opelem op ci cj) /\ (~ linked n op rs cj ci -> m i j = c0).
(* h_dict[basis_j][basis_i], zero if there is no such entry *)
Definition stored (h : dict pybytes (psi_t F)) (basis : list pybytes) (i j : nat) : cx F :=
  match nth_error basis i, nth_error basis j with
  | Some bi, Some bj =>
      match dget h bj with
      | Some col => match dget col bi with Some v => v | None => c0 end
      | None => c0
      end
  | _, _ => c0
  end.
(* every basis state with an entry leads to basis states only *)
Definition closed_cols (h : dict pybytes (psi_t F)) (basis : list pybytes) : Prop :=
  forall b col, In b basis -> dget h b = Some col -> NoDup (dkeys col) /\ forall k, In k (dkeys col) -> In k basis.
(* basis: basis0 followed by other states, without repetition, the product states being
   those that can be reached from basis0 *)
Definition is_closure (n : nat) (op : op_t F) (rs : option restrictions_t) (basis0 basis : list pybytes) : Prop :=
  (exists new, basis = basis0 ++ new) /\ NoDup basis /\
  forall k, In k basis <-> exists c, k = key c /\ Reach n op rs basis0 c.
End SHam.
