(* What it means for a Python value to represent an occupation of n spin-orbitals.
   Written directly from the documentation in product_state_representation.py:1-30,
   independently of the converter functions. *)
From Coq Require Export Sorting.Sorted.
From Verif Require Export M_Prelude M_PSR.
Local Open Scope Z_scope.

(* An occupation: orbital k is occupied or not.  Only k < n matters. *)
Definition occ := nat -> bool.

(* str: n characters, the k-th is "1" iff orbital k is occupied. *)
Definition rep_str (n : nat) (f : occ) (s : pystr) : Prop :=
  length s = n /\ forall k, (k < n)%nat -> nth_error s k = Some (if f k then "1"%char else "0"%char).

(* tuple: the occupied orbitals in strictly increasing order. *)
Definition rep_tuple (n : nat) (f : occ) (t : pytuple) : Prop :=
  StronglySorted Z.lt t /\
  forall x, In x t <-> exists k, (k < n)%nat /\ x = Z.of_nat k /\ f k = true.

(* int: bit n-1-k is set iff orbital k is occupied; no other bit is set. *)
Definition rep_int (n : nat) (f : occ) (i : Z) : Prop :=
  0 <= i /\
  forall m, Z.testbit i m = true <-> exists k, (k < n)%nat /\ m = Z.of_nat n - 1 - Z.of_nat k /\ f k = true.

(* bitarray: n bits, the k-th is set iff orbital k is occupied. *)
Definition rep_bits (n : nat) (f : occ) (b : bitarray) : Prop :=
  length b = n /\ forall k, (k < n)%nat -> nth_error b k = Some (f k).

(* bytes: ceil(n/8) bytes; bit 7-m (value 2^(7-m)) of byte j stands for orbital 8*j+m;
   padding bits are zero. *)
Definition rep_bytes (n : nat) (f : occ) (x : pybytes) : Prop :=
  (8 * length x < n + 8)%nat /\ (n <= 8 * length x)%nat /\
  forall j y, nth_error x j = Some y ->
    (y < 256)%N /\
    forall m, (m < 8)%nat ->
      N.testbit y (N.of_nat (7 - m)) = (Nat.ltb (8 * j + m) n && f (8 * j + m)%nat).

(* Two occupations are the same product state of an n-orbital system. *)
Definition same_occ (n : nat) (f g : occ) : Prop := forall k, (k < n)%nat -> f k = g k.

(* Number of electrons in orbitals below i. *)
Definition electrons_below (f : occ) (i : nat) : nat :=
  length (filter f (seq 0 i)).

(* The fermionic sign of acting on orbital i. *)
Definition fermi_sign (f : occ) (i : nat) : Z :=
  if Nat.even (electrons_below f i) then 1 else -1.

(* Occupation with orbital i set to v. *)
Definition occ_set (f : occ) (i : nat) (v : bool) : occ :=
  fun k => if Nat.eqb k i then v else f k.
