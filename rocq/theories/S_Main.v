(* Specification for the steps of main: ordered energies, eigenvectors, truncated states. *)
From Verif Require Import M_Prelude M_Scalar M_PSR M_State S_Fock S_Ham.
From Coq Require Export Sorted Permutation.

Section SMain.
Context {F : ofield}.

(* from the smallest to the largest *)
Definition ascending (es : list F) : Prop := StronglySorted (fun a b => (a <= b)%F) es.

(* the square matrix h has the eigenvalues es, vecs being the list of eigenvectors *)
Definition eigen_of (N : nat) (h : nat -> nat -> cx F) (es : list F) (vecs : list (list (cx F))) : Prop :=
  length vecs = length es /\ Forall (fun v => length v = N) vecs /\
  forall k e v, nth_error es k = Some e -> nth_error vecs k = Some v ->
    forall i, (i < N)%nat -> csum (fun j => h i j * nth j v c0)%C (seq 0 N) = (creal e * nth i v c0)%C.
Definition orthonormal (N : nat) (vecs : list (list (cx F))) : Prop :=
  forall k l v w, nth_error vecs k = Some v -> nth_error vecs l = Some w ->
    csum (fun i => cconj (nth i v c0) * nth i w c0)%C (seq 0 N) = if Nat.eqb k l then c1 else c0.

(* h is the matrix of op (elements below 1e-6 in modulus being cut) between the configurations cs *)
Definition matrix_of (op : op_t F) (cs : list config) (h : nat -> nat -> cx F) : Prop :=
  forall i j ci cj, nth_error cs i = Some ci -> nth_error cs j = Some cj -> h i j = cut12 (opelem op ci cj).
(* v, a vector over the configurations cs, solves op v = e v within the space spanned by cs *)
Definition eigenvector (op : op_t F) (cs : list config) (e : F) (v : list (cx F)) : Prop :=
  length v = length cs /\
  forall i ci vi, nth_error cs i = Some ci -> nth_error v i = Some vi ->
    csum (fun cv => cut12 (opelem op ci (fst cv)) * snd cv)%C (combine cs v) = (creal e * vi)%C.

(* psi has the components of v of weight at least swm and no others *)
Definition truncated (cs : list config) (swm : F) (v : list (cx F)) (psi : psi_t F) : Prop :=
  NoDup (dkeys psi) /\
  forall k a, dget psi k = Some a <->
    exists i c, nth_error cs i = Some c /\ nth_error v i = Some a /\ k = key c /\ (swm <= cabs2 a)%F.

(* The assumed behaviour of the linear-algebra library, on the matrix of op between cs. *)
Definition eigh_works (op : op_t F) (cs : list config)
  (eigh : nat -> (nat -> nat -> cx F) -> res (list F * list (list (cx F)))) : Prop :=
  forall h, matrix_of op cs h -> hermitian (length cs) h ->
    exists es vecs, eigh (length cs) h = Ok (es, vecs) /\ length es = length cs /\ ascending es /\
      eigen_of (length cs) h es vecs /\ orthonormal (length cs) vecs.
Definition eigsh_works (op : op_t F) (cs : list config) (k : Z)
  (eigsh : nat -> (nat -> nat -> cx F) -> Z -> res (list F * list (list (cx F)))) : Prop :=
  forall h, matrix_of op cs h -> hermitian (length cs) h ->
    exists es vecs, eigsh (length cs) h k = Ok (es, vecs) /\ Z.of_nat (length es) = k /\
      eigen_of (length cs) h es vecs /\ orthonormal (length cs) vecs.
Definition argsort_works (argsort : list F -> list nat) : Prop :=
  forall l, Permutation (argsort l) (seq 0 (length l)) /\ ascending (map (fun i => nth i l 0%F) (argsort l)).

(* what eigensystem is to return *)
Definition eigenstates (op : op_t F) (cs : list config) (swm : F) (es : list F) (psis : list (psi_t F)) : Prop :=
  ascending es /\ length psis = length es /\
  exists vecs, length vecs = length es /\ orthonormal (length cs) vecs /\
    forall k e psi v, nth_error es k = Some e -> nth_error psis k = Some psi -> nth_error vecs k = Some v ->
      eigenvector op cs e v /\ truncated cs swm v psi.
End SMain.
