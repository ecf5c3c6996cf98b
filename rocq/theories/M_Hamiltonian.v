(* Model of the Hamiltonian-matrix and basis-expansion functions of impurityModel/ed/finite.py. *)
From Verif Require Import M_Prelude M_Scalar M_PSR M_Ladder M_State M_Mpi.
Local Open Scope Z_scope.

Section Ham.
Context {F : ofield}.

(* Matrices are functions of row and column; np.zeros, h[i, j] = v and the sum of matrices.
   Simplified: the shape (n, n) is kept outside. *)
Definition mat := nat -> nat -> cx F.
Definition mzeros : mat := fun _ _ => c0.
Definition mset (m : mat) (i j : nat) (v : cx F) : mat :=
  fun i' j' => if Nat.eqb i' i && Nat.eqb j' j then v else m i' j'.
Definition mplus (m1 m2 : mat) : mat := fun i j => (m1 i j + m2 i j)%C.

(* scipy.sparse.csr_matrix((data, (row, col))): duplicate entries are summed. *)
Definition csr (l : list (nat * nat * cx F)) : mat := fun i j =>
  fold_left (fun acc x => let '(r, c, v) := x in
    if Nat.eqb i r && Nat.eqb j c then (acc + v)%C else acc) l c0.

(* default argument slaterWeightMin=1e-12 of applyOp (finite.py:1301) *)
Definition swm_default : F := (1 / fofZ 1000000000000)%F.

(* {basis[i]: i for i in range(n)} (finite.py:1538, 1653): the last index wins *)
Definition basis_index (basis : list pybytes) : dict pybytes nat :=
  fold_left (fun d ib => dset d (snd ib) (fst ib)) (enumerate basis) [].

Inductive hmode := DenseSerial | DenseMPI | SparseSerial | SparseMPI | OtherMode.

(* applyOp(n_spin_orbitals, hOp, {basis[j]: 1}) *)
Definition h_column (n : Z) (hOp : op_t F) (b : pybytes) : res (psi_t F) :=
  snd (applyOp n hOp [(b, c1)] swm_default None None).

Definition nth_res {A} (l : list A) (i : nat) : res A :=
  match nth_error l i with Some a => Ok a | None => Err IndexError end.

(* finite.py:1542-1551 *)
Definition ham_dense_serial (n : Z) (hOp : op_t F) (basis : list pybytes) : res mat :=
  let idx := basis_index basis in
  fold_res (fun h j =>
    do b <- nth_res basis j;
    do r <- h_column n hOp b;
    Ok (fold_left (fun h kv => match dget idx (fst kv) with
                               | Some i => mset h i j (snd kv)
                               | None => h end) r h)) (seq 0 (length basis)) mzeros.

(* finite.py:1553-1565: the dictionary hRank of one rank *)
Definition ham_hRank (n : Z) (hOp : op_t F) (basis : list pybytes) (rank ranks : nat)
  : res (dict nat (dict nat (cx F))) :=
  let idx := basis_index basis in
  do jobs <- get_job_tasks rank ranks (seq 0 (length basis));
  fold_res (fun hRank j =>
    do b <- nth_res basis j;
    do r <- h_column n hOp b;
    Ok (dset hRank j (fold_left (fun d kv => match dget idx (fst kv) with
                                             | Some i => dset d i (snd kv)
                                             | None => d end) r []))) jobs [].
(* finite.py:1566-1571: all ranks *)
Definition ham_dense_MPI (n : Z) (hOp : op_t F) (basis : list pybytes) (ranks : nat) : list (res mat) :=
  map (rmap (fun hs : list (dict nat (dict nat (cx F))) =>
         fold_left (fun h hTmp =>
           fold_left (fun h jhj =>
             fold_left (fun h ihij => mset h (fst ihij) (fst jhj) (snd ihij)) (snd jhj) h) hTmp h) hs mzeros))
    (bcast_all (map (fun r => ham_hRank n hOp basis r ranks) (seq 0 ranks))).

(* finite.py:1573-1586, 1592-1605: data, row, col for the given columns *)
Definition ham_triplets (n : Z) (hOp : op_t F) (basis : list pybytes) (jobs : list nat)
  : res (list (nat * nat * cx F)) :=
  let idx := basis_index basis in
  fold_res (fun data j =>
    do b <- nth_res basis j;
    do r <- h_column n hOp b;
    Ok (fold_left (fun data kv => match dget idx (fst kv) with
                                  | Some i => data ++ [(i, j, snd kv)]
                                  | None => data end) r data)) jobs [].
Definition ham_sparse_serial (n : Z) (hOp : op_t F) (basis : list pybytes) : res mat :=
  rmap csr (ham_triplets n hOp basis (seq 0 (length basis))).
(* finite.py:1588-1609 *)
Definition ham_sparse_MPI (n : Z) (hOp : op_t F) (basis : list pybytes) (ranks : nat) : list (res mat) :=
  map (rmap (fun hs : list mat => fold_left mplus hs mzeros))
    (bcast_all (map (fun r => do jobs <- get_job_tasks r ranks (seq 0 (length basis));
                              rmap csr (ham_triplets n hOp basis jobs)) (seq 0 ranks))).

(* finite.py:1514-1610: what each of the ranks gets.  Printing is left out. *)
Definition get_hamiltonian_matrix (ranks : nat) (mode : hmode) (n : Z) (hOp : op_t F) (basis : list pybytes)
  : list (res mat) :=
  match mode with
  | DenseSerial => repeat (ham_dense_serial n hOp basis) ranks
  | DenseMPI => ham_dense_MPI n hOp basis ranks
  | SparseSerial => repeat (ham_sparse_serial n hOp basis) ranks
  | SparseMPI => ham_sparse_MPI n hOp basis ranks
  | OtherMode => repeat (Err UnboundLocalError) ranks
  end.

(* ---- Hamiltonian from h_dict ---- *)
Definition hdict_t := dict pybytes (psi_t F).

(* a Python set built from a list: no repetitions; its iteration order is given by an oracle *)
Fixpoint pyset {A} `{EqB A} (l : list A) : list A :=
  match l with [] => [] | a :: l' => if inb a l' then pyset l' else a :: pyset l' end.
Definition set_inter {A} `{EqB A} (l m : list A) : list A := filter (fun a => inb a m) (pyset l).
Definition set_diff {A} `{EqB A} (l m : list A) : list A := filter (fun a => negb (inb a m)) (pyset l).
Definition set_order := list pybytes -> list pybytes.

(* finite.py:1654-1659 *)
Definition from_h_dict_dense (h_dict : hdict_t) (basis : list pybytes) : res mat :=
  let idx := basis_index basis in
  fold_res (fun h j =>
    do b <- nth_res basis j;
    do r <- dgetitem h_dict b;
    fold_res (fun h kv => do i <- dgetitem idx (fst kv); Ok (mset h i j (snd kv))) r h)
    (seq 0 (length basis)) mzeros.
(* finite.py:1660-1670 *)
Definition from_h_dict_sparse (h_dict : hdict_t) (basis : list pybytes) : res mat :=
  let idx := basis_index basis in
  rmap csr (fold_res (fun data j =>
    do b <- nth_res basis j;
    do r <- dgetitem h_dict b;
    fold_res (fun data kv => do i <- dgetitem idx (fst kv); Ok (data ++ [(i, j, snd kv)])) r data)
    (seq 0 (length basis)) []).
(* finite.py:1672-1682: the local matrix of one rank *)
Definition from_h_dict_local (ord : set_order) (h_dict : hdict_t) (basis : list pybytes) : res mat :=
  let idx := basis_index basis in
  rmap csr (fold_res (fun data ps =>
    do r <- dgetitem h_dict ps;
    fold_res (fun data kv =>
      do j <- dgetitem idx ps; do i <- dgetitem idx (fst kv); Ok (data ++ [(i, j, snd kv)])) r data)
    (ord (set_inter basis (dkeys h_dict))) []).

Inductive pmode := Serial | HBuild | OtherPar.
Inductive fmode := Dense | Sparse | OtherFmt.

(* finite.py:1613-1693.  h_dicts: the h_dict of each rank; ord r: set iteration order on rank r.
   The basis is the same list on every rank.  basis_index is returned as well. *)
Definition get_hamiltonian_matrix_from_h_dict (ord : nat -> set_order) (h_dicts : list hdict_t)
  (basis : list pybytes) (pm : pmode) (return_h_local : bool) (mode : fmode) : list (res (mat * dict pybytes nat)) :=
  let fin := fun h => (h, basis_index basis) in
  match pm, return_h_local with
  | Serial, true => map (fun _ => Err AssertionError) h_dicts
  | _, _ =>
    match mode, pm with
    | Dense, Serial => map (fun h_dict => rmap fin (from_h_dict_dense h_dict basis)) h_dicts
    | Sparse, Serial => map (fun h_dict => rmap fin (from_h_dict_sparse h_dict basis)) h_dicts
    | Sparse, HBuild =>
        let locals := map (fun rh => from_h_dict_local (ord (fst rh)) (snd rh) basis) (enumerate h_dicts) in
        if return_h_local then map (rmap fin) locals
        else map (rmap (fun hs : list mat => fin (fold_left mplus hs mzeros))) (bcast_all locals)
    | _, _ => map (fun _ => Err GenericException) h_dicts
    end
  end.

(* ---- expand_basis ---- *)

(* sorted(...) of bytes objects (finite.py:1749, 1793): insertion sort.  Python's sort is
   another algorithm; on distinct elements of a total order the result is the same. *)
Fixpoint insert_sorted (x : pybytes) (l : list pybytes) : list pybytes :=
  match l with
  | [] => [x]
  | y :: l' => if bytes_ltb y x then y :: insert_sorted x l' else x :: l
  end.
Definition py_sorted (l : list pybytes) : list pybytes := fold_right insert_sorted [] l.

(* s.update(t) for sets *)
Definition set_update (s t : list pybytes) : list pybytes :=
  fold_left (fun s x => if inb x s then s else s ++ [x]) t s.

(* applyOp(n_spin_orbitals, hOp, {b: 1}, restrictions=restrictions) *)
Definition r_column (n : Z) (hOp : op_t F) (rs : option restrictions_t) (b : pybytes) : res (psi_t F) :=
  snd (applyOp n hOp [(b, c1)] swm_default rs None).

(* finite.py:1737-1746: for b in basis[i:n].  An exception leaves the entries made so far. *)
Fixpoint serial_pass (n : Z) (hOp : op_t F) (rs : option restrictions_t) (basis : list pybytes)
  (todo : list pybytes) (h_dict : hdict_t) (basis_new : list pybytes) : hdict_t * res (list pybytes) :=
  match todo with
  | [] => (h_dict, Ok basis_new)
  | b :: todo' =>
      match dget h_dict b with
      | Some r => serial_pass n hOp rs basis todo' h_dict (set_update basis_new (set_diff (dkeys r) basis))
      | None =>
          match r_column n hOp rs b with
          | Err e => (h_dict, Err e)
          | Ok r => serial_pass n hOp rs basis todo' (dset h_dict b r)
                      (set_update basis_new (set_diff (dkeys r) basis))
          end
      end
  end.
(* finite.py:1734-1751: while i < n *)
Fixpoint expand_serial (fuel : nat) (n : Z) (hOp : op_t F) (rs : option restrictions_t)
  (basis : list pybytes) (i : nat) (h_dict : hdict_t) : hdict_t * res (list pybytes) :=
  if Nat.ltb i (length basis) then
    match fuel with
    | O => (h_dict, Err OutOfFuel)
    | S fuel' =>
        match serial_pass n hOp rs basis (skipn i basis) h_dict [] with
        | (h_dict', Err e) => (h_dict', Err e)
        | (h_dict', Ok basis_new) =>
            expand_serial fuel' n hOp rs (basis ++ py_sorted basis_new) (length basis) h_dict'
        end
    end
  else (h_dict, Ok basis).

(* One rank in the H_build loop: basis, h_dict, h_dict_new_local. *)
Record rank_state := mkRS { rs_basis : list pybytes; rs_i : nat; rs_h : hdict_t; rs_new : hdict_t }.

(* finite.py:1762-1769: states known locally and the new states they lead to *)
Definition setA (s : rank_state) : list pybytes := set_inter (skipn (rs_i s) (rs_basis s)) (dkeys (rs_h s)).
Definition newA (ord : set_order) (s : rank_state) : res (list pybytes) :=
  fold_res (fun bn ps => do r <- dgetitem (rs_h s) ps;
                         Ok (set_update bn (set_diff (dkeys r) (rs_basis s)))) (ord (setA s)) [].
(* finite.py:1773-1782: rank 0 collects the states no rank knows; broadcast of the tuple *)
Definition tupleB (ord : set_order) (states : list rank_state) : list pybytes :=
  match states with
  | [] => []
  | s0 :: rest =>
      ord (fold_left (fun b s => set_diff b (setA s)) rest
             (set_diff (skipn (rs_i s0) (rs_basis s0)) (setA s0)))
  end.
(* finite.py:1784-1790: this rank's share of the unknown states *)
Definition do_jobs (n : Z) (hOp : op_t F) (rs : option restrictions_t) (rank ranks : nat)
  (tB : list pybytes) (s : rank_state) (bn : list pybytes) : res (hdict_t * list pybytes) :=
  do jobs <- get_job_tasks rank ranks (seq 0 (length tB));
  fold_res (fun st k =>
    do ps <- nth_res tB k;
    do r <- r_column n hOp rs ps;
    Ok (dset (fst st) ps r, set_update (snd st) (set_diff (dkeys r) (rs_basis s)))) jobs (rs_new s, bn).

(* finite.py:1761-1804: while i < n on all ranks.  If the loop conditions of the ranks differ,
   some rank waits in a collective that others never reach. *)
Fixpoint expand_hbuild (fuel : nat) (n : Z) (hOp : op_t F) (rs : option restrictions_t)
  (ord : nat -> set_order) (states : list rank_state) : list (res (hdict_t * list pybytes)) :=
  let busy := map (fun s => Nat.ltb (rs_i s) (length (rs_basis s))) states in
  if forallb negb busy then map (fun s => Ok (dupdate (rs_h s) (rs_new s), rs_basis s)) states
  else if forallb (fun b : bool => b) busy then
    match fuel with
    | O => map (fun _ => Err OutOfFuel) states
    | S fuel' =>
        let tB := tupleB (ord 0%nat) states in
        let ranks := length states in
        let locals := map (fun rsx => do bn <- newA (ord (fst rsx)) (snd rsx);
                                      do_jobs n hOp rs (fst rsx) ranks tB (snd rsx) bn) (enumerate states) in
        if forallb is_ok locals then
          let basis_new := py_sorted (fold_left (fun acc l => set_update acc (snd l)) (oks locals) []) in
          expand_hbuild fuel' n hOp rs ord
            (map (fun sl => let s := fst sl in
               mkRS (rs_basis s ++ basis_new) (length (rs_basis s)) (rs_h s) (fst (snd sl)))
               (combine states (oks locals)))
        else map (fun x => match x with Ok _ => Err Deadlock | Err e => Err e end) locals
    end
  else map (fun b : bool => if b then Err Deadlock else Err Deadlock) busy.

(* finite.py:1696-1804.  Per rank: h_dict after the call and the basis.  When an exception is
   raised in H_build mode h_dict is unchanged (new entries are added at the end only). *)
Definition expand_basis (fuel : nat) (n : Z) (hOp : op_t F) (rs : option restrictions_t)
  (ord : nat -> set_order) (pm : pmode) (basis0 : list pybytes) (h_dicts : list hdict_t)
  : list (hdict_t * res (list pybytes)) :=
  match pm with
  | Serial => map (fun h => expand_serial fuel n hOp rs basis0 0 h) h_dicts
  | HBuild =>
      map (fun hr => match snd hr with
                     | Ok (h', b) => (h', Ok b)
                     | Err e => (fst hr, Err e)
                     end)
        (combine h_dicts (expand_hbuild fuel n hOp rs ord (map (fun h => mkRS basis0 0 h []) h_dicts)))
  | OtherPar => map (fun h => (h, Err GenericException)) h_dicts
  end.

(* finite.py:1806-1894 (printing left out; comm.reduce of the sizes is a collective all ranks reach).
   Default arguments of get_hamiltonian_matrix_from_h_dict: mode="sparse". *)
Definition expand_basis_and_hamiltonian (fuel : nat) (n : Z) (hOp : op_t F) (rs : option restrictions_t)
  (ord : nat -> set_order) (pm : pmode) (return_h_local : bool) (basis0 : list pybytes) (h_dicts : list hdict_t)
  : list (hdict_t * res (mat * dict pybytes nat)) :=
  let eb := expand_basis fuel n hOp rs ord pm basis0 h_dicts in
  match pm with
  | HBuild =>
      (* the ranks meet in collectives: they need the same basis *)
      match eb with
      | (_, Ok basis) :: _ =>
          if forallb (fun x => match snd x with Ok b => eqb b basis | Err _ => false end) eb then
            combine (map fst eb)
              (get_hamiltonian_matrix_from_h_dict ord (map fst eb) basis HBuild return_h_local Sparse)
          else map (fun x => (fst x, match snd x with Ok _ => Err Deadlock | Err e => Err e end)) eb
      | _ => map (fun x => (fst x, match snd x with Ok _ => Err Deadlock | Err e => Err e end)) eb
      end
  | _ =>
      (* no communication: every rank for itself *)
      map (fun x => (fst x, do basis <- snd x;
             hd (Err GenericException)
               (get_hamiltonian_matrix_from_h_dict ord [fst x] basis pm return_h_local Sparse))) eb
  end.
End Ham.
Arguments mat : clear implicits.
Arguments hdict_t : clear implicits.
Arguments rank_state : clear implicits.
