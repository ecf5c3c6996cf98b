(* Model of the remaining steps of main (impurityModel/ed/get_spectra.py): eigenstates, printed
   expectation values, low-energy selection, occupation restrictions, and the file RIXS.bin. *)
From Verif Require Import M_Prelude M_Scalar M_PSR M_Ladder M_State M_Mpi M_Hamiltonian M_Basis M_Average M_Expect.
Local Open Scope Z_scope.

Section Main.
Context {F : ofield}.
Local Open Scope of_scope.

(* l[:n] *)
Definition slice_to {A} (l : list A) (n : Z) : list A :=
  firstn (Z.to_nat (if (n <? 0)%Z then Z.of_nat (length l) + n else n)) l.

(* ---- eigensystem (finite.py:58-118) ---- *)
Inductive diag_mode := FullDiag | LanczosDiag | OtherDiag.

(* finite.py:113-116: {basis[i]: vecs[i, vi] for i in range(len(basis)) if slaterWeightMin <= abs(vecs[i, vi]) ** 2};
   col is the column vi of vecs *)
Definition state_of_column (basis : list pybytes) (swm : F) (col : list (cx F)) : res (psi_t F) :=
  fold_res (fun psi i =>
    do v <- nth_res col i;
    if cabs2 v <? swm then Ok psi else do b <- nth_res basis i; Ok (dset psi b v))
    (seq 0 (length basis)) [].

(* finite.py:97-118 on one rank, after the Hamiltonian matrix has been made.  np.linalg.eigh, eigsh and np.argsort
   are arguments; a matrix of eigenvectors is the list of its columns.  Only rank 0 computes the printed average number
   of elements per column, a division by the number of basis states.  eigenValueTol is left to eigsh. *)
Section Eigen.
Variable eigh : nat -> M_Hamiltonian.mat F -> res (list F * list (list (cx F))).
Variable eigsh : nat -> M_Hamiltonian.mat F -> Z -> res (list F * list (list (cx F))).
Variable argsort : list F -> list nat.

Definition diagonalize (N : nat) (h : M_Hamiltonian.mat F) (nPsiMax : Z) (mode : diag_mode)
  : res (list F * list (list (cx F))) :=
  match mode with
  | FullDiag =>
      do (es, vecs) <- eigh N h;
      Ok (slice_to es nPsiMax, slice_to vecs nPsiMax)
  | LanczosDiag =>
      do (es, vecs) <- eigsh N h nPsiMax;
      let indices := argsort es in
      do es' <- map_res (nth_res es) indices;
      do vecs' <- map_res (nth_res vecs) indices;
      Ok (es', vecs')
  | OtherDiag => Err UnboundLocalError      (* prints "Wrong diagonalization mode"; es has no value *)
  end.

Definition eigen_local (rank : nat) (h : M_Hamiltonian.mat F) (basis : list pybytes) (nPsiMax : Z) (mode : diag_mode) (swm : F)
  : res (list F * list (psi_t F)) :=
  if Nat.eqb rank 0 && Nat.eqb (length basis) 0 then Err ZeroDivisionError else
  do (es, vecs) <- diagonalize (length basis) h nPsiMax mode;
  do psis <- map_res (fun vi => do col <- nth_res vecs vi; state_of_column basis swm col) (seq 0 (length es));
  Ok (es, psis).

(* finite.py:58-118: one result per rank *)
Definition eigensystem (ranks : nat) (n : Z) (hOp : op_t F) (basis : list pybytes) (nPsiMax : Z) (mode : diag_mode) (swm : F)
  : list (res (list F * list (psi_t F))) :=
  map (fun rh => do h <- snd rh; eigen_local (fst rh) h basis nPsiMax mode swm)
    (enumerate (get_hamiltonian_matrix ranks SparseMPI n hOp basis)).
End Eigen.

(* ---- get_spectra.py:301-303: only eigenstates of low energy; energy_cut is already multiplied by k_B*T (line 92) ---- *)
Definition low_energy (es : list F) (psis : list (psi_t F)) (energy_cut : F) : res (list F * list (psi_t F)) :=
  do es' <- match es with
            | [] => Ok []
            | e0 :: _ => Ok (filter (fun e => e - e0 <? energy_cut) es)
            end;
  do psis' <- map_res (nth_res psis) (seq 0 (length es'));
  Ok (es', psis').

(* ---- get_spectra.py:154-169: occupation restrictions for the excited states ---- *)
(* == of frozensets *)
Definition fs_eqb (a b : list Z) : bool := forallb (fun x => inb x b) a && forallb (fun x => inb x a) b.
(* restrictions[frozenset(indices)] = v: the key first stored is kept *)
Fixpoint rset (rs : restrictions_t) (k : list Z) (v : Z * Z) : restrictions_t :=
  match rs with
  | [] => [(k, v)]
  | (k', v') :: rs' => if fs_eqb k' k then (k', v) :: rs' else (k', v') :: rset rs' k v
  end.
Definition excited_restrictions (nBaths nValBaths dnValBaths dnConBaths dnTols n0imps : zdict) : res restrictions_t :=
  let l := 2%Z in
  let nb := nbaths_of nBaths in
  do imp <- map_res (c2i nb) (shell_coords l);
  do n0 <- dgetitem n0imps l;
  do tol <- dgetitem dnTols l;
  let rs := rset [] imp (n0 - 1, n0 + tol + 1)%Z in
  do nV <- dgetitem nValBaths l;
  do val <- map_res (fun b => c2i nb (SBath (KInt l) b)) (zrange nV);
  do dnV <- dgetitem dnValBaths l;
  let rs := rset rs val (nV - dnV, nV)%Z in
  do nB <- dgetitem nBaths l;
  do con <- map_res (fun b => c2i nb (SBath (KInt l) b)) (zrange2 nV nB);
  do dnC <- dgetitem dnConBaths l;
  Ok (rset rs con (0, dnC)%Z).

(* ---- RIXS.bin ---- *)
(* spectra.py:285-293.  f32: conversion to float32.  aSum has the rows aSum[wIn]; the file is the flattened array. *)
Definition write_rixs (f32 : F -> F) (wIn wLoss : list F) (aSum : list (list F)) : res (list F) :=
  do rows <- map_res (fun jw =>
       do row <- map_res (fun a => nth_res a (fst jw)) aSum;       (* row of aSum.T *)
       if Nat.eqb (length row) (length wIn) then Ok (f32 (snd jw) :: map f32 row) else Err ValueError)
     (enumerate wLoss);
  Ok (concat ((f32 (fofZ (Z.of_nat (length wIn))) :: map f32 wIn) :: rows)).

(* x.reshape((r, c)), r = int(len(x) / c) *)
Fixpoint rows_of (r c : nat) (x : list F) : list (list F) :=
  match r with O => [] | S r' => firstn c x :: rows_of r' c (skipn c x) end.
(* plotScripts/plotRIXS.py:25-30.  fint: int() of a float.  A header below -1 or a length that is no multiple of ncols+1
   cannot be reshaped.  The result is wLoss, wIn and the matrix rixs. *)
Definition read_rixs (fint : F -> Z) (x : list F) : res (list F * list F * list (list F)) :=
  do x0 <- nth_res x 0;
  let c := (fint x0 + 1)%Z in
  if (c =? 0)%Z then Err ZeroDivisionError else
  let r := Z.quot (Z.of_nat (length x)) c in
  if ((c <? 0) || negb (r * c =? Z.of_nat (length x)))%Z then Err ValueError else
  match rows_of (Z.to_nat r) (Z.to_nat c) x with
  | [] => Err IndexError
  | row0 :: rows => Ok (map (hd 0) rows, tl row0, map (@tl F) rows)
  end.

(* ---- printThermalExpValues (finite.py:151-174) ---- *)
Variable fsqrt fexp : F -> F.
Variable k_B : F.

(* x[mask] *)
Definition masked {A} (mask : list bool) (x : list A) : list A := map snd (filter fst (combine mask x)).
(* np.array of real and complex numbers *)
Definition as_complex (x : real_or_complex (F:=F)) : cx F := match x with inl r => creal r | inr z => z end.
(* the printed numbers: <E-E0>, <N>, occupations of eg and t2g, <Lz>, <Sz>, <L^2>, <S^2>.  A scalar observable is an array
   of one element.  Only rank 0 computes and prints (all but the occupations); the model is of rank 0. *)
Definition printThermalExpValues (nBaths : nbaths_t) (es : list F) (psis : list (psi_t F)) (T cutOff : F) : res (list (cx F)) :=
  do e0 <- nth_res es 0;
  let e := map (fun x => x - e0) es in
  let mask := map (fun x => x <? cutOff * k_B * T) e in
  if negb (Nat.eqb (length psis) (length mask)) then Err IndexError else
  let e := masked mask e in
  let psis := masked mask psis in
  let avg obs := thermal_average fexp k_B e obs T in
  let avg1 f := do o <- map_res (fun psi => do x <- f psi; Ok [creal x]) psis; avg o in
  do oc <- map_res (fun psi => do o <- getEgT2gOccupation fsqrt nBaths psi; Ok (map as_complex o)) psis;
  do occs <- avg oc;
  do aE <- avg (map (fun x => [creal x]) e);
  do aN <- avg1 (fun psi => getTraceDensityMatrix nBaths psi 2%Z);
  do aLz <- avg1 (getLz3d nBaths);
  do aSz <- avg1 (getSz3d nBaths);
  do aL2 <- avg1 (getLsqr3d fsqrt nBaths);
  do aS2 <- avg1 (getSsqr3d nBaths);
  Ok (aE ++ aN ++ firstn 4 occs ++ aLz ++ aSz ++ aL2 ++ aS2).
End Main.
Arguments eigensystem {F} eigh eigsh argsort.
Arguments eigen_local {F} eigh eigsh argsort.
