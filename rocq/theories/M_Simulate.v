(* Model of simulate_spectra (impurityModel/ed/spectra.py:36-299): from the Green's functions to the
   written spectra.  The transition operators are arguments; h5py output and prints are left out. *)
From Verif Require Import M_Prelude M_Scalar M_PSR M_Ladder M_State M_Mpi M_Hamiltonian M_Lanczos M_Average M_Spectra.

Section Simulate.
Context {F : ofield}.
Variable fsqrt fexp : F -> F.
Variable k_B : F.
Local Open Scope of_scope.

(* spectra.py:132, 170: gs *= -1;  spectra.py:133: gs = gsPS + gsIPS *)
Definition gneg (gs : garr F) : garr F := fun i t => map copp (gs i t).
Definition gplus (gs gs' : garr F) : garr F := fun i t => map (fun p => cadd (fst p) (snd p)) (combine (gs i t) (gs' i t)).
(* -gs.imag, one flattened array of shape (nT, len(w)) per eigenstate *)
Definition neg_imag (nE nT : nat) (gs : garr F) : list (list (cx F)) :=
  map (fun i => flat_map (fun t => map (fun x => creal (- im x)) (gs i t)) (seq 0 nT)) (seq 0 nE).
(* row t of a flattened array of shape (nT, nw) *)
Definition arow (nw : nat) (a : list (cx F)) (t : nat) : list F := map re (firstn nw (skipn (t * nw) a)).
(* np.sum(a, axis=0) *)
Definition radd (x y : list F) : list F := map (fun p => fst p + snd p) (combine x y).
Definition sum_axis0 (nw : nat) (rows : list (list F)) : list F := fold_left radd rows (repeat 0 nw).
(* spectra.py:138-155, 175-192, 204-221, 235-252: thermal average, sum over the operators and the
   columns of the written file: mesh, sum, T1, T2, ...  Here len(gs) = len(es). *)
Definition columns (mesh es : list F) (T : F) (nT : nat) (gs : garr F) : res (list (list F)) :=
  do a <- thermal_average fexp k_B es (neg_imag (length es) nT gs) T;
  let rows := map (arow (length mesh) a) (seq 0 nT) in
  Ok (mesh :: sum_axis0 (length mesh) rows :: rows).

Section Args.
Variable fuel : nat.
Variables (n : Z) (hOp : op_t F) (rs : option restrictions_t) (krylovSize : Z) (swm : F).
Variable ord : nat -> nat -> nat -> set_order.
Variable ranks : nat.
Variables (psis : list (psi_t F)) (es : list F) (T : F).
Notation spectra w delta tOps := (getSpectra fsqrt fuel n hOp w delta rs krylovSize swm ord ranks tOps psis es SHBuild).

(* spectra.py:197-221 (NIXS), 228-252 (XAS): the columns on every rank; rank 0 writes them *)
Definition absorption (w : list F) (delta : F) (tOps : list (op_t F)) : list (res (list (list F))) :=
  map (fun r => do gs <- r; columns w es T (length tOps) gs) (spectra w delta tOps).
(* spectra.py:163-192 (XPS) *)
Definition emission (w : list F) (delta : F) (tOps : list (op_t F)) : list (res (list (list F))) :=
  map (fun r => do gs <- r; columns w es T (length tOps) (gneg gs)) (spectra (map fopp w) (- delta) tOps).
(* spectra.py:122-155 (PS and IPS).  The arrays must have the same shape (simplified: numpy would
   also broadcast a single row). *)
Definition photoemission (w : list F) (delta : F) (tOpsPS tOpsIPS : list (op_t F)) : list (res (list (list F))) :=
  map (fun rr => do gsIPS <- fst rr; do gsPS <- snd rr;
                 if Nat.eqb (length tOpsPS) (length tOpsIPS)
                 then columns w es T (length tOpsPS) (gplus (gneg gsPS) gsIPS) else Err ValueError)
    (combine (spectra w delta tOpsIPS) (spectra (map fopp w) (- delta) tOpsPS)).
End Args.
End Simulate.
