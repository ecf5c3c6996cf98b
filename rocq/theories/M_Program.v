(* Model of the whole program: simulate_spectra (impurityModel/ed/spectra.py:36-299), main (impurityModel/ed/get_spectra.py:20-332,
   get_spectra_using_CF.py:20-332) and the checks of the command line (get_spectra.py:578-590, get_spectra_using_CF.py:781-798). *)
From Coq Require Import String.
From Verif Require Import M_Prelude M_Scalar M_PSR M_Ladder M_State M_Mpi M_Hamiltonian M_Lanczos M_Basis M_Average M_Expect M_Operators.
From Verif Require Import M_Spectra M_Simulate M_RIXS M_Main.
Local Open Scope Z_scope.

(* What rank 0 prints or writes, in this order.  The file data.npz is in M_Npz.  Left out: progress messages, timing. *)
Inductive output (F : ofield) :=
| PThermal (averages : list (cx F))                        (* printThermalExpValues *)
| PExpValues (table : list (list (cx F)))                  (* printExpValues *)
| PWeights (table : list (list F * list pybytes))          (* weights and product states of every eigenstate *)
| PDensity (table : list (list (cubkey * cx F)))           (* density matrix elements of every eigenstate *)
| H5 (name : string) (shape : list nat) (data : list F)    (* a dataset of spectra.h5: shape and flattened real array *)
| Text (name : string) (cols : list (list F))              (* np.savetxt, by columns *)
| Bin (name : string) (data : list F).                     (* tofile *)
Arguments PThermal {F}. Arguments PExpValues {F}. Arguments PWeights {F}. Arguments PDensity {F}.
Arguments H5 {F}. Arguments Text {F}. Arguments Bin {F}.

(* The program on all ranks: the output of rank 0 and how every rank ends. *)
Definition outcome (F : ofield) := (list (output F) * list (res unit))%type.
(* A rank that has raised ends with the exception; the others wait for it in the next collective operation. *)
Definition stopped {A} (l : list (res A)) : list (res unit) :=
  map (fun x => match x with Ok _ => Err Deadlock | Err e => Err e end) l.
(* A part of the program: its result on every rank and, on rank 0, the output; then the next part.  Every part but
   the last (RIXS) is followed by a collective operation. *)
Definition stage {F : ofield} (outs : list (res (list (output F)))) (next : outcome F) : outcome F :=
  let written := match outs with Ok f :: _ => f | _ => [] end in
  if forallb is_ok outs then (written ++ fst next, snd next) else (written, stopped outs).
Definition last_stage {F : ofield} (outs : list (res (list (output F)))) : outcome F :=
  (match outs with Ok f :: _ => f | _ => [] end, map (fun x => do _ <- x; Ok tt) outs).

(* np.argsort(x)[-1::-1] applied to a list *)
Definition descending {A} (indices : list nat) (l : list A) : res (list A) := map_res (nth_res l) (rev indices).
(* A numpy array of bytes has the dtype S: trailing zero bytes are not kept. *)
Fixpoint strip_zeros (b : pybytes) : pybytes :=
  match b with
  | [] => []
  | x :: b' => match strip_zeros b' with [] => if (x =? 0)%N then [] else [x] | r => x :: r end
  end.

Section Program.
Context {F : ofield}.
Local Open Scope of_scope.
(* numerical functions *)
Variables fsqrt fexp arccos fsin f32 : F -> F.
Variables k_B pi : F.
Variable fint : F -> Z.
Variable gaunt : Z -> Z -> Z -> Z -> Z -> Z -> F.
Variable spherical_jn : Z -> F -> F.
Variable sph_harm : Z -> Z -> F -> F -> cx F.
Variable bicgstab : list (vec F) -> vec F -> vec F.
Variable eigh : nat -> M_Hamiltonian.mat F -> res (list F * list (list (cx F))).
Variable eigsh : nat -> M_Hamiltonian.mat F -> Z -> res (list F * list (list (cx F))).
Variable argsort : list F -> list nat.
Variable fuel : nat.
(* the set orders in the calls of getSpectra and getRIXSmap *)
Variable ord : nat -> nat -> nat -> nat -> set_order.
Variable ranks : nat.

(* spectra.py:385-434 with kmin=1 *)
Definition getNIXSOperators (nBaths : nbaths_t) (qs : list (F * F * F)) (li lj : Z) (mesh : list (F * (cx F * cx F))) : res (list (op_t F)) :=
  map_res (fun q => let '(q0, q1, q2) := q in
    getNIXSOperator fsqrt pi gaunt arccos fsin spherical_jn sph_harm nBaths q0 q1 q2 li lj mesh 1) qs.

(* krylovSize=150, slaterWeightMin=1e-7 (spectra.py:693-694, 823-824, finite.py:65) *)
Definition krylovSize : Z := 150.
Definition slaterWeightMin : F := 1 / fofZ 10000000.

Record meshes := mkMeshes {
  m_w : list F; m_epsilons : list (list F); m_wLoss : list F; m_wIn : list F;
  m_epsilonsRIXSin : list (list F); m_epsilonsRIXSout : list (list F); m_qsNIXS : list (F * F * F) }.

Section Spectra.
Variables (nBaths : zdict) (rs : restrictions_t) (hOp : op_t F).
Variables (es : list F) (psis : list (psi_t F)) (T delta deltaNIXS deltaRIXS : F) (ms : meshes).
Variables (liNIXS ljNIXS : Z) (radial : list (F * (cx F * cx F))).
Let n := n_spin_orbitals nBaths.
Let nb := nbaths_of nBaths.

(* thermal average, datasets and the text file of one kind of spectrum (spectra.py:138-155, 175-192, 204-221, 235-252) *)
Definition report (name : string) (mesh : list F) (nT : nat) (gs : garr F) : res (list (output F)) :=
  let obs := neg_imag (length es) nT gs in
  do a <- thermal_average fexp k_B es obs T;
  do cols <- columns fexp k_B mesh es T nT gs;
  Ok [H5 name [length es; nT; length mesh] (map re (concat obs)); H5 (name ++ "thermal") [nT; length mesh] (map re a); Text (name ++ ".dat") cols].
Definition getSpectra_call (call : nat) (tOps : list (op_t F)) (w : list F) (d : F) : list (res (garr F)) :=
  getSpectra fsqrt fuel n hOp w d (Some rs) krylovSize slaterWeightMin (ord call) ranks tOps psis es SHBuild.
(* every rank builds the operators *)
Definition with_ops {A B} (ops : res A) (f : A -> list (res B)) : list (res B) :=
  match ops with Ok o => f o | Err e => repeat (Err e) ranks end.

(* spectra.py:118-158 *)
Definition part_PS : list (res (list (output F))) :=
  with_ops (do ips <- getInversePhotoEmissionOperators nb 2; do ps <- getPhotoEmissionOperators nb 2; Ok (ips, ps)) (fun ops =>
    map (fun rr => do gsIPS <- fst rr; do gsPS <- snd rr; report "PS" (m_w ms) (length (snd ops)) (gplus (gneg gsPS) gsIPS))
      (combine (getSpectra_call 0 (fst ops) (m_w ms) delta) (getSpectra_call 1 (snd ops) (map fopp (m_w ms)) (- delta)))).
(* spectra.py:160-195 *)
Definition part_XPS : list (res (list (output F))) :=
  with_ops (getPhotoEmissionOperators nb 1) (fun ops =>
    map (fun r => do gs <- r; report "XPS" (m_w ms) (length ops) (gneg gs)) (getSpectra_call 2 ops (map fopp (m_w ms)) (- delta))).
(* spectra.py:197-225 *)
Definition part_NIXS : list (res (list (output F))) :=
  with_ops (getNIXSOperators nb (m_qsNIXS ms) liNIXS ljNIXS radial) (fun ops =>
    map (fun r => do gs <- r; report "NIXS" (m_wLoss ms) (length ops) gs) (getSpectra_call 3 ops (m_wLoss ms) deltaNIXS)).
(* spectra.py:227-255 *)
Definition part_XAS : list (res (list (output F))) :=
  with_ops (getDipoleOperators fsqrt pi gaunt nb (m_epsilons ms)) (fun ops =>
    map (fun r => do gs <- r; report "XAS" (m_w ms) (length ops) gs) (getSpectra_call 4 ops (m_w ms) delta)).

(* -gs.imag of the RIXS map, one flattened array of shape (nIn, nOut, len(wIn), len(wLoss)) per eigenstate *)
Definition neg_imag4 (nE nIn nOut nw : nat) (gs : garr4 F) : list (list (cx F)) :=
  map (fun i => flat_map (fun tIn => flat_map (fun tOut => flat_map (fun iw => map (fun x => creal (- im x)) (gs i tIn tOut iw)) (seq 0 nw)) (seq 0 nOut)) (seq 0 nIn)) (seq 0 nE).
(* np.sum(a, axis=(0, 1)): the rows of the array aSum of shape (len(wIn), len(wLoss)) *)
Definition sum_axis01 (nT nw nL : nat) (a : list (cx F)) : list (list F) :=
  map (fun iw => sum_axis0 nL (map (fun k => arow nL a (k * nw + iw)) (seq 0 nT))) (seq 0 nw).
(* spectra.py:276-293 *)
Definition report_RIXS (nIn nOut : nat) (gs : garr4 F) : res (list (output F)) :=
  let nw := length (m_wIn ms) in
  let obs := neg_imag4 (length es) nIn nOut nw gs in
  do a <- thermal_average fexp k_B es obs T;
  do data <- write_rixs f32 (m_wIn ms) (m_wLoss ms) (sum_axis01 (nIn * nOut) nw (length (m_wLoss ms)) a);
  let shape := [nIn; nOut; nw; length (m_wLoss ms)] in
  Ok [H5 "RIXS" (length es :: shape) (map re (concat obs)); H5 "RIXSthermal" shape (map re a); Bin "RIXS.bin" data].
(* spectra.py:257-296 *)
Definition part_RIXS : list (res (list (output F))) :=
  with_ops (do tIn <- getDipoleOperators fsqrt pi gaunt nb (m_epsilonsRIXSin ms);
            do tOut <- getDaggeredDipoleOperators fsqrt pi gaunt nb (m_epsilonsRIXSout ms); Ok (tIn, tOut)) (fun ops =>
    map (fun r => do gs <- r; report_RIXS (length (fst ops)) (length (snd ops)) gs)
      (getRIXSmap fsqrt bicgstab fuel n hOp (m_wIn ms) (m_wLoss ms) delta deltaRIXS (Some rs) krylovSize slaterWeightMin
         (fst ops) (snd ops) psis es (ord 5) (repeat [] ranks) RHBuildwIn)).

(* spectra.py:36-299 *)
Definition simulate_spectra : outcome F :=
  stage part_PS (stage part_XPS (stage part_NIXS (stage part_XAS (last_stage part_RIXS)))).
End Spectra.

(* ---- printed expectation values ---- *)
(* finite.py:121-148 on rank 0, n=None: rows E-E0, N, occupations, Lz, Sz, L^2, S^2 *)
Definition printExpValues (nBaths : nbaths_t) (es : list F) (psis : list (psi_t F)) : res (list (list (cx F))) :=
  do e0 <- nth_res es 0;
  map_res (fun ep => let psi := snd ep in
    do oc <- getEgT2gOccupation fsqrt nBaths psi;
    do aN <- getTraceDensityMatrix nBaths psi 2;
    do o0 <- nth_res oc 0; do o1 <- nth_res oc 1; do o2 <- nth_res oc 2; do o3 <- nth_res oc 3;
    do lz <- getLz3d nBaths psi;
    do sz <- getSz3d nBaths psi;
    do l2 <- getLsqr3d fsqrt nBaths psi;
    do s2 <- getSsqr3d nBaths psi;
    Ok (creal (fst ep) :: creal aN :: map as_complex [o0; o1; o2; o3] ++ map creal [lz; sz; l2; s2]))
    (combine (map (fun e => e - e0) es) psis).
(* what printThermalExpValues computes on the other ranks: the occupations (finite.py:158-163) *)
Definition thermal_occupations (nBaths : nbaths_t) (es : list F) (psis : list (psi_t F)) (T cutOff : F) : res unit :=
  do e0 <- nth_res es 0;
  let e := map (fun x => x - e0) es in
  let mask := map (fun x => x <? cutOff * k_B * T) e in
  if negb (Nat.eqb (length psis) (length mask)) then Err IndexError else
  do oc <- map_res (fun psi => do o <- getEgT2gOccupation fsqrt nBaths psi; Ok (map as_complex o)) (masked mask psis);
  do _ <- thermal_average fexp k_B (masked mask e) oc T;
  Ok tt.
(* get_spectra.py:216-232: sorted by weight; nPrintSlaterWeights of them are printed if it is positive *)
Definition print_weights (nPrint : Z) (psis : list (psi_t F)) : res (list (list F * list pybytes)) :=
  map_res (fun psi : psi_t F =>
    let ws := map (fun sa => cabs2 (snd sa)) psi in
    let s := map strip_zeros (dkeys psi) in
    let j := argsort ws in
    do ws' <- descending j ws;
    do s' <- descending j s;
    Ok (if (0 <? nPrint)%Z then (slice_to ws' nPrint, slice_to s' nPrint) else ([], []))) psis.
(* get_spectra.py:235-252: the elements larger than tolPrintOccupation.  The complex absolute value is compared by squares. *)
Definition print_density (nBaths : nbaths_t) (tol : F) (psis : list (psi_t F)) : res (list (list (cubkey * cx F))) :=
  map_res (fun psi => do dm <- getDensityMatrixCubic fsqrt nBaths psi;
                      Ok (filter (fun en => (tol <? 0) || (tol * tol <? cabs2 (snd en))) dm)) psis.

(* ---- main ---- *)
Record args := mkArgs {
  a_ls : list Z; a_nBaths : list Z; a_nValBaths : list Z; a_n0imps : list Z; a_dnTols : list Z;
  a_dnValBaths : list Z; a_dnConBaths : list Z;
  a_Fdd : list F; a_Fpp : list F; a_Fpd : list F; a_Gpd : list F; a_xi_2p : F; a_xi_3d : F; a_ctc : F; a_hField : list F;
  a_nPsiMax : Z; a_nPrintSlaterWeights : Z; a_tolPrintOccupation : F; a_T : F; a_energy_cut : F;
  a_delta : F; a_deltaRIXS : F; a_deltaNIXS : F }.

(* OrderedDict(zip(ls, x)) *)
Definition ordered (ls x : list Z) : zdict := fold_left (fun d kv => dset d (fst kv) (snd kv)) (combine ls x) [].
(* np.linspace(a, b, num), num > 1 *)
Definition linspace (a b : F) (num : Z) : list F :=
  map (fun i => a + fofZ i * ((b - a) / fofZ (num - 1))) (zrange num).
(* get_spectra.py:93-113 *)
Definition main_meshes : meshes :=
  let xyz := [[1; 0; 0]; [0; 1; 0]; [0; 0; 1]] in
  let q x := let c := fofZ x * 1 / fsqrt (fofZ 3) in (c, c, c) in
  mkMeshes (linspace (fofZ (-25)) (fofZ 25) 3000) xyz (linspace (fofZ (-2)) (fofZ 12) 4000) (linspace (fofZ (-10)) (fofZ 20) 50)
    xyz xyz [q 2%Z; q 7%Z].

Definition hField3 (h : list F) : res (F * F * F) :=
  match h with [hx; hy; hz] => Ok (hx, hy, hz) | _ => Err ValueError end.      (* hx, hy, hz = hField *)

Record setup := mkSetup { su_n0imps : zdict; su_nBaths : zdict; su_rs : restrictions_t; su_hOp : op_t F; su_basis : list pybytes }.
(* get_spectra.py:80-90, 115-190: the part before eigensystem, the same on all ranks.  hamiltonian is
   get_hamiltonian_operator with the unpickled file or get_hamiltonian_operator_using_CF with the json file. *)
Definition main_setup (hamiltonian : nbaths_t -> nbaths_t -> ham_params -> res (op_t F)) (a : args) : res setup :=
  let nBaths := ordered (a_ls a) (a_nBaths a) in
  let nValBaths := ordered (a_ls a) (a_nValBaths a) in
  let n0imps := ordered (a_ls a) (a_n0imps a) in
  let dnTols := ordered (a_ls a) (a_dnTols a) in
  let dnValBaths := ordered (a_ls a) (a_dnValBaths a) in
  let dnConBaths := ordered (a_ls a) (a_dnConBaths a) in
  do rs <- excited_restrictions nBaths nValBaths dnValBaths dnConBaths dnTols n0imps;
  do h <- hField3 (a_hField a);
  let '(hx, hy, hz) := h in
  do hOp <- hamiltonian (nbaths_of nBaths) (nbaths_of nValBaths)
    (mkHP (a_Fdd a) (a_Fpp a) (a_Fpd a) (a_Gpd a) (a_xi_2p a) (a_xi_3d a) n0imps (a_ctc a) hx hy hz);
  do basis <- get_basis nBaths nValBaths dnValBaths dnConBaths dnTols n0imps;
  Ok (mkSetup n0imps nBaths rs hOp basis).

(* the output of consecutive steps on rank 0 *)
Fixpoint outputs (l : list (res (output F))) : list (output F) * res unit :=
  match l with
  | [] => ([], Ok tt)
  | Err e :: _ => ([], Err e)
  | Ok o :: l' => let '(os, r) := outputs l' in (o :: os, r)
  end.
(* h5f.create_dataset with a one-dimensional array *)
Definition H5_1d (name : string) (data : list F) : res (output F) := Ok (H5 name [length data] data).
(* get_spectra.py:205-296 on rank 0.  qsNIXS is a list of vectors with three components. *)
Definition rank0_prints (a : args) (ms : meshes) (radial : list (F * F)) (nb : nbaths_t) (es : list F) (psis : list (psi_t F)) : list (output F) * res unit :=
  outputs [ rmap PThermal (printThermalExpValues fsqrt fexp k_B nb es psis (fofZ 300) (fofZ 10));
            rmap PExpValues (printExpValues nb es psis);
            rmap PWeights (print_weights (a_nPrintSlaterWeights a) psis);
            rmap PDensity (print_density nb (a_tolPrintOccupation a) psis);
            H5_1d "E" es; H5_1d "w" (m_w ms); H5_1d "wIn" (m_wIn ms); H5_1d "wLoss" (m_wLoss ms);
            Ok (H5 "qsNIXS" [length (m_qsNIXS ms); 3%nat] (flat_map (fun q => let '(q0, q1, q2) := q in [q0; q1; q2]) (m_qsNIXS ms)));
            H5_1d "r" (map fst radial); H5_1d "RiNIXS" (map snd radial); H5_1d "RjNIXS" (map snd radial) ].

(* get_spectra.py:20-332.  radial: the contents of the radial file, mesh and R.  All ranks obtain the same es and psis from
   eigensystem (C55); simulate_spectra is called with those of rank 0. *)
Definition main (hamiltonian : nbaths_t -> nbaths_t -> ham_params -> res (op_t F)) (ms : meshes) (a : args) (radial : list (F * F)) : outcome F :=
  match main_setup hamiltonian a with
  | Err e => ([], repeat (Err e) ranks)
  | Ok su =>
    let nb := nbaths_of (su_nBaths su) in
    let outs := eigensystem eigh eigsh argsort ranks (n_spin_orbitals (su_nBaths su)) (su_hOp su) (su_basis su) (a_nPsiMax a) LanczosDiag slaterWeightMin in
    match outs with
    | Ok (es, psis) :: others =>
        if forallb is_ok others then
          let '(printed, r0) := rank0_prints a ms radial nb es psis in
          let rr := r0 :: map (fun _ => thermal_occupations nb es psis (fofZ 300) (fofZ 10)) others in
          if forallb is_ok rr then
            match low_energy es psis (a_energy_cut a * (k_B * a_T a)) with
            | Err e => (printed, repeat (Err e) ranks)
            | Ok (es', psis') =>
                let (files, ends) := simulate_spectra (su_nBaths su) (su_rs su) (su_hOp su) es' psis' (a_T a) (a_delta a) (a_deltaNIXS a) (a_deltaRIXS a) ms
                                       2 2 (map (fun rR => (fst rR, (creal (snd rR), creal (snd rR)))) radial) in
                (printed ++ files, ends)
            end
          else (printed, stopped rr)
        else ([], stopped outs)
    | _ => ([], stopped outs)
    end
  end.
(* get_spectra.py *)
Definition main_pickle (h0 : sop_t F) := main (fun nb _ hp => get_hamiltonian_operator fsqrt pi gaunt fint nb hp h0) main_meshes.
(* get_spectra_using_CF.py *)
Definition main_CF (parameters : dict string F) :=
  main (fun nb nv hp => get_hamiltonian_operator_using_CF fsqrt pi gaunt fint nb nv hp parameters Spherical) main_meshes.

(* ---- command line ---- *)
(* get_spectra.py:578-590 *)
Definition sanity_checks (a : args) : res unit :=
  do _ <- assert_that (Nat.eqb (length (a_ls a)) (length (a_nBaths a)));
  do _ <- assert_that (Nat.eqb (length (a_ls a)) (length (a_nValBaths a)));
  do _ <- assert_that (forallb (fun bv => snd bv <=? fst bv)%Z (combine (a_nBaths a) (a_nValBaths a)));
  do _ <- assert_that (forallb (fun ln => (snd ln <=? 2 * (2 * fst ln + 1)) && (0 <=? snd ln))%Z (combine (a_ls a) (a_n0imps a)));
  do _ <- assert_that (Nat.eqb (length (a_Fdd a)) 5);
  do _ <- assert_that (Nat.eqb (length (a_Fpp a)) 3);
  do _ <- assert_that (Nat.eqb (length (a_Fpd a)) 3);
  do _ <- assert_that (Nat.eqb (length (a_Gpd a)) 4);
  assert_that (Nat.eqb (length (a_hField a)) 3).
(* get_spectra_using_CF.py:795-798 *)
Definition sanity_checks_CF (a : args) : res unit :=
  do _ <- sanity_checks a;
  do l0 <- nth_res (a_ls a) 0;
  do _ <- assert_that (l0 =? 1)%Z;
  do l1 <- nth_res (a_ls a) 1;
  do _ <- assert_that (l1 =? 2)%Z;
  do nB <- nth_res (a_nBaths a) 1;
  do _ <- assert_that ((nB =? 10) || (nB =? 20))%Z;
  do nV <- nth_res (a_nValBaths a) 1;
  assert_that (nV =? 10)%Z.
(* the scripts: the checks run on every rank *)
Definition script (checks : res unit) (m : outcome F) : outcome F :=
  match checks with Ok _ => m | Err e => ([], repeat (Err e) ranks) end.
End Program.
