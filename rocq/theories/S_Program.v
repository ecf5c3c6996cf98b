(* Specification of the output of the program: the list of outputs and the format and sign of the written spectra. *)
From Coq Require Import String Permutation Sorted.
From Verif Require Import M_Prelude M_Scalar M_PSR M_State M_Program S_Thermal.
Local Open Scope string_scope.

Section Output.
Context {F : ofield}.
Local Open Scope of_scope.

(* the names of the outputs and their order in a complete run *)
Definition label (o : output F) : string :=
  match o with
  | PThermal _ => "thermal averages" | PExpValues _ => "expectation values" | PWeights _ => "product states" | PDensity _ => "density matrices"
  | H5 name _ _ => name | Text name _ => name | Bin name _ => name
  end.
Definition complete_run : list string :=
  [ "thermal averages"; "expectation values"; "product states"; "density matrices"; "E"; "w"; "wIn"; "wLoss"; "qsNIXS"; "r"; "RiNIXS"; "RjNIXS";
    "PS"; "PSthermal"; "PS.dat"; "XPS"; "XPSthermal"; "XPS.dat"; "NIXS"; "NIXSthermal"; "NIXS.dat";
    "XAS"; "XASthermal"; "XAS.dat"; "RIXS"; "RIXSthermal"; "RIXS.bin" ].

Definition intensity (x : F) : Prop := 0 <= x.
(* A text file: the mesh, the sum over the transition operators, and one column for each of the nT operators *)
Definition spectrum_file (mesh : list F) (nT : nat) (cols : list (list F)) : Prop :=
  exists total parts, cols = mesh :: total :: parts /\ length parts = nT /\
    Forall (fun c => length c = length mesh /\ Forall intensity c) (total :: parts) /\
    forall k, nth k total 0 = ftotal (map (fun c => nth k c 0) parts).
(* RIXS.bin: a header with the number of incoming energies and their values, then for every energy loss one row
   of intensities *)
Definition rixs_file (f32 : F -> F) (wIn wLoss : list F) (data : list F) : Prop :=
  exists rows, length rows = length wLoss /\ Forall (fun r => length r = length wIn /\ Forall intensity r) rows /\
    data = concat ((f32 (fofZ (Z.of_nat (length wIn))) :: map f32 wIn) :: map (fun xr => f32 (fst xr) :: snd xr) (combine wLoss rows)).
(* mesh and number of columns of the text files *)
Definition text_format (ms : @meshes F) (name : string) : option (list F * nat) :=
  if name =? "PS.dat" then Some (m_w ms, 10%nat) else
  if name =? "XPS.dat" then Some (m_w ms, 6%nat) else
  if name =? "NIXS.dat" then Some (m_wLoss ms, length (m_qsNIXS ms)) else
  if name =? "XAS.dat" then Some (m_w ms, length (m_epsilons ms)) else None.
Definition spectral : list string := [ "PS"; "PSthermal"; "XPS"; "XPSthermal"; "NIXS"; "NIXSthermal"; "XAS"; "XASthermal"; "RIXS"; "RIXSthermal" ].
(* shape of the arrays of spectra of nE eigenstates and of the thermal averages *)
Definition spectral_shape (ms : @meshes F) (nE : nat) (name : string) : option (list nat) :=
  let shape (dims : list nat) := if existsb (String.eqb name) ["PS"; "XPS"; "NIXS"; "XAS"; "RIXS"] then Some (nE :: dims) else Some dims in
  if existsb (String.eqb name) ["PS"; "PSthermal"] then shape [10%nat; length (m_w ms)] else
  if existsb (String.eqb name) ["XPS"; "XPSthermal"] then shape [6%nat; length (m_w ms)] else
  if existsb (String.eqb name) ["NIXS"; "NIXSthermal"] then shape [length (m_qsNIXS ms); length (m_wLoss ms)] else
  if existsb (String.eqb name) ["XAS"; "XASthermal"] then shape [length (m_epsilons ms); length (m_w ms)] else
  if existsb (String.eqb name) ["RIXS"; "RIXSthermal"] then
    shape [length (m_epsilonsRIXSin ms); length (m_epsilonsRIXSout ms); length (m_wIn ms); length (m_wLoss ms)] else None.
Definition mesh_of (ms : @meshes F) (name : string) : option (list F) :=
  if name =? "w" then Some (m_w ms) else if name =? "wIn" then Some (m_wIn ms) else if name =? "wLoss" then Some (m_wLoss ms) else None.
Definition well_formed_output (f32 : F -> F) (ms : meshes) (o : output F) : Prop :=
  match o with
  | Text name cols => exists mesh nT, text_format ms name = Some (mesh, nT) /\ spectrum_file mesh nT cols
  | Bin name data => name = "RIXS.bin" /\ rixs_file f32 (m_wIn ms) (m_wLoss ms) data
  | H5 name shape data =>
      length data = fold_right Nat.mul 1%nat shape /\
      (In name spectral -> Forall intensity data /\ exists nE, spectral_shape ms nE name = Some shape) /\
      (forall mesh, mesh_of ms name = Some mesh -> data = mesh)
  | _ => True
  end.
End Output.

(* ---- the printed product states ---- *)
(* the weights in descending order with their product states, trailing zero bytes omitted *)
Section Weights.
Context {F : ofield}.
Local Open Scope of_scope.
Definition largest_weights (k : nat) (psi : psi_t F) (ws : list F) (ss : list pybytes) : Prop :=
  exists psi', Permutation psi' psi /\ StronglySorted (fun x y => y <= x) (map (fun sa => cabs2 (snd sa)) psi') /\
    ws = firstn k (map (fun sa => cabs2 (snd sa)) psi') /\
    Forall2 (fun s b => exists z, b = (s ++ repeat 0%N z)%list) ss (firstn k (map fst psi')).
End Weights.

(* ---- sound parameters ---- *)
(* the parameters of the i-th shell: l, number of bath states, of valence bath states, initial occupation, deviations of the impurity,
   the valence bath and the conduction bath.  All admitted numbers of moved electrons fit. *)
Definition sound_shell (l nB nV n0 tol dv dc : Z) : Prop :=
  (0 <= l /\ 0 <= nV <= nB /\
  forall mv mc, 0 <= mv <= dv -> 0 <= mc <= dc -> Z.abs (mv - mc) <= tol -> mv <= nV /\ mc <= nB - nV /\ 0 <= n0 + mv - mc <= 2 * (2 * l + 1))%Z.
Definition sound_args {F : ofield} (a : @args F) : Prop :=
  NoDup (a_ls a) /\ In 2%Z (a_ls a) /\ length (a_hField a) = 3%nat /\
  Forall (fun x => length x = length (a_ls a)) [a_nBaths a; a_nValBaths a; a_n0imps a; a_dnTols a; a_dnValBaths a; a_dnConBaths a] /\
  forall i l nB nV n0 tol dv dc, nth_error (a_ls a) i = Some l -> nth_error (a_nBaths a) i = Some nB -> nth_error (a_nValBaths a) i = Some nV ->
    nth_error (a_n0imps a) i = Some n0 -> nth_error (a_dnTols a) i = Some tol -> nth_error (a_dnValBaths a) i = Some dv -> nth_error (a_dnConBaths a) i = Some dc ->
    sound_shell l nB nV n0 tol dv dc.

(* ---- two runs ---- *)
(* the same output; rank 0 completes in both runs or in none; if it completes, all ranks complete *)
Definition same_run {F : ofield} (o o' : outcome F) : Prop :=
  fst o = fst o' /\ (hd_error (snd o) = Some (Ok tt) <-> hd_error (snd o') = Some (Ok tt)) /\
  (hd_error (snd o) = Some (Ok tt) -> Forall (eq (Ok tt)) (snd o) /\ Forall (eq (Ok tt)) (snd o')).

(* ---- waiting for ever ---- *)
(* if some rank waits for ever, another rank has ended with an exception *)
Definition explained {A} (ends : list (res A)) : Prop :=
  In (Err Deadlock) ends -> exists e, e <> Deadlock /\ In (Err e) ends.
(* All ranks end without an exception, or none does. *)
Definition all_or_none {A} (ends : list (res A)) : Prop := (forall r, In r ends -> exists a, r = Ok a) \/ (forall r, In r ends -> exists e, r = Err e).
