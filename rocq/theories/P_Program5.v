(* Property C74: RIXS.bin has thermal means of the Kramers-Heisenberg expression. *)
From Coq Require Import QArith Qcanon Permutation String Reals Lra.
From Verif Require Import M_Prelude M_Scalar M_PSR M_Ladder M_State M_Mpi M_Hamiltonian M_Lanczos M_Basis M_Average M_Expect M_Operators M_Spectra M_RIXS M_Main M_Program.
From Verif Require Import S_Fock S_Basis S_Expect S_Ops S_Ham S_Green S_Moments S_Thermal S_Main S_Spectra S_Program S_RIXS S_Spectrum S_RIXS2 S_Spectrum2 S_Spectrum3.
From Verif Require Import L_Scalar L_Ops L_Spectra L_RIXS4 L_Program9 X_Util X_Ops X_Main X_Program X_Reals X_Gauss P_Fock P_Spectra P_RIXS P_Program4.
Local Open Scope Z_scope.

(* ---- C74 ---- *)
(* every RIXS.bin of a run of the program, with any well-formed Hermitian Hamiltonian and any meshes *)
Theorem C74_main : forall (F : ofield) fsqrt fexp arccos fsin f32 k_B pi gaunt jn sph bicgstab eigh eigsh argsort fuel ord R hamiltonian ms (a : @args F) radial,
  run_input fsqrt fexp k_B fuel ord R a -> exact_solver bicgstab -> a_deltaRIXS a <> 0%F ->
  (forall nv hp h, let nb := nbaths_of (ordered (a_ls a) (a_nBaths a)) in hamiltonian nb nv hp = Ok h -> wf_op (n_orb nb) h /\ assert_hermitian h = Ok tt) ->
  forall f data, In (Bin f data) (fst (main fsqrt fexp arccos fsin f32 k_B pi gaunt jn sph bicgstab eigh eigsh argsort fuel ord R hamiltonian ms a radial)) ->
  exists su es psis, main_setup hamiltonian a = Ok su /\ run_states k_B eigh eigsh argsort R a su es psis /\
    bin_spec fsqrt fexp f32 k_B pi gaunt a ms su es psis f data.
Proof. exact (@main_bin). Qed.
(* get_spectra.py and get_spectra_using_CF.py, for which the Hamiltonian needs no hypothesis *)
Theorem C74_pickle : forall (F : ofield) fsqrt fexp arccos fsin f32 k_B pi gaunt jn sph bicgstab eigh eigsh argsort fuel ord R fint h0 (a : @args F) radial,
  run_input fsqrt fexp k_B fuel ord R a -> exact_solver bicgstab -> a_deltaRIXS a <> 0%F ->
  forall f data, In (Bin f data) (fst (main_pickle fsqrt fexp arccos fsin f32 k_B pi fint gaunt jn sph bicgstab eigh eigsh argsort fuel ord R h0 a radial)) ->
  exists su es psis, main_setup (fun nb _ hp => get_hamiltonian_operator fsqrt pi gaunt fint nb hp h0) a = Ok su /\ run_states k_B eigh eigsh argsort R a su es psis /\
    bin_spec fsqrt fexp f32 k_B pi gaunt a (main_meshes fsqrt) su es psis f data.
Proof. exact (@main_pickle_bin). Qed.
Theorem C74_CF : forall (F : ofield) fsqrt fexp arccos fsin f32 k_B pi gaunt jn sph bicgstab eigh eigsh argsort fuel ord R fint parameters (a : @args F) radial,
  run_input fsqrt fexp k_B fuel ord R a -> exact_solver bicgstab -> a_deltaRIXS a <> 0%F ->
  forall f data, In (Bin f data) (fst (main_CF fsqrt fexp arccos fsin f32 k_B pi fint gaunt jn sph bicgstab eigh eigsh argsort fuel ord R parameters a radial)) ->
  exists su es psis, main_setup (fun nb nv hp => get_hamiltonian_operator_using_CF fsqrt pi gaunt fint nb nv hp parameters Spherical) a = Ok su /\ run_states k_B eigh eigsh argsort R a su es psis /\
    bin_spec fsqrt fexp f32 k_B pi gaunt a (main_meshes fsqrt) su es psis f data.
Proof. exact (@main_CF_bin). Qed.
(* getRIXSmap for all thresholds and all modes *)
Theorem C74_getRIXSmap : forall (F : ofield) (fsqrt : F -> F) bicgstab n op rs h fuel wIns wLoss delta1 delta2 ks swm tOpsIn psis es op0,
  sqrt_laws fsqrt -> exact_solver bicgstab -> spectra_input n op rs (op0 :: tOpsIn) psis -> assert_hermitian op = Ok tt -> restricted_op n op rs h ->
  (2 ^ n < fuel)%nat -> delta1 <> 0%F -> delta2 <> 0%F ->
  forall ops (ord : nat -> nat -> nat -> set_order) hg pm r gs, (forall t i q l, Permutation (ord t i q l) l) ->
  Forall (hdict_exact n op rs) hg -> hg <> [] ->
  pm <> ROther -> (pm = RHBuild -> r = 0%nat /\ NoDup (flat_map dkeys hg)) ->
  nth_error (getRIXSmap fsqrt bicgstab fuel (Z.of_nat n) op wIns wLoss delta1 delta2 rs ks swm tOpsIn (op0 :: ops) psis es ord hg pm) r = Some (Ok gs) ->
  forall tIn iE tOpIn psi e iw wIn tOut, nth_error tOpsIn tIn = Some tOpIn -> nth_error psis iE = Some psi -> nth_error es iE = Some e -> nth_error wIns iw = Some wIn ->
    (tOut < S (length ops))%nat -> rixs_row n op rs h wLoss delta1 delta2 ks swm tOpIn op0 psi e wIn (gs iE tIn tOut iw).
Proof. exact (@rixs_cut). Qed.
(* the file, for all arrays of rows *)
Theorem C74_file : forall (F : ofield) (fexp f32 : F -> F), exp_laws fexp -> forall k_B es T ms nIn nOut (gs : nat -> nat -> nat -> nat -> list (cx F)) outs f data, (k_B * T)%F <> 0%F ->
  (forall a b c d, (c < nOut)%nat -> length (gs a b c d) = length (m_wLoss ms)) ->
  report_RIXS fexp f32 k_B es T ms nIn nOut gs = Ok outs -> In (Bin f data) outs ->
  f = "RIXS.bin"%string /\ mean_map fexp f32 (k_B * T)%F (m_wIn ms) (m_wLoss ms) es nIn nOut (fun i ti to w j => - im (nth j (gs i ti to w) c0))%F data.
Proof. exact (@report_bin). Qed.
Print Assumptions C74_main. Print Assumptions C74_pickle. Print Assumptions C74_CF. Print Assumptions C74_getRIXSmap. Print Assumptions C74_file.

Example C74_hypotheses : run_input (F := RF) sqrt exp (1%R : RF) (S (2 ^ 16)) (fun _ _ _ _ x => x) 3 r_args /\ exact_solver (@gauss RF) /\ a_deltaRIXS r_args <> 0%F.
Proof. split; [exact (proj1 C73_hypotheses)|]. split; [apply gauss_exact|]. change (1 <> 0)%R. lra. Qed.
(* the run of C65 writes the file: a header of 3 numbers and 2 rows of 3 *)
Example C74_run : flat_map (fun o => match o with Bin f data => [(f, length data)] | _ => [] end) (fst (x_main 2 (x_args (q 300 1)))) = [("RIXS.bin"%string, 9%nat)].
Proof. vm_compute. reflexivity. Qed.
(* the example of C60 with thresholds: the core-hole state has the weights 1/25 and 1/16 at the two incoming energies; a weight below the
   threshold gives zero *)
Definition cut_run (swm : QcF) (pm : rmode) : list (res (garr4 QcF)) :=
  getRIXSmap qsqrt gauss 5 2 rx_op [q 4 1; q 1 1] [q 1 1] (q 4 1) (q 1 1) None 4 swm [t_0] [t_out; t_1] [sp_psi] [q 0 1] (fun _ _ _ l => l) [[]; []] pm.
Example C74_cut : forallb (fun pm => forallb (fun r => vec_eqb (ent4 r 0 0 0 0) [qi 1 50 (-1) 50] && vec_eqb (ent4 r 0 0 0 1) [qi 1 32 (-1) 32]) (cut_run (q 1 30) pm) &&
    forallb (fun r => vec_eqb (ent4 r 0 0 0 0) [qr 0 1] && vec_eqb (ent4 r 0 0 0 1) [qi 1 32 (-1) 32]) (cut_run (q 1 20) pm) && Nat.eqb (length (cut_run (q 1 20) pm)) 2)
  [RSerial; RHBuild; RwIn; RHBuildwIn] = true.
Proof. vm_compute. reflexivity. Qed.
(* two states of equal energy, one incoming and two outgoing operators, two incoming energies and two energy losses *)
Example C74_file_ex : match report_RIXS (F := QcF) (fun _ => q 1 1) (fun x => x) (q 1 1) [q 1 1; q 1 1] (q 1 1) x_meshes 1 2
    (fun i _ b w => map (fun j => qi 7 1 (- (8 * Z.of_nat i + 4 * Z.of_nat b + 2 * Z.of_nat w + j)) 1) [0; 1]) with
  | Ok [_; _; Bin f data] => String.eqb f "RIXS.bin" && forallb (fun p => feqb (fst p) (snd p)) (combine data [q 2 1; q 1 2; q 3 2; q 0 1; q 12 1; q 16 1; q 1 1; q 14 1; q 18 1]) && Nat.eqb (length data) 9
  | _ => false end = true.
Proof. vm_compute. reflexivity. Qed.
