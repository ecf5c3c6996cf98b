(* Property C73: the written spectra are thermal means of Green's functions. *)
From Coq Require Import QArith Qcanon Permutation String Reals Lra.
From Verif Require Import M_Prelude M_Scalar M_PSR M_Ladder M_State M_Mpi M_Hamiltonian M_Basis M_Average M_Expect M_Operators M_Main M_Program.
From Verif Require Import S_Fock S_Basis S_Expect S_Ham S_Green S_Thermal S_Main S_Program S_Spectrum S_Spectrum2 L_Scalar L_Program7 L_Program8 X_Util X_Ops X_Main X_Program X_Reals P_Moments.
Local Open Scope Z_scope.

(* ---- C73 ---- *)
(* every text file of a run of the program, with any well-formed Hermitian Hamiltonian and any meshes *)
Theorem C73_main : forall (F : ofield) fsqrt fexp arccos fsin f32 k_B pi gaunt jn sph bicgstab eigh eigsh argsort fuel ord R hamiltonian ms (a : @args F) radial,
  run_input fsqrt fexp k_B fuel ord R a ->
  (forall nv hp h, let nb := nbaths_of (ordered (a_ls a) (a_nBaths a)) in hamiltonian nb nv hp = Ok h -> wf_op (n_orb nb) h /\ assert_hermitian h = Ok tt) ->
  forall f cols, In (Text f cols) (fst (main fsqrt fexp arccos fsin f32 k_B pi gaunt jn sph bicgstab eigh eigsh argsort fuel ord R hamiltonian ms a radial)) ->
  exists su es psis, main_setup hamiltonian a = Ok su /\ run_states k_B eigh eigsh argsort R a su es psis /\
    text_spec fsqrt fexp arccos fsin k_B pi gaunt jn sph a ms radial su es psis f cols.
Proof. exact (@main_texts). Qed.
(* get_spectra.py and get_spectra_using_CF.py, for which the Hamiltonian needs no hypothesis *)
Theorem C73_pickle : forall (F : ofield) fsqrt fexp arccos fsin f32 k_B pi gaunt jn sph bicgstab eigh eigsh argsort fuel ord R fint h0 (a : @args F) radial,
  run_input fsqrt fexp k_B fuel ord R a ->
  forall f cols, In (Text f cols) (fst (main_pickle fsqrt fexp arccos fsin f32 k_B pi fint gaunt jn sph bicgstab eigh eigsh argsort fuel ord R h0 a radial)) ->
  exists su es psis, main_setup (fun nb _ hp => get_hamiltonian_operator fsqrt pi gaunt fint nb hp h0) a = Ok su /\ run_states k_B eigh eigsh argsort R a su es psis /\
    text_spec fsqrt fexp arccos fsin k_B pi gaunt jn sph a (main_meshes fsqrt) radial su es psis f cols.
Proof. exact (@main_pickle_texts). Qed.
Theorem C73_CF : forall (F : ofield) fsqrt fexp arccos fsin f32 k_B pi gaunt jn sph bicgstab eigh eigsh argsort fuel ord R fint parameters (a : @args F) radial,
  run_input fsqrt fexp k_B fuel ord R a ->
  forall f cols, In (Text f cols) (fst (main_CF fsqrt fexp arccos fsin f32 k_B pi fint gaunt jn sph bicgstab eigh eigsh argsort fuel ord R parameters a radial)) ->
  exists su es psis, main_setup (fun nb nv hp => get_hamiltonian_operator_using_CF fsqrt pi gaunt fint nb nv hp parameters Spherical) a = Ok su /\ run_states k_B eigh eigsh argsort R a su es psis /\
    text_spec fsqrt fexp arccos fsin k_B pi gaunt jn sph a (main_meshes fsqrt) radial su es psis f cols.
Proof. exact (@main_CF_texts). Qed.
(* the columns of one file: for all arrays of Green's functions *)
Theorem C73_columns : forall (F : ofield) (fexp : F -> F), exp_laws fexp -> forall k_B mesh es T nT (gs : nat -> nat -> list (cx F)) cols, (k_B * T)%F <> 0%F ->
  (forall i t, length (gs i t) = length mesh) -> M_Simulate.columns fexp k_B mesh es T nT gs = Ok cols ->
  mean_file fexp (k_B * T)%F mesh es nT (fun i t k => - im (nth k (gs i t) c0))%F cols.
Proof. exact (@columns_mean). Qed.
Print Assumptions C73_main. Print Assumptions C73_pickle. Print Assumptions C73_CF. Print Assumptions C73_columns.
(* the hypotheses hold for real numbers, 300 K and two shells *)
Definition r_zeros (n : nat) : list RF := repeat 0%F n.
Definition r_args : @args RF := mkArgs [1; 2] [0; 0] [0; 0] [6; 9] [0; 0] [0; 0] [0; 0] (r_zeros 5) (r_zeros 3) (r_zeros 3) (r_zeros 4) 0%F 0%F 0%F (r_zeros 3)
  2 3 1%F (300%R : RF) (10%R : RF) 1%F 1%F 1%F.
Example C73_hypotheses : run_input (F := RF) sqrt exp (1%R : RF) (S (2 ^ 16)) (fun _ _ _ _ x => x) 3 r_args /\
  exists h : op_t RF, h <> [] /\ wf_op (n_orb (nbaths_of (ordered (a_ls r_args) (a_nBaths r_args)))) h /\ assert_hermitian h = Ok tt.
Proof.
  assert (E1 : (1%F : RF) <> 0%F) by (change (1 <> 0)%R; lra). split.
  - split; [exact sqrt_laws_R|]. split; [exact exp_laws_R|]. split; [lia|]. split; [intros; apply Permutation_refl|]. split.
    { split; [apply nodupb_ok; reflexivity|]. split; [simpl; auto|]. split; [reflexivity|]. split; [repeat constructor|].
      intros i l nB nV n0 tol dv dc. destruct i as [|[|i]]; [| |destruct i; discriminate]; cbn; intros X1 X2 X3 X4 X5 X6 X7;
      injection X1 as <-; injection X2 as <-; injection X3 as <-; injection X4 as <-; injection X5 as <-; injection X6 as <-; injection X7 as <-; (split; [lia|]); (split; [lia|]); intros; lia. }
    split; [change (1 * 300 <> 0)%R; lra|]. split; [exact E1|]. split; [exact E1|]. change (n_orb _) with 16%nat. apply Nat.lt_succ_diag_r.
  - exists chain_op. split; [discriminate|]. split; [|exact (proj2 (proj2 C72_spectra_hypotheses))]. change (n_orb _) with 16%nat.
    split; [apply nodupb_ok; reflexivity|]. repeat constructor; simpl; auto; lia.
Qed.
(* the example of C65 writes all four files, and the Hamiltonian it uses meets the hypothesis *)
Example C73_run : flat_map (fun o => match o with Text f cols => [(f, length cols)] | _ => [] end) (fst (x_main 2 (x_args (q 300 1)))) =
  [("PS.dat"%string, 12%nat); ("XPS.dat"%string, 8%nat); ("NIXS.dat"%string, 3%nat); ("XAS.dat"%string, 3%nat)].
Proof. vm_compute. reflexivity. Qed.
Example C73_run_hamiltonian : forall nv hp h, let nb := nbaths_of (ordered (a_ls (x_args (q 300 1))) (a_nBaths (x_args (q 300 1)))) in x_hop nb nv hp = Ok h -> wf_op (n_orb nb) h /\ assert_hermitian h = Ok tt.
Proof.
  intros nv hp h nb E. injection E as <-. unfold nb. change (n_orb _) with 16%nat. split; [|vm_compute; reflexivity].
  split; [apply nodupb_ok; reflexivity|]. repeat constructor; simpl; auto; lia.
Qed.
(* two states of equal energy, two operators, two points *)
Example C73_columns_ex : match M_Simulate.columns (F := QcF) (fun _ => q 1 1) (q 1 1) [q 5 1; q 6 1] [q 1 1; q 1 1] (q 1 1) 2
    (fun i t => match i, t with O, O => [qi 0 1 (-1) 1; qi 0 1 (-2) 1] | O, _ => [qi 0 1 (-4) 1; qr 0 1] | _, O => [qi 7 1 (-3) 1; qr 0 1] | _, _ => [qr 0 1; qi 1 1 (-6) 1] end) with
  | Ok cols => forallb (fun p => forallb (fun p => feqb (fst p) (snd p)) (combine (fst p) (snd p))) (combine cols [[q 5 1; q 6 1]; [q 4 1; q 4 1]; [q 2 1; q 1 1]; [q 2 1; q 3 1]])
  | _ => false end = true.
Proof. vm_compute. reflexivity. Qed.
