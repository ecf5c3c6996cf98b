(* Model of the file data.npz: get_spectra.py:254-289, get_spectra_using_CF.py:254-289. *)
From Coq Require Import String.
From Verif Require Import M_Prelude M_Scalar M_PSR M_State M_Mpi M_Hamiltonian M_Basis M_Expect M_Operators M_Main M_Program.
Local Open Scope Z_scope.

Section Npz.
Context {F : ofield}.
Local Open Scope of_scope.
(* np.savez_compressed("data", ...): the arrays of the file in this order.  Dictionaries are stored as pickled objects.
   z_h0_filename is h0_CF_filename in get_spectra_using_CF.py. *)
Record npz := mkNpz {
  z_ls : list Z; z_nBaths : zdict; z_nValBaths : zdict; z_n0imps : zdict; z_dnTols : zdict; z_dnValBaths : zdict; z_dnConBaths : zdict;
  z_Fdd : list F; z_Fpp : list F; z_Fpd : list F; z_Gpd : list F; z_xi_2p : F; z_xi_3d : F; z_ctc : F; z_hField : list F; z_h0_filename : string;
  z_nPsiMax : Z; z_T : F; z_energy_cut : F; z_delta : F; z_restrictions : restrictions_t;
  z_epsilons : list (list F); z_epsilonsRIXSin : list (list F); z_epsilonsRIXSout : list (list F);
  z_deltaRIXS : F; z_deltaNIXS : F; z_n_spin_orbitals : Z; z_hOp : op_t F }.

Variables fsqrt fexp : F -> F.
Variable k_B : F.
Variable eigh : nat -> M_Hamiltonian.mat F -> res (list F * list (list (cx F))).
Variable eigsh : nat -> M_Hamiltonian.mat F -> Z -> res (list F * list (list (cx F))).
Variable argsort : list F -> list nat.
Variable ranks : nat.

(* the variables at get_spectra.py:254.  The dictionaries have replaced the lists (lines 80-90), energy_cut has been
   multiplied by k_B * T (line 94). *)
Definition saved (a : @args F) (ms : @meshes F) (su : @setup F) (h0_filename : string) : npz :=
  mkNpz (a_ls a) (ordered (a_ls a) (a_nBaths a)) (ordered (a_ls a) (a_nValBaths a)) (ordered (a_ls a) (a_n0imps a)) (ordered (a_ls a) (a_dnTols a))
    (ordered (a_ls a) (a_dnValBaths a)) (ordered (a_ls a) (a_dnConBaths a))
    (a_Fdd a) (a_Fpp a) (a_Fpd a) (a_Gpd a) (a_xi_2p a) (a_xi_3d a) (a_ctc a) (a_hField a) h0_filename
    (a_nPsiMax a) (a_T a) (a_energy_cut a * (k_B * a_T a)) (a_delta a) (su_rs su)
    (m_epsilons ms) (m_epsilonsRIXSin ms) (m_epsilonsRIXSout ms)
    (a_deltaRIXS a) (a_deltaNIXS a) (n_spin_orbitals (su_nBaths su)) (su_hOp su).
(* The file that a run writes: rank 0 has printed the expectation values, the product states and the density matrices (lines 190-252). *)
Definition data_npz (hamiltonian : nbaths_t -> nbaths_t -> ham_params -> res (op_t F)) (ms : meshes) (a : args) (h0_filename : string) : option npz :=
  match main_setup hamiltonian a with
  | Err _ => None
  | Ok su =>
    let nb := nbaths_of (su_nBaths su) in
    match eigensystem eigh eigsh argsort ranks (n_spin_orbitals (su_nBaths su)) (su_hOp su) (su_basis su) (a_nPsiMax a) LanczosDiag slaterWeightMin with
    | Ok (es, psis) :: others =>
        if forallb is_ok others && is_ok (printThermalExpValues fsqrt fexp k_B nb es psis (fofZ 300) (fofZ 10)) && is_ok (printExpValues fsqrt nb es psis)
           && is_ok (print_weights argsort (a_nPrintSlaterWeights a) psis) && is_ok (print_density fsqrt nb (a_tolPrintOccupation a) psis)
        then Some (saved a ms su h0_filename) else None
    | _ => None
    end
  end.
End Npz.
