(* Properties of the unit of energy: C92. *)
From Coq Require Import String QArith Qcanon Reals Permutation Lra.
From Verif Require Import M_Prelude M_Scalar M_PSR M_Ladder M_State M_Mpi M_Hamiltonian M_Basis M_Expect M_Operators M_Lanczos M_Average M_Main M_Spectra M_Simulate M_RIXS M_Program.
From Verif Require Import S_Fock S_Ops S_Ham S_Green S_Thermal S_Spectra S_Basis S_Expect S_Operators S_Symmetry S_TimeReversal S_RIXS S_Units.
From Verif Require Import L_Scalar L_Sum L_Fock L_State L_Ops L_Ham L_Shift4 L_Units L_Units2 L_Units3 L_Units4 X_Util X_Reals X_Ops X_Symmetry P_Fock P_Green P_Spectra P_Operators P_Shift.
From Verif Require S_Dict.
Local Open Scope Z_scope.
Local Notation length := Datatypes.length.

(* ---- C92: energies in another unit give the same spectra; x is the number of new units in one old unit ---- *)
(* All parameters in the new unit give the Hamiltonian in the new unit, or the same error: with the pickled h0, with the crystal field, and with the json file of a complete crystal field. *)
Theorem C92_hamiltonian : forall (F : ofield) (x : F), x <> 0%F -> forall (fsqrt : F -> F) pi gaunt fint nb hp (h0 : sop_t F),
  get_hamiltonian_operator fsqrt pi gaunt fint nb (params_in x hp) (op_in_unit x h0) = rmap (fun op : op_t F => op_in_unit x op) (get_hamiltonian_operator fsqrt pi gaunt fint nb hp h0).
Proof. exact (@pickle_unit). Qed.
Theorem C92_crystal_field : forall (F : ofield) (x : F), x <> 0%F -> forall (fsqrt : F -> F) nb nv p basis,
  get_CF_hamiltonian fsqrt nb nv (cf_in x p) basis = rmap (fun op : sop_t F => op_in_unit x op) (get_CF_hamiltonian fsqrt nb nv p basis).
Proof. exact (@CF_unit). Qed.
Theorem C92_hamiltonian_CF : forall (F : ofield) (x : F), (0 < x)%F -> forall (fsqrt : F -> F) pi gaunt fint nb nv hp (parameters : dict string F) basis, complete_file parameters ->
  get_hamiltonian_operator_using_CF fsqrt pi gaunt fint nb nv (params_in x hp) (file_in x parameters) basis =
  rmap (fun op : op_t F => op_in_unit x op) (get_hamiltonian_operator_using_CF fsqrt pi gaunt fint nb nv hp parameters basis).
Proof. exact (@CF_program_unit). Qed.
(* An entry that is missing in the json file is replaced by a number of electron volts, whatever the unit of the others is. *)
Theorem C92_incomplete_file_refuted : exists (F : ofield) (x : F) (parameters : dict string F), (0 < x)%F /\ parameters <> [] /\ read_h0_CF_file (file_in x parameters) <> cf_in x (read_h0_CF_file parameters).
Proof.
  exists QcF, (q 2 1 : QcF), [("e_imp"%string, q 1 1 : QcF)]. split; [reflexivity|]. split; [discriminate|]. intros C. apply (f_equal (fun p => feqb (e_con_eg p) (q 6 1))) in C. vm_compute in C. discriminate.
Qed.
(* The Hamiltonian in the new unit has the same Hermiticity and is, element by element, the one in the old unit; ... *)
Theorem C92_same : forall (F : ofield) (x : F), (0 < x)%F -> forall n (op : op_t F), wf_op n op -> assert_hermitian op = Ok tt -> S_Dict.no_small n op -> S_Dict.no_small n (op_in_unit x op) -> same_hamiltonian x n op (op_in_unit x op).
Proof. exact (@unit_same). Qed.
(* ... it has the same eigenstates, ... *)
Theorem C92_eigen : forall (F : ofield) n (x : F) (op op' : op_t F) e v, same_hamiltonian x n op op' -> eigenvector n op e v -> eigenvector n op' (x * e)%F v.
Proof. exact (@eigen_unit). Qed.
(* ... the same of them are kept by the cut in energy, ... *)
Theorem C92_selection : forall (F : ofield) (x : F), (0 < x)%F -> forall es (psis : list (psi_t F)) cut,
  low_energy (energies_in x es) psis (x * cut)%F = rmap (fun r => (energies_in x (fst r), snd r)) (low_energy es psis cut).
Proof. exact (@low_unit). Qed.
(* ... thermal averages are the same, and of the printed ones only the energy changes. *)
Theorem C92_average : forall (F : ofield) (x : F), (0 < x)%F -> forall (fexp : F -> F) k_B es obs T, (k_B * T)%F <> 0%F ->
  thermal_average fexp (x * k_B)%F (energies_in x es) obs T = thermal_average fexp k_B es obs T.
Proof. exact (@avg_unit). Qed.
Theorem C92_printed : forall (F : ofield) (x : F), (0 < x)%F -> forall (fsqrt fexp : F -> F) k_B nb es (psis : list (psi_t F)) T cutOff, (k_B * T)%F <> 0%F ->
  printThermalExpValues fsqrt fexp (x * k_B)%F nb (energies_in x es) psis T cutOff = rmap (first_in x) (printThermalExpValues fsqrt fexp k_B nb es psis T cutOff).
Proof. exact (@print_unit). Qed.
(* Green's functions are inverse energies: what getSpectra returns is divided by x, ... *)
Theorem C92_spectra : forall (F : ofield) (fsqrt : F -> F), sqrt_laws fsqrt -> forall n x (op op' : op_t F) rs fuel ks swm es psis, x <> 0%F -> same_hamiltonian x n op op' ->
  wf_restr rs -> (2 ^ n < fuel)%nat -> Z.of_nat (2 ^ n) <= ks -> (swm <= 0)%F -> Forall (valid_psi n) psis -> length psis = length es -> forall ord ord' R R' d tOps wl g rest g' rest',
  (forall t i q l, Permutation (ord t i q l) l) -> (forall t i q l, Permutation (ord' t i q l) l) -> (1 <= R)%nat -> (1 <= R')%nat -> d <> 0%F -> Forall (wf_op n) tOps ->
  getSpectra fsqrt fuel (Z.of_nat n) op wl d rs ks swm ord R tOps psis es SHBuild = Ok g :: rest ->
  getSpectra fsqrt fuel (Z.of_nat n) op' (energies_in x wl) (x * d)%F rs ks swm ord' R' tOps psis (energies_in x es) SHBuild = Ok g' :: rest' ->
  forall i t, (i < length es)%nat -> (t < length tOps)%nat -> g' i t = map (fun v => v / creal x)%C (g i t).
Proof. exact (@spectra_unit). Qed.
(* ... and so are the intensities in XAS.dat and NIXS.dat, XPS.dat, PS.dat. *)
Theorem C92_absorption : forall (F : ofield) (fsqrt fexp : F -> F), sqrt_laws fsqrt -> exp_laws fexp -> forall n x (op op' : op_t F) rs fuel ks swm es psis, x <> 0%F -> same_hamiltonian x n op op' ->
  wf_restr rs -> (2 ^ n < fuel)%nat -> Z.of_nat (2 ^ n) <= ks -> (swm <= 0)%F -> Forall (valid_psi n) psis -> length psis = length es ->
  forall k_B T k_B' T', (k_B * T)%F <> 0%F -> (k_B' * T')%F = (x * (k_B * T))%F -> forall ord ord' R R',
  (forall t i q l, Permutation (ord t i q l) l) -> (forall t i q l, Permutation (ord' t i q l) l) -> (1 <= R)%nat -> (1 <= R')%nat ->
  forall d tOps wl cols rest cols' rest', d <> 0%F -> Forall (wf_op n) tOps ->
  absorption fsqrt fexp k_B fuel (Z.of_nat n) op rs ks swm ord R psis es T wl d tOps = Ok cols :: rest ->
  absorption fsqrt fexp k_B' fuel (Z.of_nat n) op' rs ks swm ord' R' psis (energies_in x es) T' (energies_in x wl) (x * d)%F tOps = Ok cols' :: rest' ->
  exists data, cols = wl :: data /\ cols' = energies_in x wl :: map (map (fun v => v / x)%F) data.
Proof. exact (@absorption_units). Qed.
Theorem C92_emission : forall (F : ofield) (fsqrt fexp : F -> F), sqrt_laws fsqrt -> exp_laws fexp -> forall n x (op op' : op_t F) rs fuel ks swm es psis, x <> 0%F -> same_hamiltonian x n op op' ->
  wf_restr rs -> (2 ^ n < fuel)%nat -> Z.of_nat (2 ^ n) <= ks -> (swm <= 0)%F -> Forall (valid_psi n) psis -> length psis = length es ->
  forall k_B T k_B' T', (k_B * T)%F <> 0%F -> (k_B' * T')%F = (x * (k_B * T))%F -> forall ord ord' R R',
  (forall t i q l, Permutation (ord t i q l) l) -> (forall t i q l, Permutation (ord' t i q l) l) -> (1 <= R)%nat -> (1 <= R')%nat ->
  forall d tOps wl cols rest cols' rest', d <> 0%F -> Forall (wf_op n) tOps ->
  emission fsqrt fexp k_B fuel (Z.of_nat n) op rs ks swm ord R psis es T wl d tOps = Ok cols :: rest ->
  emission fsqrt fexp k_B' fuel (Z.of_nat n) op' rs ks swm ord' R' psis (energies_in x es) T' (energies_in x wl) (x * d)%F tOps = Ok cols' :: rest' ->
  exists data, cols = wl :: data /\ cols' = energies_in x wl :: map (map (fun v => v / x)%F) data.
Proof. exact (@emission_units). Qed.
Theorem C92_photoemission : forall (F : ofield) (fsqrt fexp : F -> F), sqrt_laws fsqrt -> exp_laws fexp -> forall n x (op op' : op_t F) rs fuel ks swm es psis, x <> 0%F -> same_hamiltonian x n op op' ->
  wf_restr rs -> (2 ^ n < fuel)%nat -> Z.of_nat (2 ^ n) <= ks -> (swm <= 0)%F -> Forall (valid_psi n) psis -> length psis = length es ->
  forall k_B T k_B' T', (k_B * T)%F <> 0%F -> (k_B' * T')%F = (x * (k_B * T))%F -> forall ord ord' R R',
  (forall t i q l, Permutation (ord t i q l) l) -> (forall t i q l, Permutation (ord' t i q l) l) -> (1 <= R)%nat -> (1 <= R')%nat ->
  forall d ps ips wl cols rest cols' rest', d <> 0%F -> Forall (wf_op n) ps -> Forall (wf_op n) ips ->
  photoemission fsqrt fexp k_B fuel (Z.of_nat n) op rs ks swm ord R psis es T wl d ps ips = Ok cols :: rest ->
  photoemission fsqrt fexp k_B' fuel (Z.of_nat n) op' rs ks swm ord' R' psis (energies_in x es) T' (energies_in x wl) (x * d)%F ps ips = Ok cols' :: rest' ->
  exists data, cols = wl :: data /\ cols' = energies_in x wl :: map (map (fun v => v / x)%F) data.
Proof. exact (@photoemission_units). Qed.
(* The RIXS map has three resolvents and is divided by the third power of x. *)
Theorem C92_RIXS : forall (F : ofield) (fsqrt : F -> F), sqrt_laws fsqrt -> forall n x (op op' : op_t F) rs fuel ks swm es psis, x <> 0%F -> same_hamiltonian x n op op' ->
  wf_restr rs -> (2 ^ n < fuel)%nat -> Z.of_nat (2 ^ n) <= ks -> (swm <= 0)%F -> Forall (valid_psi n) psis -> length psis = length es ->
  forall bicgstab delta1 delta2 tOpsIn op0 ops wIn wLoss (od od' : nat -> nat -> nat -> set_order) hg hg' pm pm' r r' gs gs',
  exact_solver bicgstab -> Forall (wf_op n) (op0 :: tOpsIn) -> delta1 <> 0%F -> delta2 <> 0%F ->
  (forall t i q l, Permutation (od t i q l) l) -> (forall t i q l, Permutation (od' t i q l) l) ->
  Forall (hdict_exact n op rs) hg -> hg <> [] -> Forall (hdict_exact n op' rs) hg' -> hg' <> [] -> pm <> ROther -> pm' <> ROther ->
  (pm = RHBuild -> r = 0%nat /\ NoDup (flat_map dkeys hg)) -> (pm' = RHBuild -> r' = 0%nat /\ NoDup (flat_map dkeys hg')) ->
  nth_error (getRIXSmap fsqrt bicgstab fuel (Z.of_nat n) op wIn wLoss delta1 delta2 rs ks swm tOpsIn (op0 :: ops) psis es od hg pm) r = Some (Ok gs) ->
  nth_error (getRIXSmap fsqrt bicgstab fuel (Z.of_nat n) op' (energies_in x wIn) (energies_in x wLoss) (x * delta1)%F (x * delta2)%F rs ks swm tOpsIn (op0 :: ops) psis (energies_in x es) od' hg' pm') r' = Some (Ok gs') ->
  forall i t o k, (i < length es)%nat -> (t < length tOpsIn)%nat -> (o < S (length ops))%nat -> (k < length wIn)%nat -> gs' i t o k = map (fun v => v / (creal x * creal x * creal x))%C (gs i t o k).
Proof. exact (@RIXS_units). Qed.
Print Assumptions C92_hamiltonian.
Print Assumptions C92_crystal_field.
Print Assumptions C92_hamiltonian_CF.
Print Assumptions C92_incomplete_file_refuted.
Print Assumptions C92_same.
Print Assumptions C92_eigen.
Print Assumptions C92_selection.
Print Assumptions C92_average.
Print Assumptions C92_printed.
Print Assumptions C92_spectra.
Print Assumptions C92_absorption.
Print Assumptions C92_emission.
Print Assumptions C92_photoemission.
Print Assumptions C92_RIXS.

(* ---- examples ---- *)
(* two levels with a hopping between them, in a unit of which there are three in the old one *)
Example C92_hypotheses : (0 < (3%R : RF))%F /\ same_hamiltonian (3%R : RF) 2 (@hop_op RF) (op_in_unit (3%R : RF) hop_op) /\ Forall (wf_op 2) [@t_in RF] /\ wf_op 2 (@t_out RF) /\
  Forall (valid_psi 2) [@hop_psi RF; hop_psi] /\ ((1%R : RF) * 2%R)%F <> 0%F /\ ((3%R : RF) * (2%R : RF))%F = (3 * (1 * 2))%R /\ energies_in (3%R : RF) [0%R : RF; 2%R : RF] = [0%R; 6%R].
Proof.
  assert (P3 : (0 < (3%R : RF))%F) by (apply rltb_true; simpl; lra).
  assert (W : wf_op 2 (@hop_op RF)) by wf_op_ex. assert (HH : assert_hermitian (@hop_op RF) = Ok tt) by (destruct (@C36_spectra_input RF) as (_ & X & _); exact X).
  assert (I1 : forall t s, exists z, opelem (@hop_op RF) t s = cofZ z) by (intros t s; apply int_elem; repeat constructor; exists 1; reflexivity).
  split; [exact P3|]. split.
  { apply C92_same; auto; [apply int_no_small; auto|]. apply int_no_small. intros t s. rewrite elem_unit. destruct (I1 t s) as (z & ->). exists (3 * z). rewrite cofZ_mul. apply (f_equal2 cmul); [unfold cofZ; f_equal; rewrite RofZ; reflexivity|reflexivity]. }
  split; [apply Forall_cons; [wf_op_ex|apply Forall_nil]|]. split; [wf_op_ex|]. split; [apply Forall_cons; [valid_ex|apply Forall_cons; [valid_ex|apply Forall_nil]]|].
  split; [change (1 * 2 <> 0)%R; lra|]. split; [change (3 * 2 = 3 * (1 * 2))%R; lra|]. unfold energies_in. cbn [map]. change ([(3 * 0)%R; (3 * 2)%R] = [0%R; 6%R]). f_equal; [lra|]. f_equal. lra.
Qed.
(* the Hamiltonian of the program, and the selection of two of three states *)
Definition full_file : dict string QcF := map (fun k => (k, q 1 2 : QcF)) ["e_imp"; "e_deltaO_imp"; "e_val_eg"; "e_val_t2g"; "e_con_eg"; "e_con_t2g"; "v_val_eg"; "v_val_t2g"; "v_con_eg"; "v_con_t2g"]%string.
Example C92_program_ex : complete_file full_file /\ (q 2 1 : QcF) <> 0%F /\
  match get_hamiltonian_operator qsqrt (q 22 7) toy_gaunt qint (pd_baths 0) sh_hp sh_h0 with Ok op => length op = 18%nat /\ negb (forallb (fun kv => ceqb (snd kv) (creal (q 2 1) * snd kv)%C) op) = true | Err _ => False end /\
  match low_energy [q 0 1 : QcF; q 1 1; q 5 1] [[]; []; []] (q 2 1) with Ok r => length (fst r) = 2%nat | Err _ => False end.
Proof.
  split; [unfold complete_file; intros k Hk; exact Hk|]. split; [discriminate|]. split; vm_compute; auto.
Qed.
