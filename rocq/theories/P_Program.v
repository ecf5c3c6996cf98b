(* Properties C65 - C69: the output of the whole program. *)
From Coq Require Import QArith Qcanon Permutation Sorted String.
From Verif Require Import M_Prelude M_Scalar M_PSR M_Ladder M_State M_Mpi M_Hamiltonian M_Basis M_Average M_Expect M_Operators M_Main M_Program.
From Verif Require Import S_Fock S_Basis S_Thermal S_Main S_Program L_Scalar L_Program2 L_Program3 X_Util X_Ops X_Main X_Program.
Local Open Scope Z_scope.

(* ---- C65: the order of the outputs ---- *)
(* The outputs are an initial part of the list of all outputs, and the whole list exactly if rank 0 ends without an exception. *)
Theorem C65_order : forall (F : ofield) fsqrt fexp arccos fsin f32 k_B pi gaunt jn sph bicgstab eigh eigsh argsort fuel ord ranks hamiltonian (ms : @meshes F) a radial,
  exp_laws fexp -> (forall x : F, (0 <= x)%F -> (0 <= f32 x)%F) -> (1 <= ranks)%nat -> (0 < a_delta a)%F -> (0 < a_deltaNIXS a)%F -> (0 < a_deltaRIXS a)%F ->
  let oc := main fsqrt fexp arccos fsin f32 k_B pi gaunt jn sph bicgstab eigh eigsh argsort fuel ord ranks hamiltonian ms a radial in
  exists k, (k <= 27)%nat /\ map label (fst oc) = firstn k complete_run /\ (nth_error (snd oc) 0 = Some (Ok tt) <-> k = 27%nat).
Proof.
  exact (fun F fsqrt fexp arccos fsin f32 k_B pi gaunt jn sph bicgstab eigh eigsh argsort fuel ord ranks hamiltonian ms a radial HE Hf Hr Hd HdN HdR =>
    proj2 (main_struct fsqrt fexp arccos fsin f32 k_B pi gaunt jn sph bicgstab eigh eigsh argsort fuel ord ranks HE Hf Hr ms hamiltonian a radial Hd HdN HdR)).
Qed.
(* ---- C66: format and sign of everything that is written ---- *)
Theorem C66_written : forall (F : ofield) fsqrt fexp arccos fsin f32 k_B pi gaunt jn sph bicgstab eigh eigsh argsort fuel ord ranks hamiltonian (ms : @meshes F) a radial,
  exp_laws fexp -> (forall x : F, (0 <= x)%F -> (0 <= f32 x)%F) -> (1 <= ranks)%nat -> (0 < a_delta a)%F -> (0 < a_deltaNIXS a)%F -> (0 < a_deltaRIXS a)%F ->
  Forall (well_formed_output f32 ms) (fst (main fsqrt fexp arccos fsin f32 k_B pi gaunt jn sph bicgstab eigh eigsh argsort fuel ord ranks hamiltonian ms a radial)).
Proof.
  exact (fun F fsqrt fexp arccos fsin f32 k_B pi gaunt jn sph bicgstab eigh eigsh argsort fuel ord ranks hamiltonian ms a radial HE Hf Hr Hd HdN HdR =>
    proj1 (main_struct fsqrt fexp arccos fsin f32 k_B pi gaunt jn sph bicgstab eigh eigsh argsort fuel ord ranks HE Hf Hr ms hamiltonian a radial Hd HdN HdR)).
Qed.
Print Assumptions C65_order. Print Assumptions C66_written.
Lemma x_exp : @exp_laws QcF (fun _ => q 1 1).
Proof. split; [intros x; vm_compute; reflexivity|intros x y; apply Qc_is_canon; vm_compute; reflexivity]. Qed.
(* complete runs on one and on three ranks *)
Example C65_ex : @exp_laws QcF (fun _ => q 1 1) /\ (0 < a_delta (x_args (q 300 1)))%F /\
  map label (fst (x_main 1 (x_args (q 300 1)))) = complete_run /\ snd (x_main 1 (x_args (q 300 1))) = [Ok tt] /\
  map label (fst (x_main 3 (x_args (q 300 1)))) = complete_run /\ snd (x_main 3 (x_args (q 300 1))) = [Ok tt; Ok tt; Ok tt].
Proof. split; [apply x_exp|]. repeat (split; [vm_compute; reflexivity|]). vm_compute; reflexivity. Qed.
(* a missing magnetic field stops all ranks *)
Example C65_ex_stop : x_main 2 (mkArgs [1; 2] [0; 0] [0; 0] [6; 9] [0; 0] [0; 0] [0; 0] (zeros 5) (zeros 3) (zeros 3) (zeros 4) (q 0 1) (q 0 1) (q 0 1) [] 2 3 (q 1 2) (q 300 1) (q 10 1) (q 1 5) (q 1 5) (q 1 5)) =
  ([], [Err ValueError; Err ValueError]).
Proof. reflexivity. Qed.
(* XAS.dat of the example *)
Definition cols_is (o : output QcF) (name : string) (cols : list (list QcF)) : bool :=
  match o with Text n c => eqb n name && Nat.eqb (length c) (length cols) && forallb (fun xy => vec_eqb (map creal (fst xy)) (map creal (snd xy))) (combine c cols) | _ => false end.
Example C66_ex : existsb (fun o => cols_is o "XAS.dat" [[q 0 1; q 1 1]; [q 405 832; q 405 32]; [q 405 832; q 405 32]]) (fst (x_main 1 (x_args (q 300 1)))) = true /\
  existsb (fun o => match o with Bin n d => eqb n "RIXS.bin"%string && vec_eqb (map creal d) (map creal [q 2 1; q 1 2; q 3 2; q 0 1; q 32805 256; q 32805 256; q 1 1; q 32805 6656; q 32805 6656]) | _ => false end)
    (fst (x_main 1 (x_args (q 300 1)))) = true.
Proof. split; vm_compute; reflexivity. Qed.

(* ---- C67: the temperature of the printed averages ---- *)
(* No printed quantity depends on the argument T ... *)
Theorem C67_printed_T : forall (F : ofield) fsqrt fexp arccos fsin f32 k_B pi gaunt jn sph bicgstab eigh eigsh argsort fuel ord ranks hamiltonian (ms : @meshes F) a radial T,
  firstn 12 (fst (main fsqrt fexp arccos fsin f32 k_B pi gaunt jn sph bicgstab eigh eigsh argsort fuel ord ranks hamiltonian ms a radial)) =
  firstn 12 (fst (main fsqrt fexp arccos fsin f32 k_B pi gaunt jn sph bicgstab eigh eigsh argsort fuel ord ranks hamiltonian ms (with_T a T) radial)).
Proof. exact (@main_T). Qed.
(* ... the averages are those at 300 K *)
Theorem C67_at_300K : forall (F : ofield) fsqrt fexp arccos fsin f32 k_B pi gaunt jn sph bicgstab eigh eigsh argsort fuel ord ranks hamiltonian (ms : @meshes F) a radial su es psis others l,
  main_setup hamiltonian a = Ok su ->
  eigensystem eigh eigsh argsort ranks (n_spin_orbitals (su_nBaths su)) (su_hOp su) (su_basis su) (a_nPsiMax a) LanczosDiag slaterWeightMin = Ok (es, psis) :: others ->
  forallb is_ok others = true -> printThermalExpValues fsqrt fexp k_B (nbaths_of (su_nBaths su)) es psis (fofZ 300) (fofZ 10) = Ok l ->
  hd_error (fst (main fsqrt fexp arccos fsin f32 k_B pi gaunt jn sph bicgstab eigh eigsh argsort fuel ord ranks hamiltonian ms a radial)) = Some (PThermal l).
Proof. exact (@main_first). Qed.
(* The full property, that they are those at the temperature T, is false. *)
Definition ok_or {A} (d : A) (r : res A) : A := match r with Ok x => x | Err _ => d end.
Definition x_su : @setup QcF := ok_or (mkSetup [] [] [] [] []) (main_setup x_hop (x_args (q 1 1))).
Definition x_es : list QcF * list (psi_t QcF) :=
  ok_or ([], []) (hd (Err ValueError) (eigensystem (fun _ _ => Err ValueError) x_eigsh isort 1 (n_spin_orbitals (su_nBaths x_su)) (su_hOp x_su) (su_basis x_su) 2 LanczosDiag slaterWeightMin)).
Definition x_at_T : list (cx QcF) := ok_or [] (printThermalExpValues qsqrt (fun _ => q 1 1) (q 1 1000) (nbaths_of (su_nBaths x_su)) (fst x_es) (snd x_es) (q 1 1) (fofZ 10)).
Definition x_thermal (o : option (output QcF)) : list (cx QcF) := match o with Some (PThermal l) => l | _ => [] end.
Lemma ok_or_ok {A} (d : A) r : is_ok r = true -> r = Ok (ok_or d r).
Proof. destruct r; [reflexivity|discriminate]. Qed.
Lemma single_ok {A B} (d : A * B) (l : list (res (A * B))) : Nat.eqb (length l) 1 && is_ok (hd (Err ValueError) l) = true ->
  l = [Ok (fst (ok_or d (hd (Err ValueError) l)), snd (ok_or d (hd (Err ValueError) l)))].
Proof. destruct l as [|[[]|] [|]]; try discriminate. reflexivity. Qed.
Lemma thermal_ok o : match o with Some (PThermal _) => true | _ => false end = true -> o = Some (PThermal (x_thermal o)).
Proof. destruct o as [[]|]; try discriminate. reflexivity. Qed.
Theorem C67_at_T_refuted : exists (a : @args QcF) su es psis l l',
  main_setup x_hop a = Ok su /\
  eigensystem (fun _ _ => Err ValueError) x_eigsh isort 1 (n_spin_orbitals (su_nBaths su)) (su_hOp su) (su_basis su) (a_nPsiMax a) LanczosDiag slaterWeightMin = [Ok (es, psis)] /\
  printThermalExpValues qsqrt (fun _ => q 1 1) (q 1 1000) (nbaths_of (su_nBaths su)) es psis (a_T a) (fofZ 10) = Ok l /\
  hd_error (fst (x_main 1 a)) = Some (PThermal l') /\ vec_eqb l l' = false.
Proof.
  exists (x_args (q 1 1)), x_su, (fst x_es), (snd x_es), x_at_T, (x_thermal (hd_error (fst (x_main 1 (x_args (q 1 1)))))).
  split; [apply ok_or_ok; vm_compute; reflexivity|]. split; [apply single_ok; vm_compute; reflexivity|]. split; [apply ok_or_ok; vm_compute; reflexivity|].
  split; [apply thermal_ok; vm_compute; reflexivity|]. vm_compute; reflexivity.
Qed.
Print Assumptions C67_printed_T. Print Assumptions C67_at_300K. Print Assumptions C67_at_T_refuted.
Example C67_ex : match x_printed (q 300 1), x_printed (q 1 1) with
  | Ok l, Ok l' => vec_eqb l (map creal [q 1 4; q 9 1; q 5 2; q 3 1; q 5 1; q 6 1; q 1 2; q 1 2; q 9 2; q 3 4]) && vec_eqb l' (map creal [q 0 1; q 9 1; q 2 1; q 3 1; q 6 1; q 6 1; q 0 1; q 1 2; q 4 1; q 3 4])
  | _, _ => false end = true.
Proof. vm_compute; reflexivity. Qed.

(* ---- C68: the printed product states ---- *)
Theorem C68_weights : forall (F : ofield) (argsort : list F -> list nat) nPrint (psis : list (psi_t F)), argsort_works argsort ->
  exists r, print_weights argsort nPrint psis = Ok r /\ Forall2 (fun psi p => largest_weights (Z.to_nat nPrint) psi (fst p) (snd p)) psis r.
Proof. exact (@weights_ok). Qed.
Print Assumptions C68_weights.
(* the bytes of the second state end with zero *)
Example C68_ex : argsort_works (@isort QcF) /\
  match print_weights isort 2 [[([1%N; 2%N], qr 2 7); ([3%N; 0%N], qr 6 7); ([5%N; 0%N], qr 3 7)]] with
  | Ok [(ws, ss)] => vec_eqb (map creal ws) (map creal [q 36 49; q 9 49]) && eqb ss [[3%N]; [5%N]] | _ => false end = true.
Proof. split; [apply isort_works|vm_compute; reflexivity]. Qed.

(* ---- C69: the checks of the command line ---- *)
(* Sound arguments: the set-up succeeds and the basis consists of the admitted product states. *)
Theorem C69_sound_args : forall (F : ofield) (a : @args F) hamiltonian, sound_args a -> (forall nb nv hp, is_ok (hamiltonian nb nv hp) = true) ->
  let d := ordered (a_ls a) (a_nBaths a) in let val := ordered (a_ls a) (a_nValBaths a) in let n0 := ordered (a_ls a) (a_n0imps a) in
  let tol := ordered (a_ls a) (a_dnTols a) in let dnV := ordered (a_ls a) (a_dnValBaths a) in let dnC := ordered (a_ls a) (a_dnConBaths a) in
  exists su, main_setup hamiltonian a = Ok su /\ (exists hp, hamiltonian (nbaths_of d) (nbaths_of val) hp = Ok (su_hOp su)) /\ su_nBaths su = d /\ NoDup (su_basis su) /\
    (forall k, In k (su_basis su) <-> exists c, length c = Z.to_nat (n_total (nbaths_of d)) /\ k = key c /\ admitted d val dnV dnC tol n0 c) /\
    excited_restrictions d val dnV dnC tol n0 = Ok (su_rs su).
Proof. exact (fun F a hamiltonian HS HH => setup_ok a HS hamiltonian HH). Qed.
(* The full property, that arguments passing the checks are sound, is false: a deviation is missing (KeyError), or the occupation
   cannot be lowered (ValueError). *)
Definition x_checked (n0 tol : Z) (dnTols : list Z) (dc : Z) : @args QcF := mkArgs [1; 2] [0; 2] [0; 0] [6; n0] dnTols [0; 0] [0; dc] (zeros 5) (zeros 3) (zeros 3) (zeros 4) (q 0 1) (q 0 1) (q 0 1) (zeros 3)
  2 3 (q 1 2) (q 300 1) (q 10 1) (q 1 5) (q 1 5) (q 1 5).
Theorem C69_checks_refuted : (exists a : @args QcF, sanity_checks a = Ok tt /\ forall hamiltonian, main_setup hamiltonian a = Err KeyError) /\
  (exists a : @args QcF, sanity_checks a = Ok tt /\ main_setup x_hop a = Err ValueError).
Proof.
  split; [exists (x_checked 8 0 [0] 0)|exists (x_checked 0 1 [0; 1] 1)]; (split; [reflexivity|]); [intros h|]; vm_compute; reflexivity.
Qed.
Print Assumptions C69_sound_args. Print Assumptions C69_checks_refuted.
Example C69_ex : sound_args (x_checked 8 1 [0; 1] 1) /\ sanity_checks (x_checked 8 1 [0; 1] 1) = Ok tt.
Proof.
  split; [|reflexivity]. split; [apply nodupb_ok; reflexivity|]. split; [simpl; auto|]. split; [reflexivity|]. split; [repeat constructor|].
  intros i l nB nV n0 tol dv dc. destruct i as [|[|i]]; [| |destruct i; discriminate]; cbn; intros E1 E2 E3 E4 E5 E6 E7;
    injection E1 as <-; injection E2 as <-; injection E3 as <-; injection E4 as <-; injection E5 as <-; injection E6 as <-; injection E7 as <-; (split; [lia|]); (split; [lia|]); intros; lia.
Qed.
