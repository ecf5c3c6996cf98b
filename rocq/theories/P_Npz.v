(* Properties of the file data.npz: C85, C86. *)
From Coq Require Import QArith Qcanon String.
From Verif Require Import M_Prelude M_Scalar M_PSR M_State M_Basis M_Mpi M_Hamiltonian M_Lanczos M_Operators M_Main M_Program M_Npz.
From Verif Require Import S_Fock S_Basis S_Expect S_Program S_Npz L_Scalar L_Npz X_Util X_Ops X_Main X_Program.
Local Open Scope Z_scope.

(* ---- C85: data.npz determines the files of the run ---- *)
(* Two runs with the same data.npz, whatever their input files were and whatever they print, write the same files and end in the same way. *)
Theorem C85_same_files : forall (F : ofield) fsqrt fexp arccos fsin f32 k_B pi gaunt jn sph bicgstab eigh eigsh argsort fuel ord ranks ham ham' ms (a a' : @args F) radial name z,
  let run h x := main fsqrt fexp arccos fsin f32 k_B pi gaunt jn sph bicgstab eigh eigsh argsort fuel ord ranks h ms x radial in
  data_npz fsqrt fexp k_B eigh eigsh argsort ranks ham ms a name = Some z -> data_npz fsqrt fexp k_B eigh eigsh argsort ranks ham' ms a' name = Some z ->
  files (fst (run ham a)) = files (fst (run ham' a')) /\ snd (run ham a) = snd (run ham' a').
Proof. exact (@same_files). Qed.
(* Also with another radial function: all files but those of NIXS, for complete runs. *)
Theorem C85_other_radial : forall (F : ofield) fsqrt fexp arccos fsin f32 k_B pi gaunt jn sph bicgstab eigh eigsh argsort fuel ord ranks, (1 <= ranks)%nat ->
  forall ham ham' ms (a a' : @args F) radial radial' name z,
  let run h x r := main fsqrt fexp arccos fsin f32 k_B pi gaunt jn sph bicgstab eigh eigsh argsort fuel ord ranks h ms x r in
  data_npz fsqrt fexp k_B eigh eigsh argsort ranks ham ms a name = Some z -> data_npz fsqrt fexp k_B eigh eigsh argsort ranks ham' ms a' name = Some z ->
  hd_error (snd (run ham a radial)) = Some (Ok tt) -> hd_error (snd (run ham' a' radial')) = Some (Ok tt) ->
  files_but_radial (fst (run ham a radial)) = files_but_radial (fst (run ham' a' radial')).
Proof. exact (@other_files). Qed.
(* It is written if and only if spectra.h5 is. *)
Theorem C85_written : forall (F : ofield) fsqrt fexp arccos fsin f32 k_B pi gaunt jn sph bicgstab eigh eigsh argsort fuel ord ranks ham ms (a : @args F) radial name,
  (exists z, data_npz fsqrt fexp k_B eigh eigsh argsort ranks ham ms a name = Some z) <->
  exists shape es, In (H5 "E" shape es) (fst (main fsqrt fexp arccos fsin f32 k_B pi gaunt jn sph bicgstab eigh eigsh argsort fuel ord ranks ham ms a radial)).
Proof. exact (@written). Qed.
(* The saved operator fits the saved number of spin-orbitals. *)
Theorem C85_operator : forall (F : ofield) fsqrt fexp k_B pi gaunt fint eigh eigsh argsort ranks g ms (a : @args F) name z, sound_args a ->
  data_npz fsqrt fexp k_B eigh eigsh argsort ranks (fun nb nv hp => total_hamiltonian fsqrt pi gaunt fint nb hp (g nb nv)) ms a name = Some z ->
  z_n_spin_orbitals z = n_total (nbaths_of (z_nBaths z)) /\ wf_op (Z.to_nat (z_n_spin_orbitals z)) (z_hOp z).
Proof. exact (@operator_fits). Qed.

Notation n_main := (main (F := QcF) qsqrt (fun _ => q 1 1) (fun x => x) (fun x => x) (fun x => x) (q 1 1000) (q 22 7) x_gaunt (fun _ x => x) (fun _ _ _ _ => qr 1 1) (fun _ y => y)
  (fun _ _ => Err ValueError) x_eigsh isort 1000 (fun _ _ _ _ x => x) 2 x_hop x_meshes).
Notation n_npz := (data_npz (F := QcF) qsqrt (fun _ => q 1 1) (q 1 1000) (fun _ _ => Err ValueError) x_eigsh isort 2 x_hop x_meshes).
(* Examples: the run at 100 K, with k_B = 1/1000, keeps both states; other printing arguments give the same file. *)
Definition x_quiet (T : QcF) : @args QcF := mkArgs [1; 2] [0; 0] [0; 0] [6; 9] [0; 0] [0; 0] [0; 0] (zeros 5) (zeros 3) (zeros 3) (zeros 4) (q 0 1) (q 0 1) (q 0 1) (zeros 3)
  2 1 (q 1 7) T (q 10 1) (q 1 5) (q 1 5) (q 1 5).
Definition x_shapes (os : list (output QcF)) : list (string * list nat) := flat_map (fun o => match o with H5 n s _ => [(n, s)] | _ => [] end) os.
Lemma x_sound : sound_args (x_args (q 100 1)).
Proof.
  split; [apply nodupb_ok; reflexivity|]. split; [simpl; auto|]. split; [reflexivity|]. split; [repeat constructor|].
  intros i l nB nV n0 tol dv dc. destruct i as [|[|i]]; [| |destruct i; discriminate]; cbn; intros E1 E2 E3 E4 E5 E6 E7;
    injection E1 as <-; injection E2 as <-; injection E3 as <-; injection E4 as <-; injection E5 as <-; injection E6 as <-; injection E7 as <-; (split; [lia|]); (split; [lia|]); intros; lia.
Qed.
Lemma x_complete : hd_error (snd (n_main (x_args (q 100 1)) x_radial)) = Some (Ok tt).
Proof. vm_compute. reflexivity. Qed.
Example C85_ex : n_npz (x_args (q 100 1)) "h0.pickle"%string = n_npz (x_quiet (q 100 1)) "h0.pickle"%string /\
  match n_npz (x_args (q 100 1)) "h0.pickle"%string with
  | Some z => z_n_spin_orbitals z = 16 /\ length (z_hOp z) = 2%nat /\ z_nBaths z = [(1, 0); (2, 0)] /\ z_n0imps z = [(1, 6); (2, 9)] /\ feqb (z_energy_cut z) (q 1 1) = true /\ z_h0_filename z = "h0.pickle"%string
  | None => False
  end /\
  length (files (fst (n_main (x_args (q 100 1)) x_radial))) = 23%nat /\ length (files_but_radial (fst (n_main (x_args (q 100 1)) x_radial))) = 17%nat.
Proof. split; [reflexivity|]. split; [vm_compute; repeat split|]. vm_compute; split; reflexivity. Qed.
(* no file when the computation stops before line 254: hField has no components *)
Example C85_ex_none : n_npz (mkArgs [1; 2] [0; 0] [0; 0] [6; 9] [0; 0] [0; 0] [0; 0] (zeros 5) (zeros 3) (zeros 3) (zeros 4) (q 0 1) (q 0 1) (q 0 1) [] 2 3 (q 1 2) (q 300 1) (q 10 1) (q 1 5) (q 1 5) (q 1 5)) "h0.pickle"%string = None.
Proof. reflexivity. Qed.

(* ---- C86: a new run with the arguments of data.npz gives the same spectra ---- *)
(* true if energy_cut, which has been multiplied by k_B T before it is saved, is divided by k_B T *)
Theorem C86_rerun_partial : forall (F : ofield) fsqrt fexp k_B eigh eigsh argsort ranks ham ms (a : @args F) name z, sound_args a -> (k_B * a_T a)%F <> 0%F ->
  data_npz fsqrt fexp k_B eigh eigsh argsort ranks ham ms a name = Some z ->
  again (z_energy_cut z / (k_B * z_T z))%F (a_nPrintSlaterWeights a) (a_tolPrintOccupation a) z = a.
Proof. exact (@recover). Qed.
(* the run keeps two states, the new run one *)
Definition x_XAS (os : list (output QcF)) : option (list nat) := option_map snd (find (fun x => String.eqb (fst x) "XAS") (x_shapes os)).
Example C86_shapes : match n_npz (x_args (q 100 1)) "h0.pickle"%string with
  | Some z => x_XAS (files (fst (n_main (again (z_energy_cut z) (a_nPrintSlaterWeights (x_args (q 100 1))) (a_tolPrintOccupation (x_args (q 100 1))) z) x_radial))) = Some [1; 1; 2]%nat
  | None => False
  end /\ x_XAS (files (fst (n_main (x_args (q 100 1)) x_radial))) = Some [2; 1; 2]%nat.
Proof. vm_compute. split; reflexivity. Qed.
Lemma some_neq : Some [1; 1; 2]%nat = Some [2; 1; 2]%nat -> False.
Proof. discriminate. Qed.
Lemma kT_neq0 : (q 1 1000 * a_T (x_args (q 100 1)))%F <> (0%F : QcF).
Proof. intros C. apply (f_equal (fun x : QcF => feqb x 0%F)) in C. vm_compute in C. discriminate. Qed.
(* false with energy_cut as it stands in the file: it is saved in eV, the argument is in units of k_B T *)
Theorem C86_rerun_refuted : exists (F : ofield) fsqrt fexp arccos fsin f32 k_B pi gaunt jn sph bicgstab eigh eigsh argsort fuel ord ranks ham ms (a : @args F) radial name z,
  sound_args a /\ (k_B * a_T a)%F <> 0%F /\ data_npz fsqrt fexp k_B eigh eigsh argsort ranks ham ms a name = Some z /\
  let run x := main fsqrt fexp arccos fsin f32 k_B pi gaunt jn sph bicgstab eigh eigsh argsort fuel ord ranks ham ms x radial in
  hd_error (snd (run a)) = Some (Ok tt) /\
  files (fst (run (again (z_energy_cut z) (a_nPrintSlaterWeights a) (a_tolPrintOccupation a) z))) <> files (fst (run a)).
Proof.
  exists QcF, qsqrt, (fun _ => q 1 1), (fun x => x), (fun x => x), (fun x => x), (q 1 1000), (q 22 7), x_gaunt, (fun _ x => x), (fun _ _ _ _ => qr 1 1), (fun _ y => y),
    (fun _ _ => Err ValueError), x_eigsh, isort, 1000%nat, (fun _ _ _ _ x => x), 2%nat, x_hop, x_meshes, (x_args (q 100 1)), x_radial, "h0.pickle"%string.
  destruct C86_shapes as [HS HS']. destruct (n_npz (x_args (q 100 1)) "h0.pickle"%string) as [z|]; [|destruct HS]. exists z. split; [exact x_sound|].
  split; [exact kT_neq0|]. split; [reflexivity|]. split; [exact x_complete|].
  intros C. apply (f_equal x_XAS) in C. exact (some_neq (eq_trans (eq_sym HS) (eq_trans C HS'))).
Qed.
Print Assumptions C85_same_files. Print Assumptions C85_other_radial. Print Assumptions C85_written. Print Assumptions C85_operator. Print Assumptions C86_rerun_partial. Print Assumptions C86_rerun_refuted.
