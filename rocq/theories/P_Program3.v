(* Property C71: a rank waits for ever only if another rank has raised. *)
From Coq Require Import QArith Qcanon String.
From Verif Require Import M_Prelude M_Scalar M_PSR M_Ladder M_State M_Mpi M_Hamiltonian M_Lanczos M_Basis M_Average M_Expect M_Operators M_Spectra M_RIXS M_Main M_Program.
From Verif Require Import S_Program S_CF L_Hang3 L_Hang4 L_CF X_Util X_Ops X_Main X_Program.
Local Open Scope Z_scope.

(* ---- C71 ---- *)
(* the whole program; all inputs, any number of ranks, any fuel *)
Theorem C71_main : forall (F : ofield) fsqrt fexp arccos fsin f32 k_B pi gaunt jn sph bicgstab eigh eigsh argsort fuel ord R hamiltonian ms (a : @args F) radial,
  (forall N h, eigh N h <> Err Deadlock) -> (forall N h k, eigsh N h k <> Err Deadlock) -> (forall nb nv hp, hamiltonian nb nv hp <> Err Deadlock) ->
  explained (snd (main fsqrt fexp arccos fsin f32 k_B pi gaunt jn sph bicgstab eigh eigsh argsort fuel ord R hamiltonian ms a radial)).
Proof. intros. now apply main_expl. Qed.
Theorem C71_pickle : forall (F : ofield) fsqrt fexp arccos fsin f32 k_B pi fint gaunt jn sph bicgstab eigh eigsh argsort fuel ord R h0 (a : @args F) radial,
  (forall N h, eigh N h <> Err Deadlock) -> (forall N h k, eigsh N h k <> Err Deadlock) ->
  explained (snd (main_pickle fsqrt fexp arccos fsin f32 k_B pi fint gaunt jn sph bicgstab eigh eigsh argsort fuel ord R h0 a radial)).
Proof. intros. now apply main_pickle_expl. Qed.
Theorem C71_CF : forall (F : ofield) fsqrt fexp arccos fsin f32 k_B pi fint gaunt jn sph bicgstab eigh eigsh argsort fuel ord R parameters (a : @args F) radial,
  (forall N h, eigh N h <> Err Deadlock) -> (forall N h k, eigsh N h k <> Err Deadlock) ->
  explained (snd (main_CF fsqrt fexp arccos fsin f32 k_B pi fint gaunt jn sph bicgstab eigh eigsh argsort fuel ord R parameters a radial)).
Proof. intros. now apply main_CF_expl. Qed.
(* on one rank nothing ever waits *)
Theorem C71_one_rank : forall (F : ofield) fsqrt fexp arccos fsin f32 k_B pi gaunt jn sph bicgstab eigh eigsh argsort fuel ord hamiltonian ms (a : @args F) radial,
  (forall N h, eigh N h <> Err Deadlock) -> (forall N h k, eigsh N h k <> Err Deadlock) -> (forall nb nv hp, hamiltonian nb nv hp <> Err Deadlock) ->
  ~ In (Err Deadlock) (snd (main fsqrt fexp arccos fsin f32 k_B pi gaunt jn sph bicgstab eigh eigsh argsort fuel ord 1 hamiltonian ms a radial)).
Proof. exact (@main_one). Qed.
(* every rank ends in one way; all of them complete or none does *)
Theorem C71_all_or_none : forall (F : ofield) fsqrt fexp arccos fsin f32 k_B pi gaunt jn sph bicgstab eigh eigsh argsort fuel ord R hamiltonian ms (a : @args F) radial,
  let ends := snd (main fsqrt fexp arccos fsin f32 k_B pi gaunt jn sph bicgstab eigh eigsh argsort fuel ord R hamiltonian ms a radial) in
  length ends = R /\ all_or_none ends.
Proof. exact (@main_ends). Qed.
(* the collective functions, in all their modes *)
Theorem C71_getGreen : forall (F : ofield) fsqrt fuel ord n e (psi : psi_t F) op w delta ks swm rs hs mode pm,
  explained (map snd (getGreen fsqrt fuel ord n e psi op w delta ks swm rs hs mode pm)).
Proof. exact (@green_expl). Qed.
Theorem C71_getSpectra : forall (F : ofield) fsqrt fuel n (hOp : op_t F) w delta rs ks swm ord R tOps psis es pm,
  explained (getSpectra fsqrt fuel n hOp w delta rs ks swm ord R tOps psis es pm).
Proof. exact (@spectra_expl). Qed.
Theorem C71_getRIXSmap : forall (F : ofield) fsqrt bicgstab fuel n (hOp : op_t F) wIns wLoss d1 d2 rs ks swm tOpsIn tOpsOut psis es ord hg pm,
  explained (getRIXSmap fsqrt bicgstab fuel n hOp wIns wLoss d1 d2 rs ks swm tOpsIn tOpsOut psis es ord hg pm).
Proof. exact (@RIXS_expl). Qed.
Theorem C71_eigensystem : forall (F : ofield) eigh eigsh argsort, (forall N h, eigh N h <> Err Deadlock) -> (forall N h k, eigsh N h k <> Err Deadlock) ->
  forall R n (hOp : op_t F) basis k mode swm, explained (eigensystem eigh eigsh argsort R n hOp basis k mode swm).
Proof. exact (@eigensystem_expl). Qed.
Theorem C71_get_hamiltonian_matrix : forall (F : ofield) R mode n (hOp : op_t F) basis, explained (get_hamiltonian_matrix R mode n hOp basis).
Proof. exact (@hmatrix_expl). Qed.
Print Assumptions C71_main. Print Assumptions C71_pickle. Print Assumptions C71_CF. Print Assumptions C71_one_rank. Print Assumptions C71_all_or_none.
Print Assumptions C71_getGreen. Print Assumptions C71_getSpectra. Print Assumptions C71_getRIXSmap. Print Assumptions C71_eigensystem. Print Assumptions C71_get_hamiltonian_matrix.
(* Waiting does happen: in this run rank 0, which alone runs the Lanczos recursion, raises ValueError there (an invariant subspace, C37) and the two others wait for its broadcast. *)
Definition w_hop (nb nv : nbaths_t) (hp : @ham_params QcF) : res (op_t QcF) := Ok [([(8, lab_a); (8, lab_c)], qr 1 2); ([(7, lab_a); (7, lab_c)], qr 1 1)].
Definition w_gaunt (l1 l2 l3 m1 m2 m3 : Z) : QcF := if l2 =? 1 then q 1 1 else x_gaunt l1 l2 l3 m1 m2 m3.
Definition w_meshes : @meshes QcF := mkMeshes [q 0 1; q 1 1] [[q 1 1; q 0 1; q 0 1]] [q 0 1; q 1 1] [q 1 2; q 3 2]
  [[q 0 1; q 0 1; q 1 1]] [[q 0 1; q 0 1; q 1 1]; [q 1 1; q 0 1; q 0 1]] [(q 1 1, q 1 1, q 1 1)].
Definition w_main (ranks : nat) (a : @args QcF) := main qsqrt (fun _ => q 1 1) (fun x => x) (fun x => x) (fun x => x) (q 1 1000) (q 22 7) w_gaunt (fun _ x => x) (fun _ _ _ _ => qr 1 1) (fun _ y => y)
  (fun _ _ => Err ValueError) x_eigsh isort 1000 (fun _ _ _ _ x => x) ranks w_hop w_meshes a x_radial.
Example C71_waits : snd (w_main 3 (x_args (q 300 1))) = [Err ValueError; Err Deadlock; Err Deadlock] /\ length (fst (w_main 3 (x_args (q 300 1)))) = 21%nat.
Proof. split; vm_compute; reflexivity. Qed.
Example C71_hyp : (forall N h k, x_eigsh N h k <> Err Deadlock) /\ (forall nb nv hp, w_hop nb nv hp <> Err Deadlock).
Proof. split; [|discriminate]. intros N h k. unfold x_eigsh. discriminate. Qed.

(* ---- C51: the file with the parameters of the crystal field ---- *)
(* every parameter of the table in S_CF is read from its own key, or has its own default *)
Theorem C51_parameters : forall (F : ofield) (params : dict string F) name num den proj, In (name, (num, den), proj) cf_defaults ->
  proj F (read_h0_CF_file params) = match dget params name with Some v => v | None => (fofZ num / fofZ den)%F end.
Proof. exact (@read_param). Qed.
Print Assumptions C51_parameters.
Example C51_parameters_ex : In ("v_con_t2g"%string, (4, 10), @v_con_t2g) cf_defaults /\
  feqb (v_con_t2g (read_h0_CF_file [("v_con_t2g"%string, q 7 1)])) (q 7 1) = true /\ feqb (v_con_eg (read_h0_CF_file [("v_con_t2g"%string, q 7 1)])) (q 3 5) = true.
Proof. split; [cbn; repeat (first [left; reflexivity|right])|]. split; vm_compute; reflexivity. Qed.
