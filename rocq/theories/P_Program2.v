(* Property C70: the program does not depend on the number of ranks. *)
From Coq Require Import QArith Qcanon Permutation String.
From Verif Require Import M_Prelude M_Scalar M_PSR M_Ladder M_State M_Mpi M_Hamiltonian M_Basis M_Average M_Expect M_Operators M_Main M_Program.
From Verif Require Import S_Fock S_Basis S_Expect S_Main S_Program L_Scalar L_Program6 X_Util X_Ops X_Main X_Program.
Local Open Scope Z_scope.

(* ---- C70 ---- *)
(* ord, ord': the orders in which sets are run through.  eigsh depends on the entries of the matrix only.  No element of the first
   outgoing dipole operator has a weight below slaterWeightMin: all outgoing operators share one cache (C50, C63). *)
Theorem C70_ranks : forall (F : ofield) fsqrt fexp arccos fsin f32 k_B pi gaunt jn sph bicgstab eigh eigsh argsort fuel ord ord' R R' hamiltonian ms (a : @args F) radial,
  (forall N h h' k, (forall i j, h i j = h' i j) -> eigsh N h k = eigsh N h' k) -> (1 <= R)%nat -> (1 <= R')%nat ->
  (forall c t i q l, Permutation (ord c t i q l) l) -> (forall c t i q l, Permutation (ord' c t i q l) l) ->
  sound_args a -> a_delta a <> 0%F -> a_deltaNIXS a <> 0%F -> a_deltaRIXS a <> 0%F ->
  let nb := nbaths_of (ordered (a_ls a) (a_nBaths a)) in
  (forall nv hp h, hamiltonian nb nv hp = Ok h -> wf_op (n_orb nb) h) -> (2 ^ n_orb nb < fuel)%nat ->
  (forall op0 ops, getDaggeredDipoleOperators fsqrt pi gaunt nb (m_epsilonsRIXSout ms) = Ok (op0 :: ops) -> Forall (fun pv => (slaterWeightMin <= cabs2 (snd pv))%F) op0) ->
  same_run (main fsqrt fexp arccos fsin f32 k_B pi gaunt jn sph bicgstab eigh eigsh argsort fuel ord R hamiltonian ms a radial)
    (main fsqrt fexp arccos fsin f32 k_B pi gaunt jn sph bicgstab eigh eigsh argsort fuel ord' R' hamiltonian ms a radial).
Proof. exact (@main_ranks). Qed.
(* get_spectra.py: every Hamiltonian it builds is well-formed *)
Theorem C70_ranks_pickle : forall (F : ofield) fsqrt fexp arccos fsin f32 k_B pi fint gaunt jn sph bicgstab eigh eigsh argsort fuel ord ord' R R' h0 (a : @args F) radial,
  (forall N h h' k, (forall i j, h i j = h' i j) -> eigsh N h k = eigsh N h' k) -> (1 <= R)%nat -> (1 <= R')%nat ->
  (forall c t i q l, Permutation (ord c t i q l) l) -> (forall c t i q l, Permutation (ord' c t i q l) l) ->
  sound_args a -> a_delta a <> 0%F -> a_deltaNIXS a <> 0%F -> a_deltaRIXS a <> 0%F ->
  let nb := nbaths_of (ordered (a_ls a) (a_nBaths a)) in
  (2 ^ n_orb nb < fuel)%nat ->
  (forall op0 ops, getDaggeredDipoleOperators fsqrt pi gaunt nb [[1; 0; 0]; [0; 1; 0]; [0; 0; 1]]%F = Ok (op0 :: ops) -> Forall (fun pv => (slaterWeightMin <= cabs2 (snd pv))%F) op0) ->
  same_run (main_pickle fsqrt fexp arccos fsin f32 k_B pi fint gaunt jn sph bicgstab eigh eigsh argsort fuel ord R h0 a radial)
    (main_pickle fsqrt fexp arccos fsin f32 k_B pi fint gaunt jn sph bicgstab eigh eigsh argsort fuel ord' R' h0 a radial).
Proof. exact (@main_pickle_ranks). Qed.
(* get_spectra_using_CF.py *)
Theorem C70_ranks_CF : forall (F : ofield) fsqrt fexp arccos fsin f32 k_B pi fint gaunt jn sph bicgstab eigh eigsh argsort fuel ord ord' R R' parameters (a : @args F) radial,
  (forall N h h' k, (forall i j, h i j = h' i j) -> eigsh N h k = eigsh N h' k) -> (1 <= R)%nat -> (1 <= R')%nat ->
  (forall c t i q l, Permutation (ord c t i q l) l) -> (forall c t i q l, Permutation (ord' c t i q l) l) ->
  sound_args a -> a_delta a <> 0%F -> a_deltaNIXS a <> 0%F -> a_deltaRIXS a <> 0%F ->
  let nb := nbaths_of (ordered (a_ls a) (a_nBaths a)) in
  (2 ^ n_orb nb < fuel)%nat ->
  (forall op0 ops, getDaggeredDipoleOperators fsqrt pi gaunt nb [[1; 0; 0]; [0; 1; 0]; [0; 0; 1]]%F = Ok (op0 :: ops) -> Forall (fun pv => (slaterWeightMin <= cabs2 (snd pv))%F) op0) ->
  same_run (main_CF fsqrt fexp arccos fsin f32 k_B pi fint gaunt jn sph bicgstab eigh eigsh argsort fuel ord R parameters a radial)
    (main_CF fsqrt fexp arccos fsin f32 k_B pi fint gaunt jn sph bicgstab eigh eigsh argsort fuel ord' R' parameters a radial).
Proof. exact (@main_CF_ranks). Qed.
Print Assumptions C70_ranks. Print Assumptions C70_ranks_pickle. Print Assumptions C70_ranks_CF.
(* the hypotheses hold for the example of C65, whose run on one and on three ranks is complete *)
Definition large (op : op_t QcF) : bool := forallb (fun pv => negb (cabs2 (snd pv) <? slaterWeightMin)%F) op.
Lemma large_ok op : large op = true -> Forall (fun pv => (slaterWeightMin <= cabs2 (snd pv))%F) op.
Proof. unfold large. rewrite forallb_forall, Forall_forall. intros H pv Hi. specialize (H pv Hi). now apply Bool.negb_true_iff. Qed.
Example C70_ex : sound_args (x_args (q 300 1)) /\ a_delta (x_args (q 300 1)) <> 0%F /\
  let nb := nbaths_of (ordered (a_ls (x_args (q 300 1))) (a_nBaths (x_args (q 300 1)))) in
  n_orb nb = 16%nat /\ (forall nv hp h, x_hop nb nv hp = Ok h -> wf_op (n_orb nb) h) /\
  (exists op0 ops, getDaggeredDipoleOperators qsqrt (q 22 7) x_gaunt nb (m_epsilonsRIXSout x_meshes) = Ok (op0 :: ops) /\ op0 <> []) /\
  (forall op0 ops, getDaggeredDipoleOperators qsqrt (q 22 7) x_gaunt nb (m_epsilonsRIXSout x_meshes) = Ok (op0 :: ops) -> Forall (fun pv => (slaterWeightMin <= cabs2 (snd pv))%F) op0).
Proof.
  split; [|split; [|split; [|split; [|split]]]].
  - split; [apply nodupb_ok; reflexivity|]. split; [simpl; auto|]. split; [reflexivity|]. split; [repeat constructor|].
    intros i l nB nV n0 tol dv dc. destruct i as [|[|i]]; [| |destruct i; discriminate]; cbn; intros E1 E2 E3 E4 E5 E6 E7;
    injection E1 as <-; injection E2 as <-; injection E3 as <-; injection E4 as <-; injection E5 as <-; injection E6 as <-; injection E7 as <-; (split; [lia|]); (split; [lia|]); intros; lia.
  - intros E. apply (f_equal (fun x => feqb x 0%F)) in E. vm_compute in E. discriminate.
  - reflexivity.
  - intros nv hp h E. injection E as <-. change (n_orb _) with 16%nat. split; [apply nodupb_ok; reflexivity|]. repeat constructor; simpl; auto; lia.
  - assert (H : match getDaggeredDipoleOperators qsqrt (q 22 7) x_gaunt (nbaths_of (ordered (a_ls (x_args (q 300 1))) (a_nBaths (x_args (q 300 1))))) (m_epsilonsRIXSout x_meshes) with Ok ((_ :: _) :: _) => true | _ => false end = true) by (vm_compute; reflexivity).
    destruct (getDaggeredDipoleOperators _ _ _ _ _) as [[|[|x o] ops]|]; try discriminate. exists (x :: o), ops. split; [reflexivity|discriminate].
  - assert (H : match getDaggeredDipoleOperators qsqrt (q 22 7) x_gaunt (nbaths_of (ordered (a_ls (x_args (q 300 1))) (a_nBaths (x_args (q 300 1))))) (m_epsilonsRIXSout x_meshes) with Ok (o :: _) => large o | _ => false end = true) by (vm_compute; reflexivity).
    intros op0 ops E. rewrite E in H. apply large_ok. exact H.
Qed.
