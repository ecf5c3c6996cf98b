(* Properties of the sectors of the calculation: C84. *)
From Coq Require Import QArith Qcanon Reals Permutation Lra.
From Verif Require Import M_Prelude M_Scalar M_PSR M_State M_Basis M_Expect M_Hamiltonian M_Operators M_Main M_Program.
From Verif Require Import S_Fock S_Ops S_Basis S_Expect S_Ham S_Green S_Moments S_Spectrum S_Operators S_Program S_Spectrum2 S_Sector.
From Verif Require Import L_Scalar L_Sector L_Sector2 L_Sector3 L_Sector4 X_Util X_Reals X_Ops X_Symmetry X_Program X_Main.
Local Open Scope Z_scope.

(* ---- C84: the spectra probe one electron number and one number of core holes ---- *)
(* the 2p count is the number of occupied orbitals of the shell *)
Theorem C84_count : forall d l nB c, wf_shells d -> In (l, nB) d -> length c = n_orb (nbaths_of d) -> in_shell_l (nbaths_of d) l c = occ_in c (imp_idx d l).
Proof. exact shell_count. Qed.
(* a Hamiltonian that conserves a quantum number: the configurations found by expand_basis, *)
Theorem C84_closure : forall (F : ofield) n w q (op : op_t F) rs B, wf_op n op -> conserves w op -> (forall c, length c = n -> In (key c) B -> charge w c = q) ->
  forall c, Reach n op rs B c -> charge w c = q.
Proof. exact (@reach_charge). Qed.
(* the Krylov space *)
Theorem C84_powers : forall (F : ofield) n w q (op : op_t F) rs h psi, wf_op n op -> conserves w op -> restricted_op n op rs h -> in_sector n w q (amp psi) ->
  forall p, in_sector n w q (fpow n h p psi).
Proof. exact (@pow_sector). Qed.
(* and the Green's function depend only on the matrix elements within the sector. *)
Theorem C84_only_sector : forall (F : ofield) n w q (op op' : op_t F) rs h h' psi z g g', wf_op n op -> conserves w op -> restricted_op n op rs h ->
  wf_op n op' -> conserves w op' -> restricted_op n op' rs h' ->
  (forall t s, length t = n -> length s = n -> charge w t = q -> charge w s = q -> opelem op t s = opelem op' t s) ->
  in_sector n w q (amp psi) -> fock_green n z h psi g -> fock_green n z h' psi g' -> g' = g.
Proof. exact (@only_sector). Qed.
(* the Hamiltonian of the program *)
Theorem C84_hamiltonian : forall (F : ofield) nb, wf_nbaths nb -> forall (fsqrt : F -> F) pi gaunt fint hp g (h : op_t F),
  (forall h0, g = Ok h0 -> NoDup (dkeys h0) /\ conserves q_N h0 /\ conserves (q_shell 1) h0) -> total_hamiltonian fsqrt pi gaunt fint nb hp g = Ok h ->
  wf_op (n_orb nb) h /\ conserves (at_index nb q_N) h /\ conserves (at_index nb (q_shell 1)) h.
Proof. exact (@total_sector). Qed.
Theorem C84_CF : forall (F : ofield) nb, wf_nbaths nb -> forall (fsqrt : F -> F) pi gaunt fint nv hp p b (h : op_t F),
  get_hamiltonian_operator_using_CF fsqrt pi gaunt fint nb nv hp p b = Ok h ->
  wf_op (n_orb nb) h /\ conserves (at_index nb q_N) h /\ conserves (at_index nb (q_shell 1)) h.
Proof. exact (@CF_sector). Qed.
(* the transition operators *)
Theorem C84_transitions : forall (F : ofield) nb, wf_nbaths nb -> forall (fsqrt arccos fsin : F -> F) pi gaunt jn sph ops dN dNc, dkeys nb = [KInt 1; KInt 2] ->
  transition_ops fsqrt arccos fsin pi gaunt jn sph nb ops dN dNc ->
  Forall (fun op : op_t F => wf_op (n_orb nb) op /\ shifts (at_index nb q_N) dN op /\ shifts (at_index nb (q_shell 1)) dNc op) ops.
Proof. exact (@transitions). Qed.
(* A run with the crystal field: the eigenstates and the final states of every transition. *)
Theorem C84_run_CF : forall (F : ofield) (fsqrt arccos fsin : F -> F) k_B pi gaunt jn sph eigh eigsh argsort R fint parameters b (a : @args F) su es psis Nc nd t, sound_args a ->
  main_setup (fun nb nv hp => get_hamiltonian_operator_using_CF fsqrt pi gaunt fint nb nv hp parameters b) a = Ok su ->
  run_states k_B eigh eigsh argsort R a su es psis ->
  a_ls a = [1; 2] -> a_n0imps a = [Nc; nd] -> a_dnTols a = 0 :: t ->
  let nb := nbaths_of (su_nBaths su) in let N := Nc + nd + zsum (a_nValBaths a) in
  forall psi, In psi psis -> sector nb N Nc (amp psi) /\
  forall ops dN dNc tOp psiR h swm, transition_ops fsqrt arccos fsin pi gaunt jn sph nb ops dN dNc -> In tOp ops -> cut_image (n_orb nb) tOp (Some (su_rs su)) swm psi psiR ->
    restricted_op (n_orb nb) (su_hOp su) (Some (su_rs su)) h ->
    (forall p, sector nb (N + dN) (Nc + dNc) (fpow (n_orb nb) h p psiR)) /\
    forall z g, fock_green (n_orb nb) z h psiR g ->
      exists x, fock_solves (n_orb nb) z h x psiR /\ sector nb (N + dN) (Nc + dNc) x /\ csum (fun t => cconj (amp psiR t) * x t)%C (allcfg (n_orb nb)) = g.
Proof. exact (@CF_run_sector). Qed.
(* A run with the unpickled operator h0, which must conserve both numbers. *)
Theorem C84_run_pickle : forall (F : ofield) (fsqrt arccos fsin : F -> F) k_B pi gaunt jn sph eigh eigsh argsort R fint h0 (a : @args F) su es psis Nc nd t, sound_args a ->
  main_setup (fun nb _ hp => get_hamiltonian_operator fsqrt pi gaunt fint nb hp h0) a = Ok su ->
  run_states k_B eigh eigsh argsort R a su es psis ->
  a_ls a = [1; 2] -> a_n0imps a = [Nc; nd] -> a_dnTols a = 0 :: t -> NoDup (dkeys h0) -> conserves q_N h0 -> conserves (q_shell 1) h0 ->
  let nb := nbaths_of (su_nBaths su) in let N := Nc + nd + zsum (a_nValBaths a) in
  forall psi, In psi psis -> sector nb N Nc (amp psi) /\
  forall ops dN dNc tOp psiR h swm, transition_ops fsqrt arccos fsin pi gaunt jn sph nb ops dN dNc -> In tOp ops -> cut_image (n_orb nb) tOp (Some (su_rs su)) swm psi psiR ->
    restricted_op (n_orb nb) (su_hOp su) (Some (su_rs su)) h ->
    (forall p, sector nb (N + dN) (Nc + dNc) (fpow (n_orb nb) h p psiR)) /\
    forall z g, fock_green (n_orb nb) z h psiR g ->
      exists x, fock_solves (n_orb nb) z h x psiR /\ sector nb (N + dN) (Nc + dNc) x /\ csum (fun t => cconj (amp psiR t) * x t)%C (allcfg (n_orb nb)) = g.
Proof. exact (@pickle_run_sector). Qed.
Print Assumptions C84_count. Print Assumptions C84_closure. Print Assumptions C84_powers. Print Assumptions C84_only_sector. Print Assumptions C84_hamiltonian.
Print Assumptions C84_CF. Print Assumptions C84_transitions. Print Assumptions C84_run_CF. Print Assumptions C84_run_pickle.

(* 2p and 3d without bath, 16 orbitals: 15 electrons, 6 or 5 of them in 2p *)
Definition full_p : config := repeat true 6 ++ repeat true 9 ++ [false].
Definition core_hole : config := [false] ++ repeat true 15.
Example C84_count_ex : wf_shells [(1, 0); (2, 0)] /\ in_shell_l (pd_baths 0) 1 full_p = 6 /\ in_shell_l (pd_baths 0) 1 core_hole = 5 /\
  electrons full_p = 15 /\ electrons core_hole = 15 /\ length full_p = n_orb (pd_baths 0).
Proof. split; [split; [repeat constructor; cbn; intuition discriminate|repeat constructor; cbn; lia]|]. vm_compute. repeat split. Qed.
(* the arguments of C65 meet the hypotheses; the run has eigenstates, an operator of every kind exists *)
Definition x_h0 : sop_t QcF := [(hop2 (SImp 2 0 0) (SImp 2 0 0), qr 1 1); (hop2 (SImp 1 0 0) (SImp 1 0 0), qr 1 2)].
Definition x_states : res (list QcF * list (psi_t QcF)) :=
  do su <- main_setup (fun nb _ hp => get_hamiltonian_operator qsqrt (q 22 7) x_gaunt qint nb hp x_h0) (x_args (q 300 1));
  do ep <- nth_res (eigensystem (fun _ _ => Err ValueError) x_eigsh isort 1 (n_spin_orbitals (su_nBaths su)) (su_hOp su) (su_basis su) 2 LanczosDiag slaterWeightMin) 0;
  do ep <- ep;
  low_energy (fst ep) (snd ep) (fofZ 10 * (q 1 1000 * q 300 1))%F.
Example C84_run_ex : match x_states with Ok (es, psis) => Some (map (@length _) psis) | Err _ => None end = Some [1%nat; 1%nat].
Proof. vm_compute. reflexivity. Qed.
Example C84_hypotheses : let a := x_args (q 300 1) in a_ls a = [1; 2] /\ a_n0imps a = [6; 9] /\ a_dnTols a = 0 :: [0] /\ sound_args a /\
  NoDup (dkeys x_h0) /\ conserves q_N x_h0 /\ conserves (q_shell 1) x_h0.
Proof.
  split; [reflexivity|]. split; [reflexivity|]. split; [reflexivity|]. split.
  { split; [apply nodupb_ok; reflexivity|]. split; [cbn; auto|]. split; [reflexivity|]. split; [repeat constructor|].
    intros i l nB nV n0 tol dv dc. destruct i as [|[|i]]; [| |destruct i; discriminate]; cbn; intros X1 X2 X3 X4 X5 X6 X7;
    injection X1 as <-; injection X2 as <-; injection X3 as <-; injection X4 as <-; injection X5 as <-; injection X6 as <-; injection X7 as <-; (split; [lia|]); (split; [lia|]); intros; lia. }
  split; [apply nodupb_ok; reflexivity|]. split; intros p [<-|[<-|[]]]; reflexivity.
Qed.
Example C84_transitions_ex : let nb := pd_baths 0 in wf_nbaths nb /\ dkeys nb = [KInt 1; KInt 2] /\
  (match getDipoleOperators (F := QcF) qsqrt (q 22 7) x_gaunt nb [[q 0 1; q 0 1; q 1 1]], getPhotoEmissionOperators (F := QcF) nb 1, getInversePhotoEmissionOperators (F := QcF) nb 2 with
  | Ok [d], Ok p, Ok i => [Nat.ltb 0 (length d); Nat.eqb (length p) 6; Nat.eqb (length i) 10] | _, _, _ => [] end) = [true; true; true].
Proof. split; [apply pd_wf; lia|]. split; [reflexivity|]. vm_compute. reflexivity. Qed.
(* a hop between 2p and 3d does not conserve the number of 2p electrons *)
Example C84_not_conserved : ~ conserves (F := QcF) (q_shell 1) [(hop2 (SImp 2 0 0) (SImp 1 0 0), qr 1 1)].
Proof. intros H. specialize (H _ (or_introl eq_refl)). discriminate H. Qed.
