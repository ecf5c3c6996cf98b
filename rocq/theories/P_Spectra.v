(* Properties C34, C36, C38 for getSpectra and simulate_spectra. *)
From Coq Require Import QArith Qcanon Reals Permutation.
From Verif Require Import M_Prelude M_Scalar M_PSR M_Ladder M_State M_Mpi M_Hamiltonian M_Lanczos M_Average M_Spectra M_Simulate.
From Verif Require Import S_Fock S_Ops S_Ham S_Green S_Thermal S_Spectra.
From Verif Require Import L_Scalar L_Sum L_State L_Ops L_FockP L_Green L_Spectra3 L_Spectra6 X_Util X_Reals P_Fock P_Green.
Local Open Scope Z_scope.

(* ---- C34: sign ---- *)
(* every value of getSpectra, in every mode, on every rank, for all arguments *)
Theorem C34_getSpectra : forall (F : ofield) (fsqrt : F -> F) fuel n op w delta rs ks swm, delta <> 0%F ->
  forall ord R tOps psis es pm gs,
  In (Ok gs) (getSpectra fsqrt fuel n op w delta rs ks swm ord R tOps psis es pm) ->
  forall i t, Forall (fun x => (delta * im x <= 0)%F) (gs i t).
Proof. exact (@getSpectra_signed). Qed.
Print Assumptions C34_getSpectra.
(* the written files: XAS.dat and NIXS.dat, XPS.dat, PS.dat *)
Theorem C34_absorption : forall (F : ofield) (fsqrt fexp : F -> F), exp_laws fexp -> forall k_B fuel n op rs ks swm ord R psis es T w delta, (0 < delta)%F ->
  forall tOps cols, In (Ok cols) (absorption fsqrt fexp k_B fuel n op rs ks swm ord R psis es T w delta tOps) -> written_spectrum w (length tOps) cols.
Proof. exact (@absorption_nonneg). Qed.
Print Assumptions C34_absorption.
Theorem C34_emission : forall (F : ofield) (fsqrt fexp : F -> F), exp_laws fexp -> forall k_B fuel n op rs ks swm ord R psis es T w delta, (0 < delta)%F ->
  forall tOps cols, In (Ok cols) (emission fsqrt fexp k_B fuel n op rs ks swm ord R psis es T w delta tOps) -> written_spectrum w (length tOps) cols.
Proof. exact (@emission_nonneg). Qed.
Print Assumptions C34_emission.
Theorem C34_photoemission : forall (F : ofield) (fsqrt fexp : F -> F), exp_laws fexp -> forall k_B fuel n op rs ks swm ord R psis es T w delta, (0 < delta)%F ->
  forall tOpsPS tOpsIPS cols, In (Ok cols) (photoemission fsqrt fexp k_B fuel n op rs ks swm ord R psis es T w delta tOpsPS tOpsIPS) -> written_spectrum w (length tOpsPS) cols.
Proof. exact (@photoemission_nonneg). Qed.
Print Assumptions C34_photoemission.

(* two sites with hopping; a transition operator that creates a particle in the empty state, one that
   removes the particle *)
Definition t_in {F : ofield} : op_t F := [([(0, C_)], c1); ([(1, C_)], cadd c1 c1)].
Definition t_out {F : ofield} : op_t F := [([(0, A_)], c1)].
Definition sp_psi {F : ofield} : psi_t F := [(key [false; false], c1)].
(* the same with a rational norm *)
Definition t_34 : op_t QcF := [([(0, C_)], qr 3 5); ([(1, C_)], qr 4 5)].
Definition one_exp (x : QcF) : QcF := 1%F.
Definition is_cols (r : res (list (list QcF))) (l : list (list QcF)) : bool :=
  match r with Ok c => forallb (fun p => vec_eqb (map creal (fst p)) (map creal (snd p))) (combine c l) && Nat.eqb (length c) (length l) | Err _ => false end.
(* a spectrum that is not zero *)
Example C34_example : is_cols (nth 0 (absorption qsqrt one_exp (q 1 1) 5 2 hop_op None 3 (q 0 1) (fun _ _ _ l => l) 2 [sp_psi] [q 0 1] (q 1 1) [q 1 1] (q 1 1) [t_34]) (Err OutOfFuel))
    [[q 1 1]; [q 123 125]; [q 123 125]] = true /\
  is_cols (nth 0 (emission qsqrt one_exp (q 1 1) 5 2 hop_op None 3 (q 0 1) (fun _ _ _ l => l) 2 [hop_psi] [q 0 1] (q 1 1) [q 0 1; q 1 1] (q 1 1) [t_out]) (Err OutOfFuel))
    [[q 0 1; q 1 1]; [q 1 1; q 1 2]; [q 1 1; q 1 2]] = true.
Proof. vm_compute. auto. Qed.
Example C34_exp : @exp_laws RF exp.
Proof. exact exp_laws_R. Qed.

(* ---- C36 ---- *)
(* mode eigen_states: with krylovSize at least the dimension of the Fock space, every rank obtains the
   exact resolvent of the transition state psiR = tOp psi *)
Theorem C36_eigen_states : forall (F : ofield) (fsqrt : F -> F) n op rs tOps psis, spectra_input n op rs tOps psis ->
  sqrt_laws fsqrt -> assert_hermitian op = Ok tt ->
  forall fuel w delta ks swm es h, (2 ^ n < fuel)%nat -> delta <> 0%F -> restricted_op n op rs h -> Z.of_nat (2 ^ n) <= ks ->
  forall ord R gs i t psi e tOp, (1 <= R)%nat ->
  In (Ok gs) (getSpectra fsqrt fuel (Z.of_nat n) op w delta rs ks swm ord R tOps psis es EigenStates) ->
  nth_error psis i = Some psi -> nth_error es i = Some e -> nth_error tOps t = Some tOp ->
  exists psiR, applyOp (Z.of_nat n) tOp psi swm rs None = (None, Ok psiR) /\ length (gs i t) = length w /\
    forall k, (k < length w)%nat -> fock_green n (mkC (nth k w 0 + e)%F delta) h psiR (nth k (gs i t) c0).
Proof.
  exact (fun F fsqrt n op rs tOps psis HI HS HH fuel w delta ks swm es h Hf Hd Hop Hks =>
    es_exact fsqrt n op rs (proj1 HI) (proj1 (proj2 HI)) fuel Hf w delta ks swm tOps (proj1 (proj2 (proj2 HI))) psis (proj2 (proj2 (proj2 HI))) es h HS HH Hd Hop Hks).
Qed.
Print Assumptions C36_eigen_states.
(* mode H_build, rank 0, if the cut-off of the cache removes nothing *)
Theorem C36_H_build_spectra : forall (F : ofield) (fsqrt : F -> F) n op rs tOps psis, spectra_input n op rs tOps psis ->
  sqrt_laws fsqrt -> assert_hermitian op = Ok tt ->
  forall fuel w delta ks swm es h, (2 ^ n < fuel)%nat -> delta <> 0%F -> restricted_op n op rs h -> Z.of_nat (2 ^ n) <= ks ->
  forall ord : nat -> nat -> nat -> set_order, (forall t i q l, Permutation (ord t i q l) l) ->
  forall R i t psi e tOp g0 rest, (1 <= R)%nat ->
  getSpectra fsqrt fuel (Z.of_nat n) op w delta rs ks swm ord R tOps psis es SHBuild = map Ok (g0 :: rest) ->
  nth_error psis i = Some psi -> nth_error es i = Some e -> nth_error tOps t = Some tOp -> no_small n tOp swm rs ->
  exists psiR, applyOp (Z.of_nat n) tOp psi swm rs None = (None, Ok psiR) /\ length (g0 i t) = length w /\
    forall k, (k < length w)%nat -> fock_green n (mkC (nth k w 0 + e)%F delta) h psiR (nth k (g0 i t) c0).
Proof.
  exact (fun F fsqrt n op rs tOps psis HI HS HH fuel w delta ks swm es h Hf Hd Hop Hks =>
    hb_exact fsqrt n op rs (proj1 HI) (proj1 (proj2 HI)) fuel Hf w delta ks swm tOps (proj1 (proj2 (proj2 HI))) psis (proj2 (proj2 (proj2 HI))) es h HS HH Hd Hop Hks).
Qed.
Print Assumptions C36_H_build_spectra.
Section Ex.
Context {F : ofield}.
Add Field Ff4 : (f_field F).
Add Ring Cring4 : (@c_ring F).
Example C36_spectra_input : spectra_input 2 (@hop_op F) None [t_in; t_out] [sp_psi; hop_psi] /\ assert_hermitian (@hop_op F) = Ok tt /\
  no_small 2 (@hop_op F) 0%F None.
Proof.
  split; [|split].
  - split; [apply wf_opb_ok; vm_compute; reflexivity|]. split; [exact I|]. split.
    + constructor; [apply wf_opb_ok; vm_compute; reflexivity|]. constructor; [apply wf_opb_ok; vm_compute; reflexivity|constructor].
    + constructor; [apply valid_psib_ok; vm_compute; reflexivity|]. constructor; [apply valid_psib_ok; vm_compute; reflexivity|constructor].
  - apply C36_hypotheses.
  - intros s t _ _ _. right. apply cabs2_nonneg.
Qed.
End Ex.
Definition arr_is (r : res (garr QcF)) (i t : nat) (v : vec QcF) : bool := match r with Ok gs => vec_eqb (gs i t) v | Err _ => false end.
(* psiR = 3/5 |10> + 4/5 |01>: the resolvent (z + H)/(z^2 - 1) gives (z + 24/25)/(z^2 - 1), at z = 1 + i *)
Example C36_spectra_example :
  map (fun r => arr_is r 0 0 [(qi 49 25 1 1 / qi (-1) 1 2 1)%C] && arr_is r 1 1 [(c1 / qi 2 1 1 1)%C])
    (getSpectra qsqrt 5 2 hop_op [q 1 1] (q 1 1) None 4 (q 0 1) (fun _ _ _ l => l) 3 [t_34; t_out] [sp_psi; hop_psi] [q 0 1; q 1 1] EigenStates) = [true; true; true].
Proof. vm_compute. auto. Qed.

(* ---- C38 ---- *)
(* mode eigen_states: all ranks obtain the same array, for every number of ranks *)
Theorem C38_eigen_states : forall (F : ofield) (fsqrt : F -> F) n op rs tOps psis, spectra_input n op rs tOps psis ->
  forall fuel w delta ks swm es ord ord' R R', (2 ^ n < fuel)%nat -> (1 <= R)%nat -> (1 <= R')%nat ->
  let out := getSpectra fsqrt fuel (Z.of_nat n) op w delta rs ks swm ord R tOps psis es EigenStates in
  let out' := getSpectra fsqrt fuel (Z.of_nat n) op w delta rs ks swm ord' R' tOps psis es EigenStates in
  (exists gs gs', out = repeat (Ok gs) R /\ out' = repeat (Ok gs') R' /\
     forall i t, (i < length es)%nat -> (t < length tOps)%nat -> gs i t = gs' i t) \/
  (length out = R /\ length out' = R' /\ Forall (fun x => is_ok x = false) out /\ Forall (fun x => is_ok x = false) out').
Proof.
  exact (fun F fsqrt n op rs tOps psis HI fuel w delta ks swm es ord ord' R R' Hf =>
    es_ranks fsqrt n op rs (proj1 HI) (proj1 (proj2 HI)) fuel Hf w delta ks swm tOps (proj1 (proj2 (proj2 HI))) psis (proj2 (proj2 (proj2 HI))) es ord ord' R R').
Qed.
Print Assumptions C38_eigen_states.
(* mode H_build: what rank 0 obtains does not depend on the number of ranks *)
Theorem C38_spectra_rank0_partial : forall (F : ofield) (fsqrt : F -> F) n op rs tOps psis, spectra_input n op rs tOps psis ->
  forall fuel w delta ks swm es (ord ord' : nat -> nat -> nat -> set_order) R R', (2 ^ n < fuel)%nat -> delta <> 0%F ->
  (forall t i q l, Permutation (ord t i q l) l) -> (forall t i q l, Permutation (ord' t i q l) l) -> (1 <= R)%nat -> (1 <= R')%nat ->
  exists r others others', getSpectra fsqrt fuel (Z.of_nat n) op w delta rs ks swm ord R tOps psis es SHBuild = r :: others /\
    getSpectra fsqrt fuel (Z.of_nat n) op w delta rs ks swm ord' R' tOps psis es SHBuild = r :: others'.
Proof.
  exact (fun F fsqrt n op rs tOps psis HI fuel w delta ks swm es ord ord' R R' Hf Hd Ho Ho' =>
    hb_ranks fsqrt n op rs (proj1 HI) (proj1 (proj2 HI)) fuel Hf w delta Hd ks swm tOps (proj1 (proj2 (proj2 HI))) psis (proj2 (proj2 (proj2 HI))) es ord ord' Ho Ho' R R').
Qed.
Print Assumptions C38_spectra_rank0_partial.
(* mode H_build: the other ranks obtain <psiR|psiR> / (omega + i delta + e), whatever the Hamiltonian *)
Theorem C38_spectra_other_ranks : forall (F : ofield) (fsqrt : F -> F) n op rs tOps psis, spectra_input n op rs tOps psis ->
  sqrt_laws fsqrt -> assert_hermitian op = Ok tt ->
  forall fuel w delta ks swm es h, (2 ^ n < fuel)%nat -> delta <> 0%F -> restricted_op n op rs h -> Z.of_nat (2 ^ n) <= ks ->
  forall ord : nat -> nat -> nat -> set_order, (forall t i q l, Permutation (ord t i q l) l) ->
  forall R i t e tOp g0 rest, (1 <= R)%nat ->
  getSpectra fsqrt fuel (Z.of_nat n) op w delta rs ks swm ord R tOps psis es SHBuild = map Ok (g0 :: rest) ->
  nth_error es i = Some e -> nth_error tOps t = Some tOp ->
  exists psi cache psiR, nth_error psis i = Some psi /\ cache_ok n tOp swm rs cache /\
    snd (applyOp (Z.of_nat n) tOp psi swm rs (Some cache)) = Ok psiR /\ length (g0 i t) = length w /\
    (forall k, (k < length w)%nat -> fock_green n (mkC (nth k w 0 + e)%F delta) h psiR (nth k (g0 i t) c0)) /\
    forall gr, In gr rest -> gr i t = map (fun x => creal (norm2 psiR) / mkC (x + e)%F delta)%C w.
Proof.
  exact (fun F fsqrt n op rs tOps psis HI HS HH fuel w delta ks swm es h Hf Hd Hop Hks ord Ho R i t e tOp g0 rest =>
    hb_values fsqrt n op rs (proj1 HI) (proj1 (proj2 HI)) fuel Hf w delta ks swm tOps (proj1 (proj2 (proj2 HI))) psis (proj2 (proj2 (proj2 HI))) es h HS HH Hd Hop Hks ord Ho R i t e tOp g0 rest).
Qed.
Print Assumptions C38_spectra_other_ranks.
(* the ranks disagree *)
Theorem C38_spectra_same_on_all_ranks_refuted : exists (op : op_t QcF) tOps psis, spectra_input 2 op None tOps psis /\ assert_hermitian op = Ok tt /\
  exists g0 g1, getSpectra qsqrt 5 2 op [q 1 1] (q 1 1) None 4 (q 0 1) (fun _ _ _ l => l) 2 tOps psis [q 0 1] SHBuild = [Ok g0; Ok g1] /\
    vec_eqb (g0 0%nat 0%nat) (g1 0%nat 0%nat) = false.
Proof.
  exists hop_op, [t_34], [sp_psi]. split; [|split; [apply C36_spectra_input|]].
  { split; [wf_op_ex|]. split; [exact I|]. split; (apply Forall_cons; [|apply Forall_nil]); [wf_op_ex|valid_ex]. }
  set (o := getSpectra _ _ _ _ _ _ _ _ _ _ _ _ _ _ _).
  assert (E : length o = 2%nat /\ forallb is_ok o = true) by (split; vm_compute; reflexivity).
  assert (G : forall l : list (res (garr QcF)), length l = 2%nat /\ forallb is_ok l = true ->
     l = [Ok (match nth 0 l (Err OutOfFuel) with Ok x => x | Err _ => gzeros 0 end); Ok (match nth 1 l (Err OutOfFuel) with Ok x => x | Err _ => gzeros 0 end)]).
  { intros [|[a|] [|[b|] [|? ?]]] [H1 H2]; try discriminate. reflexivity. }
  exists (match nth 0 o (Err OutOfFuel) with Ok x => x | Err _ => gzeros 0 end), (match nth 1 o (Err OutOfFuel) with Ok x => x | Err _ => gzeros 0 end).
  split; [exact (G o E)|]. vm_compute. reflexivity.
Qed.
Print Assumptions C38_spectra_same_on_all_ranks_refuted.
Example C38_spectra_hypotheses : spectra_input 2 (@hop_op RF) None [t_in; t_out] [sp_psi; hop_psi] /\ sqrt_laws (sqrt : RF -> RF) /\
  assert_hermitian (@hop_op RF) = Ok tt /\ (exists h, restricted_op 2 (@hop_op RF) None h) /\ (2 ^ 2 < 5)%nat /\ Z.of_nat (2 ^ 2) <= 4.
Proof. split; [apply C36_spectra_input|]. split; [exact sqrt_laws_R|]. split; [apply C36_spectra_input|]. split; [apply C36_restricted_operator|]. simpl. lia. Qed.
