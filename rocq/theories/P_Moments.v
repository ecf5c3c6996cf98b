(* C72: a calculation with too few Lanczos vectors keeps the first moments of the spectrum. *)
From Coq Require Import QArith Qcanon Reals Permutation Lia.
From Verif Require Import M_Prelude M_Scalar M_PSR M_Ladder M_State M_Mpi M_Hamiltonian M_Lanczos M_Average M_Spectra M_RIXS.
From Verif Require Import S_Fock S_Ops S_Ham S_Green S_Moments S_Spectra S_RIXS.
From Verif Require Import L_Scalar L_Sum L_Vec L_Fock L_State L_Ops L_FockP L_Green L_Green3 L_Green4 L_Moments2 L_RIXS3 L_RIXS4 X_Util X_Reals X_Gauss P_Fock P_Green P_Spectra P_RIXS.
Local Open Scope Z_scope.

(* ---- the two Lanczos routines ---- *)
Theorem C72_serial : forall (F : ofield) (fsqrt : F -> F), sqrt_laws fsqrt -> forall (h : mat F) psi0 ks al be,
  hermitian (length psi0) h -> ip (length psi0) (vf psi0) (vf psi0) = c1 ->
  get_tridiagonal_krylov_vectors fsqrt h psi0 ks = Ok (al, be) ->
  Z.of_nat (length al) = Z.min ks (Z.of_nat (length psi0)) /\
  forall p, (p < 2 * length al)%nat -> moment (length al) (tridiag al be) unit0 p = moment (length psi0) h (vf psi0) p.
Proof. exact (@serial_moments). Qed.
Print Assumptions C72_serial.
Theorem C72_parallel : forall (F : ofield) (fsqrt : F -> F), sqrt_laws fsqrt -> forall (hs : list (mat F)) (M : mat F) psi0 ks al be rest,
  (forall i j, M i j = csum (fun mr : mat F => mr i j) hs) ->
  hermitian (length psi0) M -> ip (length psi0) (vf psi0) (vf psi0) = c1 ->
  get_tridiagonal_krylov_vectors_local fsqrt hs psi0 ks = Ok (al, be) :: rest ->
  Z.of_nat (length al) = Z.min ks (Z.of_nat (length psi0)) /\
  forall p, (p < 2 * length al)%nat -> moment (length al) (tridiag al be) unit0 p = moment (length psi0) M (vf psi0) p.
Proof. exact (@local_moments). Qed.
Print Assumptions C72_parallel.
(* A chain of three sites and two Lanczos vectors: the moments 1, 0, 1, 0 of both matrices, then 1 and 2.  So the number
   2k cannot be increased. *)
Definition chain {F : ofield} : mat F := fun i j => match i, j with 0%nat, 1%nat | 1%nat, 0%nat | 1%nat, 2%nat | 2%nat, 1%nat => c1 | _, _ => c0 end.
Section Ex72.
Context {F : ofield}.
Add Field Ff72 : (f_field F).
Example C72_hypotheses : hermitian (length [@c1 F; c0; c0]) (@chain F) /\ ip (length [@c1 F; c0; c0]) (vf [@c1 F; c0; c0]) (vf [c1; c0; c0]) = c1.
Proof.
  split; [|apply cx_ext; simpl; ring].
  intros [|[|[|i]]] [|[|[|j]]] Hi Hj; simpl in Hi, Hj; try lia; apply cx_ext; simpl; ring.
Qed.
End Ex72.
Definition e0_3 : vec QcF := [c1; c0; c0].
Definition ab_of (r : res (list QcF * list QcF)) : list QcF * list QcF := match r with Ok x => x | Err _ => ([], []) end.
Definition chain_ab := ab_of (get_tridiagonal_krylov_vectors qsqrt chain e0_3 2).
Lemma ceqb_yes (a b : cx QcF) : ceqb a b = true -> a = b.
Proof. destruct (ceqb_spec a b); [auto|discriminate]. Qed.
Lemma ceqb_no (a b : cx QcF) : ceqb a b = false -> a <> b.
Proof. destruct (ceqb_spec a b); [discriminate|auto]. Qed.
Lemma ok_ab r : is_ok r = true -> r = Ok (ab_of r).
Proof. destruct r; [reflexivity|discriminate]. Qed.
Theorem C72_sharp : get_tridiagonal_krylov_vectors qsqrt chain e0_3 2 = Ok chain_ab /\ length (fst chain_ab) = 2%nat /\
  (forall p, (p < 4)%nat -> moment 2 (tridiag (fst chain_ab) (snd chain_ab)) unit0 p = moment 3 chain (vf e0_3) p) /\
  moment 2 (tridiag (fst chain_ab) (snd chain_ab)) unit0 4 <> moment 3 chain (vf e0_3) 4.
Proof.
  split; [apply ok_ab; vm_compute; reflexivity|]. split; [vm_compute; reflexivity|]. split.
  - intros p Hp. apply ceqb_yes. do 4 (destruct p as [|p]; [vm_compute; reflexivity|]). lia.
  - apply ceqb_no. vm_compute. reflexivity.
Qed.
Print Assumptions C72_sharp.

(* ---- getGreen: any krylovSize ---- *)
Theorem C72_getGreen_serial : forall (F : ofield) (fsqrt : F -> F), sqrt_laws fsqrt -> forall n op rs psi, green_input n op rs psi ->
  forall fuel ord e omega delta ks swm hs mode h, mode = GDense \/ mode = GSparse ->
  Forall (hdict_exact n op rs) hs -> (2 ^ n < fuel)%nat -> hs <> [] -> delta <> 0%F -> restricted_op n op rs h ->
  exists basis, is_closure n op rs (dkeys psi) basis /\ forall h' g,
    In (h', Ok g) (getGreen fsqrt fuel ord (Z.of_nat n) e psi op omega delta ks swm rs hs mode Serial) ->
    lanczos_green n h psi (Z.to_nat (Z.min ks (Z.of_nat (length basis)))) (mesh_z omega e delta) g.
Proof.
  exact (fun F fsqrt HS n op rs psi HI fuel ord e omega delta ks swm hs mode h Hm HF Hf Hh Hd Hop =>
    match serial_lanczos fsqrt HS n op rs psi HI fuel ord e omega delta ks swm hs mode h Hm HF Hf Hh Hd Hop with
    | ex_intro _ b (conj HC H) => ex_intro _ b (conj HC (fun h' g Hin => proj1 (H h' g Hin))) end).
Qed.
Print Assumptions C72_getGreen_serial.
Theorem C72_getGreen_H_build : forall (F : ofield) (fsqrt : F -> F), sqrt_laws fsqrt -> forall n op rs psi, green_input n op rs psi ->
  forall fuel (ord : nat -> set_order) e omega delta ks swm hs mode h, mode = GDense \/ mode = GSparse ->
  (forall r l, Permutation (ord r l) l) -> Forall (hdict_exact n op rs) hs -> NoDup (flat_map dkeys hs) ->
  (2 ^ n < fuel)%nat -> hs <> [] -> delta <> 0%F -> restricted_op n op rs h ->
  exists basis, is_closure n op rs (dkeys psi) basis /\ forall h' g rest,
    getGreen fsqrt fuel ord (Z.of_nat n) e psi op omega delta ks swm rs hs mode HBuild = (h', Ok g) :: rest ->
    lanczos_green n h psi (Z.to_nat (Z.min ks (Z.of_nat (length basis)))) (mesh_z omega e delta) g.
Proof. exact (@hbuild_lanczos). Qed.
Print Assumptions C72_getGreen_H_build.
(* One electron on a chain of three sites, z = 1 + i.  Two Lanczos vectors: 1/(z - 1/z); three: 1/(z - 1/(z - 1/z)). *)
Definition chain_op {F : ofield} : op_t F := [([(0, C_); (1, A_)], c1); ([(1, C_); (0, A_)], c1); ([(1, C_); (2, A_)], c1); ([(2, C_); (1, A_)], c1)].
Definition chain_psi {F : ofield} : psi_t F := [(key [true; false; false], c1)].
Example C72_getGreen_example : forall z, z = qi 1 1 1 1 ->
  forallb (fun r => res_vec_is r [(c1 / (z - c1 / z))%C])
    (gvals (getGreen qsqrt 9 (fun _ l => l) 3 (q 1 1) chain_psi chain_op [q 0 1] (q 1 1) 2 (q 0 1) None [[]; []] GSparse Serial)) = true /\
  map (fun r => res_vec_is r [(c1 / (z - c1 / z))%C])
    (gvals (getGreen qsqrt 9 (fun _ l => l) 3 (q 1 1) chain_psi chain_op [q 0 1] (q 1 1) 2 (q 0 1) None [[]; []] GSparse HBuild)) = [true; false] /\
  forallb (fun r => res_vec_is r [(c1 / (z - c1 / (z - c1 / z)))%C])
    (gvals (getGreen qsqrt 9 (fun _ l => l) 3 (q 1 1) chain_psi chain_op [q 0 1] (q 1 1) 150 (q 0 1) None [[]; []] GSparse Serial)) = true.
Proof. intros z ->. vm_compute. auto. Qed.
Section Ex72b.
Context {F : ofield}.
Add Field Ff72b : (f_field F).
Example C72_green_input : green_input 3 (@chain_op F) None chain_psi.
Proof.
  assert (Hw : wf_op 3 (@chain_op F)) by (apply wf_opb_ok; vm_compute; reflexivity).
  assert (Hc : cconj (@c1 F) = c1) by (apply cx_ext; simpl; ring).
  split; [auto|]. split; [exact I|]. split; [|split; [|split]].
  - apply (proj2 (assert_hermitian_iff chain_op (proj1 Hw))). split.
    { eapply Forall_impl; [|exact (proj2 Hw)]. intros ph H. eapply Forall_impl; [|exact H]. intros l [_ Hl]. exact Hl. }
    intros p h E. unfold chain_op in *. rewrite !L_Dict.dget_cons in E.
    destruct (eqb_spec p [(0, C_); (1, A_)]) as [->|]; [injection E as <-; rewrite Hc; reflexivity|].
    destruct (eqb_spec p [(1, C_); (0, A_)]) as [->|]; [injection E as <-; rewrite Hc; reflexivity|].
    destruct (eqb_spec p [(1, C_); (2, A_)]) as [->|]; [injection E as <-; rewrite Hc; reflexivity|].
    destruct (eqb_spec p [(2, C_); (1, A_)]) as [->|]; [injection E as <-; rewrite Hc; reflexivity|]. discriminate.
  - apply valid_psib_ok; vm_compute; reflexivity.
  - unfold norm2, chain_psi, cabs2; simpl; ring.
  - intros c _ _. exact I.
Qed.
End Ex72b.
Example C72_all_hypotheses : sqrt_laws (sqrt : RF -> RF) /\ green_input 3 (@chain_op RF) None chain_psi /\ exists h, restricted_op 3 (@chain_op RF) None h.
Proof. exact (conj sqrt_laws_R (conj C72_green_input (proj1 (C36_restricted_operator RF 3 chain_op) None))). Qed.

(* ---- getSpectra: any krylovSize ---- *)
Theorem C72_eigen_states : forall (F : ofield) (fsqrt : F -> F) n op rs tOps psis, spectra_input n op rs tOps psis ->
  sqrt_laws fsqrt -> assert_hermitian op = Ok tt ->
  forall fuel w delta ks swm es h, (2 ^ n < fuel)%nat -> delta <> 0%F -> restricted_op n op rs h ->
  forall ord R gs i t psi e tOp, (1 <= R)%nat ->
  In (Ok gs) (getSpectra fsqrt fuel (Z.of_nat n) op w delta rs ks swm ord R tOps psis es EigenStates) ->
  nth_error psis i = Some psi -> nth_error es i = Some e -> nth_error tOps t = Some tOp ->
  exists psiR, applyOp (Z.of_nat n) tOp psi swm rs None = (None, Ok psiR) /\ truncated_green n op rs h w delta ks e psiR (gs i t).
Proof.
  exact (fun F fsqrt n op rs tOps psis HI HS HH fuel w delta ks swm es h Hf Hd Hop =>
    es_lanczos fsqrt HS n op rs (proj1 HI) (proj1 (proj2 HI)) HH h Hop fuel Hf w delta Hd ks swm tOps (proj1 (proj2 (proj2 HI))) psis (proj2 (proj2 (proj2 HI))) es).
Qed.
Print Assumptions C72_eigen_states.
(* mode H_build: rank 0; what the other ranks obtain has nothing to do with the Hamiltonian, see C38 *)
Theorem C72_H_build_spectra : forall (F : ofield) (fsqrt : F -> F) n op rs tOps psis, spectra_input n op rs tOps psis ->
  sqrt_laws fsqrt -> assert_hermitian op = Ok tt ->
  forall fuel w delta ks swm es h, (2 ^ n < fuel)%nat -> delta <> 0%F -> restricted_op n op rs h ->
  forall ord : nat -> nat -> nat -> set_order, (forall t i q l, Permutation (ord t i q l) l) ->
  forall R i t e tOp g0 rest, (1 <= R)%nat ->
  getSpectra fsqrt fuel (Z.of_nat n) op w delta rs ks swm ord R tOps psis es SHBuild = map Ok (g0 :: rest) ->
  nth_error es i = Some e -> nth_error tOps t = Some tOp ->
  exists psi cache psiR, nth_error psis i = Some psi /\ cache_ok n tOp swm rs cache /\
    snd (applyOp (Z.of_nat n) tOp psi swm rs (Some cache)) = Ok psiR /\ truncated_green n op rs h w delta ks e psiR (g0 i t) /\
    forall gr, In gr rest -> gr i t = map (fun x => creal (norm2 psiR) / mkC (x + e)%F delta)%C w.
Proof.
  exact (fun F fsqrt n op rs tOps psis HI HS HH fuel w delta ks swm es h Hf Hd Hop =>
    hb_lanczos fsqrt HS n op rs (proj1 HI) (proj1 (proj2 HI)) HH h Hop fuel Hf w delta Hd ks swm tOps (proj1 (proj2 (proj2 HI))) psis (proj2 (proj2 (proj2 HI))) es).
Qed.
Print Assumptions C72_H_build_spectra.
(* the electron added to the chain by 2 c_0: weight 4 and two Lanczos vectors *)
Definition t_2 {F : ofield} : op_t F := [([(0, C_)], (c1 + c1)%C)].
Definition vac3 {F : ofield} : psi_t F := [(key [false; false; false], c1)].
Example C72_spectra_example : forall z, z = qi 1 1 1 1 ->
  map (fun r => arr_is r 0 0 [(qi 4 1 0 1 * (c1 / (z - c1 / z)))%C])
    (getSpectra qsqrt 9 3 chain_op [q 1 1] (q 1 1) None 2 (q 0 1) (fun _ _ _ l => l) 2 [t_2] [vac3] [q 0 1] EigenStates) = [true; true] /\
  map (fun r => arr_is r 0 0 [(qi 4 1 0 1 * (c1 / (z - c1 / z)))%C])
    (getSpectra qsqrt 9 3 chain_op [q 1 1] (q 1 1) None 2 (q 0 1) (fun _ _ _ l => l) 2 [t_2] [vac3] [q 0 1] SHBuild) = [true; false].
Proof. intros z ->. vm_compute. auto. Qed.
Example C72_spectra_hypotheses : spectra_input 3 (@chain_op RF) None [t_2] [vac3] /\ sqrt_laws (sqrt : RF -> RF) /\ assert_hermitian (@chain_op RF) = Ok tt.
Proof.
  destruct (@C72_green_input RF) as (A & B & C & _). split; [|split; [exact sqrt_laws_R|exact C]].
  split; [exact A|]. split; [exact I|]. split; (apply Forall_cons; [|apply Forall_nil]); [wf_op_ex|valid_ex].
Qed.

(* ---- getRIXSmap: any krylovSize ---- *)
(* the Kramers-Heisenberg expression with the last resolvent replaced by its approximation *)
Theorem C72_getRIXSmap : forall (F : ofield) (fsqrt : F -> F) bicgstab n op rs h fuel wIns wLoss delta1 delta2 ks swm tOpsIn psis es op0,
  sqrt_laws fsqrt -> exact_solver bicgstab -> spectra_input n op rs (op0 :: tOpsIn) psis -> assert_hermitian op = Ok tt -> restricted_op n op rs h ->
  (2 ^ n < fuel)%nat -> delta1 <> 0%F -> delta2 <> 0%F -> (swm <= 0)%F ->
  forall ops (ord : nat -> nat -> nat -> set_order) hg pm r gs, (forall t i q l, Permutation (ord t i q l) l) ->
  Forall (hdict_exact n op rs) hg -> hg <> [] ->
  pm <> ROther -> (pm = RHBuild -> r = 0%nat /\ NoDup (flat_map dkeys hg)) ->
  nth_error (getRIXSmap fsqrt bicgstab fuel (Z.of_nat n) op wIns wLoss delta1 delta2 rs ks swm tOpsIn (op0 :: ops) psis es ord hg pm) r = Some (Ok gs) ->
  forall tIn iE tOpIn psi e iw wIn tOut, nth_error tOpsIn tIn = Some tOpIn -> nth_error psis iE = Some psi -> nth_error es iE = Some e -> nth_error wIns iw = Some wIn ->
    (tOut < S (length ops))%nat -> exists psi1 psi2 psi3,
      op_image n tOpIn rs psi psi1 /\ fock_solves n (mkC (wIn + e)%F delta1) h (amp psi2) psi1 /\ op_image n op0 rs psi2 psi3 /\ valid_psi n psi3 /\
      truncated_green n op rs h wLoss delta2 ks e psi3 (gs iE tIn tOut iw).
Proof. exact (@rixs_rows). Qed.
Print Assumptions C72_getRIXSmap.
