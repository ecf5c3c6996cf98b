(* Properties of unknown names of modes: C97. *)
From Coq Require Import QArith Qcanon.
From Verif Require Import M_Prelude M_Scalar M_PSR M_Ladder M_State M_Mpi M_Hamiltonian M_Lanczos M_Spectra M_RIXS.
From Verif Require Import L_Modes X_Util X_Gauss P_Fock P_Green P_Spectra P_RIXS.
Local Open Scope Z_scope.

(* ---- C97: a mode that does not exist ---- *)
(* full statement: every function with an argument mode or parallelization_mode raises an exception on every rank if the name is not one of those in its description,
   and leaves h_dict alone.  True for these functions (see C22_other_mode and C29_wrong_refused for the matrices): *)
Theorem C97_expand_basis_partial : forall (F : ofield) fuel n (hOp : op_t F) rs ord basis0 hs, expand_basis fuel n hOp rs ord OtherPar basis0 hs = map (fun h => (h, Err GenericException)) hs.
Proof. exact (@expand_other). Qed.
Theorem C97_expand_hamiltonian_partial : forall (F : ofield) fuel n (hOp : op_t F) rs ord loc basis0 hs, expand_basis_and_hamiltonian fuel n hOp rs ord OtherPar loc basis0 hs = map (fun h => (h, Err GenericException)) hs.
Proof. exact (@ebh_other). Qed.
(* the state must not be empty *)
Theorem C97_getGreen_partial : forall (F : ofield) (fsqrt : F -> F) fuel ord n e psi hOp omega delta ks swm rs hs mode pm, psi <> [] -> mode = GOther \/ pm = OtherPar \/ mode = GDict /\ pm = HBuild ->
  getGreen fsqrt fuel ord n e psi hOp omega delta ks swm rs hs mode pm = map (fun h => (h, Err (match mode with GDict => AssertionError | _ => GenericException end))) hs.
Proof. exact (@green_other). Qed.
Theorem C97_getSpectra_partial : forall (F : ofield) (fsqrt : F -> F) fuel n hOp w delta rs ks swm ord R tOps psis es, getSpectra fsqrt fuel n hOp w delta rs ks swm ord R tOps psis es SOther = repeat (Err GenericException) R.
Proof. exact (@spectra_other). Qed.
(* getRIXSmap has no else: a misspelt mode gives a map of zeros on every rank, for all other arguments *)
Theorem C97_getRIXSmap_zeros_partial : forall (F : ofield) (fsqrt : F -> F) bicgstab fuel n op wIns wLoss delta1 delta2 rs ks swm tOpsIn tOpsOut psis es ord hg r,
  In r (getRIXSmap fsqrt bicgstab fuel n op wIns wLoss delta1 delta2 rs ks swm tOpsIn tOpsOut psis es ord hg ROther) ->
  exists gs, r = Ok gs /\ forall iE tIn tOut iw, gs iE tIn tOut iw = repeat c0 (length wLoss).
Proof. exact (@rixs_other). Qed.
(* and this is not the map: all four modes that exist give the same other value *)
Theorem C97_getRIXSmap_refuted : exists bicgstab fuel n (op : op_t QcF) wIns wLoss delta1 delta2 rs ks swm tOpsIn tOpsOut psis es ord hg gs,
  let run := getRIXSmap qsqrt bicgstab fuel n op wIns wLoss delta1 delta2 rs ks swm tOpsIn tOpsOut psis es ord hg in
  In (Ok gs) (run ROther) /\ forall pm, pm <> ROther -> exists gs', nth_error (run pm) 0 = Some (Ok gs') /\ gs' 0%nat 0%nat 0%nat 0%nat <> gs 0%nat 0%nat 0%nat 0%nat.
Proof.
  exists gauss, 5%nat, 2, rx_op, [q 4 1; q 1 1], [q 1 1], (q 4 1), (q 1 1), None, 4, (q 0 1), [t_0], [t_out; t_1], [sp_psi], [q 0 1], (fun _ _ _ l => l), [[]; []], (g4zeros 1).
  cbv zeta. split; [left; reflexivity|]. intros pm Hpm. change (exists gs', nth_error (rx_run pm) 0 = Some (Ok gs') /\ gs' 0%nat 0%nat 0%nat 0%nat <> g4zeros 1 0%nat 0%nat 0%nat 0%nat).
  assert (E : match nth_error (rx_run pm) 0 with Some (Ok gs') => vec_eqb (gs' 0%nat 0%nat 0%nat 0%nat) [qi 1 50 (-1) 50] | _ => false end = true) by (destruct pm; try congruence; vm_compute; reflexivity).
  destruct (nth_error (rx_run pm) 0) as [[gs'|]|]; try discriminate E. exists gs'. split; [reflexivity|]. intros H. rewrite H in E. vm_compute in E. discriminate E.
Qed.
(* getGreen returns before it looks at the mode *)
Theorem C97_getGreen_refuted : exists (F : ofield) (fsqrt : F -> F) fuel ord n e psi hOp omega delta ks swm rs h g, getGreen fsqrt fuel ord n e psi hOp omega delta ks swm rs [h] GOther OtherPar = [(h, Ok g)].
Proof. exists QcF, qsqrt, 5%nat, (fun _ l => l), 2, (q 0 1), [], hop_op, [q 1 1], (q 1 1), 4, (q 0 1), None, [], [c0]. reflexivity. Qed.
Print Assumptions C97_expand_basis_partial.
Print Assumptions C97_expand_hamiltonian_partial.
Print Assumptions C97_getGreen_partial.
Print Assumptions C97_getSpectra_partial.
Print Assumptions C97_getRIXSmap_zeros_partial.
Print Assumptions C97_getRIXSmap_refuted.
Print Assumptions C97_getGreen_refuted.
(* two ranks and a state that is not empty; with the right name the same arguments give a value *)
Example C97_example : @sp_psi QcF <> [] /\ map snd (getGreen qsqrt 5 (fun _ l => l) 2 (q 0 1) sp_psi hop_op [q 1 1] (q 1 1) 4 (q 0 1) None [[]; []] GSparse OtherPar) = [Err GenericException; Err GenericException] /\
  forallb (fun x => is_ok (snd x)) (getGreen qsqrt 5 (fun _ l => l) 2 (q 0 1) sp_psi hop_op [q 1 1] (q 1 1) 4 (q 0 1) None [[]; []] GSparse HBuild) = true /\
  map is_ok (rx_run ROther) = [true; true].
Proof. split; [discriminate|]. split; [reflexivity|]. split; vm_compute; reflexivity. Qed.
