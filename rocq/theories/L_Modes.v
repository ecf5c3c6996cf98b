(* Lemmas: names of modes that do not exist. *)
From Verif Require Import M_Prelude M_Scalar M_PSR M_Ladder M_State M_Mpi M_Hamiltonian M_Lanczos M_Spectra M_RIXS.
Local Open Scope Z_scope.
Section S.
Context {F : ofield}.
Lemma expand_other fuel n (hOp : op_t F) rs ord basis0 hs : expand_basis fuel n hOp rs ord OtherPar basis0 hs = map (fun h => (h, Err GenericException)) hs.
Proof. reflexivity. Qed.
Lemma ebh_other fuel n (hOp : op_t F) rs ord loc basis0 hs : expand_basis_and_hamiltonian fuel n hOp rs ord OtherPar loc basis0 hs = map (fun h => (h, Err GenericException)) hs.
Proof. unfold expand_basis_and_hamiltonian. rewrite expand_other, map_map. reflexivity. Qed.
Lemma green_other (fsqrt : F -> F) fuel ord n e psi hOp omega delta ks swm rs hs mode pm : psi <> [] -> mode = GOther \/ pm = OtherPar \/ mode = GDict /\ pm = HBuild ->
  getGreen fsqrt fuel ord n e psi hOp omega delta ks swm rs hs mode pm = map (fun h => (h, Err (match mode with GDict => AssertionError | _ => GenericException end))) hs.
Proof.
  intros Hp H. unfold getGreen. destruct psi as [|x psi]; [congruence|]. destruct H as [->|[->|[-> ->]]]; [reflexivity| |reflexivity].
  destruct mode; try reflexivity; cbv zeta iota; rewrite ebh_other, map_map; reflexivity.
Qed.
Lemma green_empty (fsqrt : F -> F) fuel ord n e hOp omega delta ks swm rs hs mode pm :
  getGreen fsqrt fuel ord n e [] hOp omega delta ks swm rs hs mode pm = map (fun h => (h, Ok (repeat c0 (length omega)))) hs.
Proof. reflexivity. Qed.
Lemma spectra_other (fsqrt : F -> F) fuel n hOp w delta rs ks swm ord R tOps psis es : getSpectra fsqrt fuel n hOp w delta rs ks swm ord R tOps psis es SOther = repeat (Err GenericException) R.
Proof. reflexivity. Qed.
Lemma rixs_other (fsqrt : F -> F) bicgstab fuel n op wIns wLoss delta1 delta2 rs ks swm tOpsIn tOpsOut psis es ord hg r :
  In r (getRIXSmap fsqrt bicgstab fuel n op wIns wLoss delta1 delta2 rs ks swm tOpsIn tOpsOut psis es ord hg ROther) ->
  exists gs, r = Ok gs /\ forall iE tIn tOut iw, gs iE tIn tOut iw = repeat c0 (length wLoss).
Proof. intros H. apply in_map_iff in H as (h & <- & _). exists (g4zeros (length wLoss)). auto. Qed.
End S.
