(* The wrong arguments of the functions constructing the Hamiltonian matrix. *)
From Verif Require Import M_Prelude M_Scalar M_PSR M_Ladder M_State M_Mpi M_Hamiltonian.
Local Open Scope Z_scope.
Section S.
Context {F : ofield}.
Lemma ham_other_mode n (op : op_t F) basis ranks : get_hamiltonian_matrix ranks OtherMode n op basis = repeat (Err UnboundLocalError) ranks.
Proof. reflexivity. Qed.
Lemma from_h_serial_local ord (hs : list (hdict_t F)) basis mode : get_hamiltonian_matrix_from_h_dict ord hs basis Serial true mode = map (fun _ => Err AssertionError) hs.
Proof. reflexivity. Qed.
Lemma from_h_wrong ord (hs : list (hdict_t F)) basis pm loc mode : ~ (pm = Serial /\ loc = true) -> (mode = OtherFmt \/ pm = OtherPar \/ (mode = Dense /\ pm = HBuild)) ->
  get_hamiltonian_matrix_from_h_dict ord hs basis pm loc mode = map (fun _ => Err GenericException) hs.
Proof. intros N [->|[->|[-> ->]]]; [destruct pm, loc|destruct loc, mode|destruct loc]; try reflexivity. destruct N. auto. Qed.
End S.
