(* The crystal-field parameters. *)
From Coq Require Import String Field.
From Verif Require Import M_Prelude M_Scalar M_Operators S_CF L_Scalar.
Local Open Scope Z_scope.

Section A.
Context {F : ofield}.
Add Field Ff : (f_field F).
Lemma fofZ1 : fofZ 1 = 1%F :> F.
Proof. reflexivity. Qed.
Lemma read_param (params : dict string F) name num den proj : In (name, (num, den), proj) cf_defaults ->
  proj F (read_h0_CF_file params) = match dget params name with Some v => v | None => (fofZ num / fofZ den)%F end.
Proof.
  assert (D : forall z, (fofZ z / fofZ 1 = fofZ z :> F)%F).
  { intros z. rewrite fofZ1. field. apply (F_1_neq_0 (f_field F)). }
  intros H. cbn [cf_defaults In] in H.
  repeat (destruct H as [H|H]; [injection H as <- <- <- <-; unfold read_h0_CF_file, dec; cbv beta zeta delta [e_imp e_deltaO_imp e_val_eg e_val_t2g e_con_eg e_con_t2g v_val_eg v_val_t2g v_con_eg v_con_t2g] iota; destruct (dget _ _); first [reflexivity|symmetry; apply D]|]).
  destruct H.
Qed.
End A.
