(* Further statements about the total Hamiltonian. *)
From Coq Require Import Permutation Ring Field.
From Verif Require Import M_Prelude M_Scalar M_PSR M_Ladder M_State M_Basis M_Expect M_Operators.
From Verif Require Import S_Fock S_Ops S_Basis S_Green S_Expect S_Operators.
From Verif Require Import L_Scalar L_PSR L_Sum L_Dict L_Fock L_State L_ApplyOp L_Ops L_Index L_Expect L_Cubic L_Expect2 L_Expect3 L_Expect5 L_Expect6 L_Operators L_Operators2 L_Operators3 L_Operators4 L_Operators5 L_Operators6 L_Operators7 L_Operators8 L_Operators9.
Local Open Scope Z_scope.

Section A.
Context {F : ofield}.
Add Field Ff : (f_field F).
Add Ring Cring : (@c_ring F).
Variable fint : F -> Z.
Hypothesis fint_ofZ : forall z, fint (fofZ z) = z.
Variable fsqrt : F -> F.
Variable pi : F.
Variable gaunt : Z -> Z -> Z -> Z -> Z -> Z -> F.
Variable nb : nbaths_t.
Variable hp : @ham_params F.
Variable n3d : Z.
Hypothesis Hn3d : dget (hp_n0imps hp) 2 = Some n3d.
Hypothesis HFdd : (5 <= length (hp_Fdd hp))%nat.
(* a 2p shell that is not full is rejected by the double counting *)
Lemma total_2p n2p g : dget (hp_n0imps hp) 1 = Some n2p -> n2p <> 6 -> total_hamiltonian fsqrt pi gaunt fint nb hp g = Err ValueError.
Proof.
  intros H Hne. unfold total_hamiltonian, dgetitem. rewrite Hn3d, H. cbn [bind]. rewrite dc_2p_incomplete; auto.
  - intros (C & _). discriminate.
  - left. intros C. assert (C' : fofZ n2p = @fofZ F 6) by congruence. apply Hne. rewrite <- (fint_ofZ n2p), C'. apply fint_ofZ.
Qed.
Hypothesis W : wf_nbaths nb.
Hypothesis Hp1 : In 1 (angs nb).
Hypothesis Hd2 : In 2 (angs nb).
Hypothesis Hn2p : dget (hp_n0imps hp) 1 = Some 6.
Hypothesis HFpd : (1 <= length (hp_Fpd hp))%nat.
Hypothesis HGpd : (4 <= length (hp_Gpd hp))%nat.
Lemma total_outside (h0 : sop_t F) p v xa : NoDup (dkeys h0) -> dget h0 p = Some v -> v <> c0 -> In xa p -> ~ coord_ok nb (fst xa) ->
  get_hamiltonian_operator fsqrt pi gaunt fint nb hp h0 = Err GenericException.
Proof.
  intros Hn E Hv Hi Hc. unfold get_hamiltonian_operator. rewrite (total_eq fint fint_ofZ fsqrt pi gaunt nb hp n3d) by auto.
  rewrite to_index_err; auto. intros Hin. apply Hc.
  assert (Hk : In p (dkeys (addOps (h_parts fsqrt pi gaunt hp n3d ++ [h0])))).
  { apply (addOps_keys (h_parts fsqrt pi gaunt hp n3d ++ [h0])).
    - apply Forall_app. split; [apply parts_NoDup|auto].
    - exists h0. split; [apply in_or_app; cbn; auto|]. unfold val. rewrite E. auto. }
  pose proof (op_in_keys nb (addOps (h_parts fsqrt pi gaunt hp n3d ++ [h0])) p Hin Hk) as H. rewrite Forall_forall in H. apply (H xa); auto.
Qed.
Lemma pcharge_hop2_N x y : pcharge q_N (hop2 x y) = 0.
Proof. reflexivity. Qed.
Lemma total_conserves (h0 : sop_t F) hOp : NoDup (dkeys h0) -> op_in nb h0 -> conserves q_N h0 ->
  get_hamiltonian_operator fsqrt pi gaunt fint nb hp h0 = Ok hOp -> conserves (fun _ => 1) hOp.
Proof.
  intros Hn Hin Hc E. unfold get_hamiltonian_operator in E. rewrite (total_eq fint fint_ofZ fsqrt pi gaunt nb hp n3d) in E by auto.
  pose proof (sum_in fsqrt pi gaunt nb Hp1 Hd2 hp n3d h0 Hn Hin) as Hs.
  rewrite to_index_ok in E; auto; [|apply addOps_NoDup]. cbn [bind] in E.
  destruct (assert_hermitian _) as [[]|e] in E; [|discriminate]. cbn [bind] in E. injection E as <-.
  assert (C : conserves q_N (addOps (h_parts fsqrt pi gaunt hp n3d ++ [h0]))).
  { apply addOps_conserves.
    - apply Forall_app. split; [apply parts_NoDup|auto].
    - apply Forall_app. split; [|auto]. repeat (apply Forall_cons || apply Forall_nil).
      + apply pd_conserves.
      + apply fld_conserves.
      + apply soc_conserves.
      + apply soc_conserves.
      + intros q Hq. apply dget_Some_key in Hq as [v Hq]. apply eDC_dget, eDC_In in Hq as (x & -> & _). reflexivity. }
  intros q Hq. rewrite idx_keys in Hq. apply in_map_iff in Hq as (r & <- & Hr). specialize (C r Hr).
  unfold pcharge, pidx in *. rewrite map_map. rewrite <- C. reflexivity.
Qed.
(* the crystal-field variant is the same with h0 from the parameters *)
Lemma total_CF nv params b nB nV : b <> OtherBasis -> dget nb (KInt 2) = Some nB -> dget nv (KInt 2) = Some nV -> nV = 10 -> nB = 10 \/ nB = 20 ->
  exists h0, get_CF_hamiltonian fsqrt nb nv (read_h0_CF_file params) b = Ok h0 /\ NoDup (dkeys h0) /\ assert_hermitian h0 = Ok tt /\ op_in nb h0 /\
    conserves q_N h0 /\
    get_hamiltonian_operator_using_CF fsqrt pi gaunt fint nb nv hp params b = get_hamiltonian_operator fsqrt pi gaunt fint nb hp h0.
Proof.
  intros Hb HB HV EV EB. exists (CFop fsqrt (read_h0_CF_file params) b nB nV).
  pose proof (CF_eq fsqrt (read_h0_CF_file params) nb nv b nB nV Hb HB HV) as E.
  split; [exact E|]. split; [apply CF_NoDup|]. split; [apply CF_hermitian|]. split; [|split; [apply A_conserves|]].
  - eapply CF_in_system; eauto.
  - unfold get_hamiltonian_operator_using_CF. rewrite E. reflexivity.
Qed.
Lemma total_CF_err nv params b e : get_CF_hamiltonian fsqrt nb nv (read_h0_CF_file params) b = Err e ->
  get_hamiltonian_operator_using_CF fsqrt pi gaunt fint nb nv hp params b = Err e.
Proof. intros E. unfold get_hamiltonian_operator_using_CF. rewrite E. apply (total_err fint fint_ofZ fsqrt pi gaunt nb hp n3d); auto. Qed.
End A.
