(* Specification of another unit of energy: x new units are one old unit. *)
From Coq Require Import String.
From Verif Require Import M_Prelude M_Scalar M_PSR M_State M_Basis M_Operators S_Fock S_Basis S_Expect S_Operators.
From Verif Require S_Dict.
Local Open Scope Z_scope.

Section S.
Context {F : ofield}.
Local Open Scope of_scope.
Variable x : F.
(* energies, and operators whose values are energies *)
Definition energies_in (l : list F) : list F := map (fun e => x * e) l.
Definition op_in_unit {K} (op : dict K (cx F)) : dict K (cx F) := map (fun kv => (fst kv, (creal x * snd kv)%C)) op.
(* the parameters of the Hamiltonian; the occupations are no energies *)
Definition params_in (hp : @ham_params F) : ham_params :=
  mkHP (energies_in (hp_Fdd hp)) (energies_in (hp_Fpp hp)) (energies_in (hp_Fpd hp)) (energies_in (hp_Gpd hp)) (x * hp_xi_2p hp) (x * hp_xi_3d hp) (hp_n0imps hp)
    (x * hp_ctc hp) (x * hp_hx hp) (x * hp_hy hp) (x * hp_hz hp).
Definition cf_in (p : @cf_params F) : cf_params :=
  mkCF (x * e_imp p) (x * e_deltaO_imp p) (x * e_val_eg p) (x * e_val_t2g p) (x * e_con_eg p) (x * e_con_t2g p) (x * v_val_eg p) (x * v_val_t2g p) (x * v_con_eg p) (x * v_con_t2g p).
(* a json file with crystal-field parameters, and the ten entries that a complete one has *)
Definition file_in (parameters : dict string F) : dict string F := map (fun kv => (fst kv, x * snd kv)) parameters.
Definition complete_file (parameters : dict string F) : Prop :=
  forall k, In k ["e_imp"; "e_deltaO_imp"; "e_val_eg"; "e_val_t2g"; "e_con_eg"; "e_con_t2g"; "v_val_eg"; "v_val_t2g"; "v_con_eg"; "v_con_t2g"]%string -> In k (dkeys parameters).
(* printed averages, of which the first is an energy *)
Definition first_in (l : list (cx F)) : list (cx F) := match l with [] => [] | e :: l' => (creal x * e)%C :: l' end.
(* two Hermitian Hamiltonians that are the same in the two units; neither has elements below the cut-off of the code *)
Definition same_hamiltonian (n : nat) (op op' : op_t F) : Prop :=
  wf_op n op /\ wf_op n op' /\ assert_hermitian op = Ok tt /\ assert_hermitian op' = Ok tt /\ S_Dict.no_small n op /\ S_Dict.no_small n op' /\
  forall t s, Datatypes.length t = n -> Datatypes.length s = n -> opelem op' t s = (creal x * opelem op t s)%C.
End S.
