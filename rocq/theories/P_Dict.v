(* Properties of getGreen in mode dict; for the matrix modes see P_Green. *)
From Coq Require Import QArith Qcanon Reals.
From Verif Require Import M_Prelude M_Scalar M_PSR M_Ladder M_State M_Mpi M_Hamiltonian M_Lanczos S_Fock S_Ops S_Ham S_Green S_Dict.
From Verif Require Import L_Scalar L_Sum L_State L_Ops L_Fock L_Green6 X_Util X_Reals P_Fock P_Green.
Local Open Scope Z_scope.

(* ---- C35 ---- *)
Theorem C35_dict : forall (F : ofield) (fsqrt : F -> F), sqrt_laws fsqrt -> forall n op rs psi, green_input n op rs psi ->
  forall cs, closed_configs n op rs psi cs ->
  forall swm ks h h' al be, (swm <= 0)%F -> hdict_full n op rs h ->
  dict_krylov fsqrt (Z.of_nat n) op swm rs psi ks h = (h', Ok (al, be)) ->
  ks <= Z.of_nat (length cs) /\ tridiagonalises (length cs) (op_matrix op cs) (vf (map (amp psi) cs)) ks al be.
Proof. exact (@dict_tridiag). Qed.
Print Assumptions C35_dict.
(* a closed set of configurations always exists *)
Theorem C35_dict_closed_set : forall (F : ofield) n (op : op_t F) rs psi, green_input n op rs psi -> exists cs, closed_configs n op rs psi cs.
Proof. exact (@closed_exists). Qed.
Print Assumptions C35_dict_closed_set.

(* ---- C36 ---- *)
Theorem C36_dict : forall (F : ofield) (fsqrt : F -> F), sqrt_laws fsqrt -> forall n op rs psi, green_input n op rs psi ->
  forall cs, closed_configs n op rs psi cs ->
  forall fuel ord e omega delta ks swm hs h, (swm <= 0)%F -> Forall (hdict_full n op rs) hs -> delta <> 0%F -> projected_op n op rs h ->
  Z.of_nat (length cs) <= ks -> forall h' g,
  In (h', Ok g) (getGreen fsqrt fuel ord (Z.of_nat n) e psi op omega delta ks swm rs hs GDict Serial) ->
  length g = length omega /\
  forall k, (k < length omega)%nat -> fock_green n (mkC (nth k omega 0 + e)%F delta) h psi (nth k g c0).
Proof. exact (@dict_exact). Qed.
Print Assumptions C36_dict.

(* ---- C37 ---- *)
(* In mode dict krylovSize must also not exceed the number of reachable configurations. *)
Theorem C37_dict_value_iff_partial : forall (F : ofield) (fsqrt : F -> F), sqrt_laws fsqrt -> forall n op rs psi, green_input n op rs psi ->
  forall cs, closed_configs n op rs psi cs ->
  forall fuel ord e omega delta ks swm hs, (swm <= 0)%F -> Forall (hdict_full n op rs) hs ->
  forall out, In out (getGreen fsqrt fuel ord (Z.of_nat n) e psi op omega delta ks swm rs hs GDict Serial) ->
  (is_ok (snd out) = true <-> 1 <= ks /\
     ~ exists d W, Z.of_nat d < ks /\ orthonormal (length cs) d W /\
         invariant (length cs) (op_matrix op cs) d W /\ in_span (length cs) d W (psi_vector psi cs)) /\
  (is_ok (snd out) = false -> snd out = Err (if (ks <? 0)%Z then ValueError else if (ks =? 0)%Z then IndexError else AttributeError)).
Proof. exact (@dict_ok_iff). Qed.
Print Assumptions C37_dict_value_iff_partial.

(* ---- C38 ---- *)
(* mode dict on every rank against a matrix mode on one rank *)
Theorem C38_dict : forall (F : ofield) (fsqrt : F -> F), sqrt_laws fsqrt -> forall n op rs psi, green_input n op rs psi -> no_small n op ->
  forall fuel ord e omega delta ks swm hs swm' h mode, (swm <= 0)%F -> mode = GDense \/ mode = GSparse ->
  Forall (hdict_full n op rs) hs -> hdict_exact n op rs h -> (2 ^ n < fuel)%nat -> 1 <= ks ->
  exists basis, is_closure n op rs (dkeys psi) basis /\
    forall r, map snd (getGreen fsqrt fuel ord (Z.of_nat n) e psi op omega delta ks swm' rs [h] mode Serial) = [r] ->
    map snd (getGreen fsqrt fuel ord (Z.of_nat n) e psi op omega delta ks swm rs hs GDict Serial) =
      repeat (if ks <=? Z.of_nat (length basis) then class_attr r else Err AttributeError) (length hs).
Proof. exact (@dict_matrix). Qed.
Print Assumptions C38_dict.

(* hopping between two orbitals meets the hypotheses; the configurations are 10 and 01 *)
Section ExDict.
Context {F : ofield}.
Example C38_dict_hypotheses : green_input 2 (@hop_op F) hop_rs hop_psi /\ closed_configs 2 (@hop_op F) hop_rs hop_psi [[true; false]; [false; true]] /\
  hdict_full 2 (@hop_op F) hop_rs [] /\ projected_op 2 (@hop_op F) hop_rs (fun t s => if L_Green.allowed_opt_dec hop_rs t then opelem hop_op t s else c0).
Proof.
  split; [apply C36_hypotheses|]. split; [|split; [intros k col E; discriminate|]].
  - split; [repeat constructor; simpl; intuition discriminate|]. split.
    { intros c [<-|[<-|[]]]; split; auto; repeat constructor; simpl; lia. }
    split.
    { intros c Lc [E|[]]. apply key_inj in E; [subst; left; auto|rewrite Lc; auto]. }
    intros s t Hs Lt At Hne. destruct t as [|[|] [|[|] [|]]]; try discriminate Lt; [exfalso|left; auto|right; left; auto|exfalso];
      inversion At as [|? ? HA _]; subst; simpl in HA; lia.
  - intros t s _ _. destruct (L_Green.allowed_opt_dec hop_rs t); split; tauto.
Qed.
End ExDict.
(* krylovSize 1, 2 and 3, on two ranks *)
Example C38_dict_example :
  map (fun ks => forallb (fun r => res_vec_is r [qi 1 2 (-1) 2])
    (gvals (getGreen qsqrt 5 (fun _ l => l) 2 (q 1 1) hop_psi hop_op [q 0 1] (q 1 1) ks (q 0 1) hop_rs [[]; []] GDict Serial))) [1; 2] = [true; false] /\
  gvals (getGreen qsqrt 5 (fun _ l => l) 2 (q 1 1) hop_psi hop_op [q 0 1] (q 1 1) 3 (q 0 1) hop_rs [[]; []] GDict Serial) = [Err AttributeError; Err AttributeError] /\
  gvals (getGreen qsqrt 5 (fun _ l => l) 2 (q 1 1) hop_psi hop_op [q 0 1] (q 1 1) 0 (q 0 1) hop_rs [[]] GDict Serial) = [Err IndexError].
Proof. split; [vm_compute; reflexivity|]. split; vm_compute; reflexivity. Qed.
