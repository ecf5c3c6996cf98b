(* Properties C08 - C19: second quantisation on multi-configurational states. *)
From Coq Require Import QArith Qcanon Permutation.
From Verif Require Import M_Prelude M_Scalar M_PSR M_Ladder M_State S_Fock S_Ops.
From Verif Require Import L_Scalar L_Fock L_State L_ApplyOp L_Ops L_FockP X_Util.
Local Open Scope Z_scope.

(* Example system: 3 orbitals; psi = 1/2 |100> + i |011>, phi = |110> - 2 |011>. *)
Definition ex_psi : psi_t QcF := [(key [true; false; false], qr 1 2); (key [false; true; true], qi 0 1 1 1)].
Definition ex_phi : psi_t QcF := [(key [true; true; false], qr 1 1); (key [false; true; true], qr (-2) 1)].
Example ex_psi_valid : valid_psi 3 ex_psi. Proof. valid_ex. Qed.
Example ex_phi_valid : valid_psi 3 ex_phi. Proof. valid_ex. Qed.

(* C08: anticommutation relations of the functions a and c *)
Theorem C08_annihilators_anticommute : forall (F : ofield) n i j (psi : psi_t F),
  (i < n)%nat -> (j < n)%nat -> valid_psi n psi ->
  exists p1 p2 q1 q2,
    op_a (Z.of_nat n) (Z.of_nat j) psi = Ok p1 /\ op_a (Z.of_nat n) (Z.of_nat i) p1 = Ok p2 /\
    op_a (Z.of_nat n) (Z.of_nat i) psi = Ok q1 /\ op_a (Z.of_nat n) (Z.of_nat j) q1 = Ok q2 /\
    forall t, length t = n -> (amp p2 t + amp q2 t)%C = c0.
Proof. exact (@car_aa). Qed.
Print Assumptions C08_annihilators_anticommute.
Theorem C08_creators_anticommute : forall (F : ofield) n i j (psi : psi_t F),
  (i < n)%nat -> (j < n)%nat -> valid_psi n psi ->
  exists p1 p2 q1 q2,
    op_c (Z.of_nat n) (Z.of_nat j) psi = Ok p1 /\ op_c (Z.of_nat n) (Z.of_nat i) p1 = Ok p2 /\
    op_c (Z.of_nat n) (Z.of_nat i) psi = Ok q1 /\ op_c (Z.of_nat n) (Z.of_nat j) q1 = Ok q2 /\
    forall t, length t = n -> (amp p2 t + amp q2 t)%C = c0.
Proof. exact (@car_cc). Qed.
Print Assumptions C08_creators_anticommute.
Theorem C08_mixed_anticommutator : forall (F : ofield) n i j (psi : psi_t F),
  (i < n)%nat -> (j < n)%nat -> valid_psi n psi ->
  exists p1 p2 q1 q2,
    op_c (Z.of_nat n) (Z.of_nat j) psi = Ok p1 /\ op_a (Z.of_nat n) (Z.of_nat i) p1 = Ok p2 /\
    op_a (Z.of_nat n) (Z.of_nat i) psi = Ok q1 /\ op_c (Z.of_nat n) (Z.of_nat j) q1 = Ok q2 /\
    forall t, length t = n -> (amp p2 t + amp q2 t)%C = if Nat.eqb i j then amp psi t else c0.
Proof. exact (@car_ac). Qed.
Print Assumptions C08_mixed_anticommutator.
Theorem C08_vacuum : forall (F : ofield) n i (v : cx F), (i < n)%nat ->
  op_a (Z.of_nat n) (Z.of_nat i) [(key (repeat false n), v)] = Ok [].
Proof. exact (@annihilate_vacuum). Qed.
Print Assumptions C08_vacuum.
(* c+_{i1} c+_{i2} ... |0> with i1 < i2 < ... the occupied orbitals is +|c> *)
Theorem C08_normal_order : forall (F : ofield) n c, length c = n ->
  fold_res (fun psi i => op_c (Z.of_nat n) (Z.of_nat i) psi)
    (rev (filter (fun i => nth i c false) (seq 0 (length c)))) [(key (repeat false n), c1)]
  = Ok [(key c, c1)] :> res (psi_t F).
Proof. exact (@normal_order). Qed.
Print Assumptions C08_normal_order.
Example C08_example : res_psi_is (op_c 3 1 ex_psi) [(key [true; true; false], qr (-1) 2)] = true /\
  res_psi_is (do p <- op_c 3 1 ex_psi; op_a 3 0 p) [(key [false; true; false], qr (-1) 2)] = true /\
  res_psi_is (do p <- op_a 3 0 ex_psi; op_c 3 1 p) [(key [false; true; false], qr 1 2)] = true.
Proof. vm_compute. auto. Qed.

(* C09 *)
Theorem C09_create_adjoint : forall (F : ofield) n i (phi psi : psi_t F),
  (i < n)%nat -> valid_psi n phi -> valid_psi n psi ->
  exists psi' phi', op_c (Z.of_nat n) (Z.of_nat i) psi = Ok psi' /\
    op_a (Z.of_nat n) (Z.of_nat i) phi = Ok phi' /\ inner phi psi' = inner phi' psi.
Proof. exact (@adjoint_c). Qed.
Print Assumptions C09_create_adjoint.
Theorem C09_annihilate_adjoint : forall (F : ofield) n i (phi psi : psi_t F),
  (i < n)%nat -> valid_psi n phi -> valid_psi n psi ->
  exists psi' phi', op_a (Z.of_nat n) (Z.of_nat i) psi = Ok psi' /\
    op_c (Z.of_nat n) (Z.of_nat i) phi = Ok phi' /\ inner phi psi' = inner phi' psi.
Proof. exact (@adjoint_a). Qed.
Print Assumptions C09_annihilate_adjoint.
Example C09_example :
  match op_c 3 1 ex_psi, op_a 3 1 ex_phi with
  | Ok psi', Ok phi' => ceqb (inner ex_phi psi') (qr (-1) 2) && ceqb (inner phi' ex_psi) (qr (-1) 2)
  | _, _ => false end = true.
Proof. vm_compute. reflexivity. Qed.

(* C10 *)
Theorem C10_inner_is_sum : forall (F : ofield) n (phi psi : psi_t F), valid_psi n psi ->
  inner phi psi = csum (fun s => cconj (amp phi s) * amp psi s)%C (allcfg n).
Proof. exact (@inner_defined). Qed.
Print Assumptions C10_inner_is_sum.
Theorem C10_linear : forall (F : ofield) n (phi psi1 psi2 : psi_t F) mul, valid_psi n psi1 -> valid_psi n psi2 ->
  inner phi (add psi1 psi2 mul) = (inner phi psi1 + mul * inner phi psi2)%C.
Proof. exact (@inner_linear). Qed.
Print Assumptions C10_linear.
Theorem C10_antilinear : forall (F : ofield) n (phi psi1 psi2 : psi_t F) mul,
  valid_psi n phi -> valid_psi n psi1 -> valid_psi n psi2 ->
  inner (add psi1 psi2 mul) phi = (inner psi1 phi + cconj mul * inner psi2 phi)%C.
Proof. exact (@inner_antilinear). Qed.
Print Assumptions C10_antilinear.
Theorem C10_conjugate_symmetric : forall (F : ofield) n (phi psi : psi_t F),
  valid_psi n phi -> valid_psi n psi -> inner psi phi = cconj (inner phi psi).
Proof. exact (@inner_conj_sym). Qed.
Print Assumptions C10_conjugate_symmetric.
Theorem C10_nonnegative : forall (F : ofield) (psi : psi_t F), NoDup (dkeys psi) ->
  exists x : F, inner psi psi = creal x /\ (0 <= x)%F.
Proof. exact (@inner_nonneg). Qed.
Print Assumptions C10_nonnegative.
Theorem C10_definite : forall (F : ofield) n (psi : psi_t F), valid_psi n psi -> inner psi psi = c0 ->
  forall s, length s = n -> amp psi s = c0.
Proof. exact (@inner_zero). Qed.
Print Assumptions C10_definite.
Theorem C10_norm2 : forall (F : ofield) (psi : psi_t F), NoDup (dkeys psi) -> creal (norm2 psi) = inner psi psi.
Proof. exact (@norm2_inner). Qed.
Print Assumptions C10_norm2.
Theorem C10_zero_keys : forall (F : ofield) n (phi phi' psi psi' : psi_t F),
  valid_psi n psi -> valid_psi n psi' ->
  (forall s, length s = n -> amp phi s = amp phi' s) -> (forall s, length s = n -> amp psi s = amp psi' s) ->
  inner phi psi = inner phi' psi'.
Proof. exact (@inner_zero_keys). Qed.
Print Assumptions C10_zero_keys.
Example C10_example : ceqb (inner ex_phi ex_psi) (qi 0 1 (-2) 1) = true /\
  ceqb (inner ex_psi ex_phi) (qi 0 1 2 1) = true /\ feqb (norm2 ex_psi) (q 5 4) = true.
Proof. vm_compute. auto. Qed.

(* C11 *)
Theorem C11_add_amplitude : forall (F : ofield) (psi1 psi2 : psi_t F) mul c, NoDup (dkeys psi2) ->
  amp (addToFirst psi1 psi2 mul) c = (amp psi1 c + mul * amp psi2 c)%C.
Proof. exact (@addToFirst_amp). Qed.
Print Assumptions C11_add_amplitude.
Theorem C11_keys : forall (F : ofield) (psi2 psi1 : psi_t F) mul, NoDup (dkeys psi2) ->
  dkeys (addToFirst psi1 psi2 mul) = dkeys psi1 ++ filter (fun k => negb (inb k (dkeys psi1))) (dkeys psi2).
Proof. exact (@addToFirst_keys). Qed.
Print Assumptions C11_keys.
Theorem C11_add_same_as_addToFirst : forall (F : ofield) (psi1 psi2 : psi_t F) mul,
  add psi1 psi2 mul = addToFirst psi1 psi2 mul.
Proof. exact (@add_addToFirst). Qed.
Print Assumptions C11_add_same_as_addToFirst.
Example C11_example : psi_eqb (add ex_psi ex_phi (qi 0 1 1 2))
  [(key [true; false; false], qr 1 2); (key [false; true; true], qr 0 1); (key [true; true; false], qi 0 1 1 2)] = true.
Proof. vm_compute. reflexivity. Qed.

(* Example operator on 3 orbitals: 3/2 c0+ c1 + 3/2 c1+ c0 + i c2+ c1+ c1 c0 - i c0+ c1+ c1 c2 *)
Definition A_ := "a"%char. Definition C_ := "c"%char.
Definition ex_op : op_t QcF :=
  [([(0, C_); (1, A_)], qr 3 2); ([(1, C_); (0, A_)], qr 3 2);
   ([(2, C_); (1, C_); (1, A_); (0, A_)], qi 0 1 1 1); ([(0, C_); (1, C_); (1, A_); (2, A_)], qi 0 1 (-1) 1)].
Example ex_op_wf : wf_op 3 ex_op. Proof. wf_op_ex. Qed.
Example ex_op_hermitian : assert_hermitian ex_op = Ok tt. Proof. vm_compute. reflexivity. Qed.

(* C12 *)
Theorem C12_matrix_elements : forall (F : ofield) n (op : op_t F) psi swm,
  (swm <= 0)%F -> wf_op n op -> valid_psi n psi ->
  exists psi', applyOp (Z.of_nat n) op psi swm None None = (None, Ok psi') /\ valid_psi n psi' /\
    forall t, length t = n -> amp psi' t = csum (fun s => opelem op t s * amp psi s)%C (allcfg n).
Proof. exact (@applyOp_plain_amp). Qed.
Print Assumptions C12_matrix_elements.
Theorem C12_linear_in_state : forall (F : ofield) n (op : op_t F) psi1 psi2 mul swm,
  (swm <= 0)%F -> wf_op n op -> valid_psi n psi1 -> valid_psi n psi2 ->
  exists r r1 r2,
    applyOp (Z.of_nat n) op (add psi1 psi2 mul) swm None None = (None, Ok r) /\
    applyOp (Z.of_nat n) op psi1 swm None None = (None, Ok r1) /\
    applyOp (Z.of_nat n) op psi2 swm None None = (None, Ok r2) /\
    forall t, length t = n -> amp r t = (amp r1 t + mul * amp r2 t)%C.
Proof. exact (@applyOp_linear). Qed.
Print Assumptions C12_linear_in_state.
Example C12_example : res_psi_is (snd (applyOp 3 ex_op ex_phi (q 0 1) None None))
  [(key [false; true; true], qi 0 1 (-1) 1); (key [true; false; true], qr (-3) 1); (key [true; true; false], qi 0 1 (-2) 1)] = true.
Proof. vm_compute. reflexivity. Qed.

(* C13 *)
Theorem C13_restrictions : forall (F : ofield) n (op : op_t F) psi swm rs,
  wf_op n op -> valid_psi n psi -> wf_restr rs ->
  exists psi_r psi_u, applyOp (Z.of_nat n) op psi swm rs None = (None, Ok psi_r) /\
    applyOp (Z.of_nat n) op psi swm None None = (None, Ok psi_u) /\ valid_psi n psi_r /\
    forall t, length t = n -> (allowed_opt rs t -> dget psi_r (key t) = dget psi_u (key t)) /\
                              (~ allowed_opt rs t -> dget psi_r (key t) = None).
Proof. exact (@applyOp_restricted). Qed.
Print Assumptions C13_restrictions.
(* at most one electron in orbitals {1, 2} *)
Example C13_example : wf_restr (Some [([1; 2], (0, 1))]) /\
  res_psi_is (snd (applyOp 3 ex_op ex_phi (q 0 1) (Some [([1; 2], (0, 1))]) None))
    [(key [true; false; true], qr (-3) 1); (key [true; true; false], qi 0 1 (-2) 1)] = true.
Proof. split; [repeat constructor; simpl; intuition discriminate|vm_compute; reflexivity]. Qed.

(* C14 *)
Theorem C14_cutoff : forall (F : ofield) n (op : op_t F) psi swm rs,
  (0 < swm)%F -> wf_op n op -> valid_psi n psi -> wf_restr rs ->
  exists psi', applyOp (Z.of_nat n) op psi swm rs None = (None, Ok psi') /\ valid_psi n psi' /\
    forall t, length t = n ->
      let x := csum (fun s => opelem op t s * amp psi s)%C (allcfg n) in
      (In (key t) (dkeys psi') <-> allowed_opt rs t /\ (swm <= cabs2 x)%F) /\
      (In (key t) (dkeys psi') -> dget psi' (key t) = Some x).
Proof. exact (@applyOp_cutoff). Qed.
Print Assumptions C14_cutoff.
Example C14_example : (0 < q 4 1)%F /\ res_psi_is (snd (applyOp 3 ex_op ex_phi (q 4 1) None None))
  [(key [true; false; true], qr (-3) 1); (key [true; true; false], qi 0 1 (-2) 1)] = true.
Proof. vm_compute. auto. Qed.

(* C15 *)
Theorem C15_cache_coherence : forall (F : ofield) n (op : op_t F) psi swm rs cache,
  wf_restr rs -> wf_op n op -> valid_psi n psi -> cache_ok n op swm rs cache ->
  exists cache' psi', applyOp (Z.of_nat n) op psi swm rs (Some cache) = (Some cache', Ok psi') /\
    cache_ok n op swm rs cache' /\
    (forall k col, dget cache k = Some col -> dget cache' k = Some col) /\
    (forall k, In k (dkeys cache') <-> In k (dkeys cache) \/ In k (dkeys psi)).
Proof. exact (@applyOp_cache_coherent). Qed.
Print Assumptions C15_cache_coherence.
Theorem C15_same_result : forall (F : ofield) n (op : op_t F) psi swm rs cache,
  wf_restr rs -> wf_op n op -> valid_psi n psi -> cache_ok n op swm rs cache ->
  (forall s t, length s = n -> length t = n -> In (key s) (dkeys cache) -> allowed_opt rs t ->
     opelem op t s = c0 \/ (swm <= cabs2 (opelem op t s))%F) ->
  exists cache' r r0, applyOp (Z.of_nat n) op psi swm rs (Some cache) = (Some cache', Ok r) /\
    applyOp (Z.of_nat n) op psi swm rs None = (None, Ok r0) /\
    forall t, length t = n -> amp r t = amp r0 t.
Proof. exact (@applyOp_cache_same). Qed.
Print Assumptions C15_same_result.
Theorem C15_empty_cache_coherent : forall (F : ofield) n (op : op_t F) swm rs, cache_ok n op swm rs [].
Proof. exact (@cache_ok_nil). Qed.
Print Assumptions C15_empty_cache_coherent.
Example C15_example :
  match applyOp 3 ex_op ex_psi (q 1 1000) None (Some []) with
  | (Some cache, Ok r) =>
      Nat.eqb (length cache) 2 && res_psi_is (snd (applyOp 3 ex_op ex_psi (q 1 1000) None (Some cache))) r
  | _ => false end = true.
Proof. vm_compute. reflexivity. Qed.

(* C16: refuted.  Four states with amplitude 1/2 (norm 1) all hop to orbital 4 with 8e-7.
   The first cached call and the uncached call give 1.6e-6; every later call with the same
   cache gives nothing, because the cached columns were cut at 1e-12. *)
Definition e5 (i : nat) : config := map (Nat.eqb i) (seq 0 5).
Definition c16_op : op_t QcF := map (fun i => ([(4, C_); (i, A_)], qr 8 10000000)) [0; 1; 2; 3].
Definition c16_psi : psi_t QcF := map (fun i => (key (e5 i), qr 1 2)) [0; 1; 2; 3]%nat.
Definition c16_swm : QcF := q 1 1000000000000.
Theorem C16_cached_equals_uncached_refuted :
  exists (n : nat) (op : op_t QcF) (psi : psi_t QcF) (swm : QcF) cache cache' r0 r1 r2 t,
    wf_op n op /\ valid_psi n psi /\ feqb (norm2 psi) 1%F = true /\ length t = n /\
    applyOp (Z.of_nat n) op psi swm None None = (None, Ok r0) /\
    applyOp (Z.of_nat n) op psi swm None (Some []) = (Some cache, Ok r1) /\
    applyOp (Z.of_nat n) op psi swm None (Some cache) = (Some cache', Ok r2) /\
    ceqb (amp r1 t) (amp r0 t) = true /\ ceqb (amp r2 t) (amp r0 t) = false.
Proof.
  pose (x0 := applyOp (Z.of_nat 5) c16_op c16_psi c16_swm None None).
  pose (x1 := applyOp (Z.of_nat 5) c16_op c16_psi c16_swm None (Some [])).
  pose (x2 := applyOp (Z.of_nat 5) c16_op c16_psi c16_swm None (Some (get_cache x1))).
  exists 5%nat, c16_op, c16_psi, c16_swm, (get_cache x1), (get_cache x2), (get_psi x0), (get_psi x1), (get_psi x2), (e5 4).
  split; [wf_op_ex|]. split; [valid_ex|]. split; [vm_compute; reflexivity|]. split; [reflexivity|].
  split; [apply plain_eta; vm_compute; reflexivity|].
  split; [apply cached_eta; vm_compute; reflexivity|].
  split; [apply cached_eta; vm_compute; reflexivity|].
  split; vm_compute; reflexivity.
Qed.
Print Assumptions C16_cached_equals_uncached_refuted.
(* What is true: for the first use of a cache the results agree. *)
Theorem C16_first_call_partial : forall (F : ofield) n (op : op_t F) psi swm rs,
  wf_restr rs -> wf_op n op -> valid_psi n psi ->
  exists cache' r r0, applyOp (Z.of_nat n) op psi swm rs (Some []) = (Some cache', Ok r) /\
    applyOp (Z.of_nat n) op psi swm rs None = (None, Ok r0) /\
    forall t, length t = n -> amp r t = amp r0 t.
Proof.
  exact (fun F n op psi swm rs Hr Hw Hv =>
    applyOp_cache_same n op psi swm rs [] Hr Hw Hv (cache_ok_nil n op swm rs)
      (fun s t _ _ (Hi : In (key s) []) _ => False_ind _ Hi)).
Qed.
Print Assumptions C16_first_call_partial.

Example C16_example : wf_op 5 c16_op /\ valid_psi 5 c16_psi /\
  is_cached (applyOp 5 c16_op c16_psi c16_swm None (Some [])) = true /\
  length (get_psi (applyOp 5 c16_op c16_psi c16_swm None None)) = 1%nat.
Proof. split; [wf_op_ex|]. split; [valid_ex|]. vm_compute. auto. Qed.

(* C17: refuted.  (0,'x') after (1,'c') is silently accepted: the stale sign is reused. *)
Theorem C17_unknown_label_rejected_refuted :
  exists (op : op_t QcF) (psi r : psi_t QcF),
    In ([(0, "x"%char); (1, C_)], qr 1 1) op /\ valid_psi 3 psi /\
    applyOp 3 op psi (q 0 1) None None = (None, Ok r) /\ r <> [].
Proof.
  pose (op := [([(0, "x"%char); (1, C_)], qr 1 1)]).
  exists op, ex_psi, (get_psi (applyOp 3 op ex_psi (q 0 1) None None)).
  split; [left; reflexivity|]. split; [exact ex_psi_valid|].
  split; [apply plain_eta; vm_compute; reflexivity|].
  intros E. apply (f_equal (@length _)) in E. vm_compute in E. discriminate E.
Qed.
Print Assumptions C17_unknown_label_rejected_refuted.
(* What is true: an unknown label is noticed if it is the first ladder operator that acts. *)
Theorem C17_first_label_partial : forall (F : ofield) n (op : op_t F) psi swm rs p i x h op' k a psi',
  op = (p ++ [(i, x)], h) :: op' -> psi = (k, a) :: psi' -> x <> "a"%char -> x <> "c"%char ->
  snd (applyOp n op psi swm rs None) = Err UnboundLocalError.
Proof. exact (@applyOp_first_label). Qed.
Print Assumptions C17_first_label_partial.

Example C17_example : snd (applyOp 3 [([(1, C_); (0, "x"%char)], qr 1 1)] ex_psi (q 0 1) None None) = Err UnboundLocalError.
Proof. vm_compute. reflexivity. Qed.

(* C18 *)
Theorem C18_involution : forall (F : ofield) (A : Type) (EA : EqB A) (op d : gop A F), NoDup (dkeys op) ->
  daggerOp op = Ok d -> daggerOp d = Ok op.
Proof. exact (@daggerOp_involution). Qed.
Print Assumptions C18_involution.
Theorem C18_defined : forall (F : ofield) (A : Type) (EA : EqB A) (op : gop A F), good_labels op -> NoDup (dkeys op) ->
  daggerOp op = Ok (map (fun ph => (dag (fst ph), cconj (snd ph))) op).
Proof. exact (@daggerOp_ok). Qed.
Print Assumptions C18_defined.
Theorem C18_unknown_label_raises : forall (F : ofield) (A : Type) (EA : EqB A) (op : gop A F), ~ good_labels op ->
  daggerOp op = Err GenericException.
Proof. exact (@daggerOp_err). Qed.
Print Assumptions C18_unknown_label_raises.
Theorem C18_adjoint : forall (F : ofield) n (op d : op_t F) psi phi swm,
  (swm <= 0)%F -> wf_op n op -> daggerOp op = Ok d -> valid_psi n psi -> valid_psi n phi ->
  exists psi' phi', applyOp (Z.of_nat n) op psi swm None None = (None, Ok psi') /\
    applyOp (Z.of_nat n) d phi swm None None = (None, Ok phi') /\ inner phi psi' = inner phi' psi.
Proof. exact (@applyOp_adjoint). Qed.
Print Assumptions C18_adjoint.
Definition ex_op2 : op_t QcF := [([(2, C_); (1, A_)], qi 0 1 1 1); ([(1, C_); (0, C_)], qr 1 1)].
Example C18_example : wf_op 3 ex_op2 /\
  match daggerOp ex_op2 with
  | Ok d => dict_eqb d [([(1, C_); (2, A_)], qi 0 1 (-1) 1); ([(0, A_); (1, A_)], qr 1 1)]
  | Err _ => false end = true /\ ~ good_labels ([([(0, "x"%char)], qr 1 1)] : op_t QcF).
Proof.
  split; [wf_op_ex|]. split; [vm_compute; reflexivity|].
  intros H. apply Forall_inv in H. apply Forall_inv in H. destruct H; discriminate.
Qed.

(* C19 *)
Theorem C19_value : forall (F : ofield) (A : Type) (EA : EqB A) (ops : list (gop A F)) p, Forall (fun op => NoDup (dkeys op)) ops ->
  val (addOps ops) p = csum (fun op => val op p) ops.
Proof. exact (@addOps_val). Qed.
Print Assumptions C19_value.
Theorem C19_unique_keys : forall (F : ofield) (A : Type) (EA : EqB A) (ops : list (gop A F)), NoDup (dkeys (addOps ops)).
Proof. exact (@addOps_NoDup). Qed.
Print Assumptions C19_unique_keys.
Theorem C19_apply : forall (F : ofield) n (ops : list (op_t F)) psi swm,
  (swm <= 0)%F -> Forall (wf_op n) ops -> valid_psi n psi ->
  exists r, applyOp (Z.of_nat n) (addOps ops) psi swm None None = (None, Ok r) /\
  exists rs, Forall2 (fun op ri => applyOp (Z.of_nat n) op psi swm None None = (None, Ok ri)) ops rs /\
    forall t, length t = n -> amp r t = csum (fun ri => amp ri t) rs.
Proof. exact (@applyOp_sum_ops). Qed.
Print Assumptions C19_apply.
Theorem C19_hermitian : forall (F : ofield) (A : Type) (EA : EqB A) (ops : list (gop A F)),
  Forall (fun op => NoDup (dkeys op) /\ assert_hermitian op = Ok tt) ops -> assert_hermitian (addOps ops) = Ok tt.
Proof. exact (@addOps_hermitian). Qed.
Print Assumptions C19_hermitian.
Theorem C19_assert_hermitian_meaning : forall (F : ofield) (A : Type) (EA : EqB A) (op : gop A F), NoDup (dkeys op) ->
  assert_hermitian op = Ok tt <-> herm_op op.
Proof. exact (@assert_hermitian_iff). Qed.
Print Assumptions C19_assert_hermitian_meaning.
Example C19_example : Forall (wf_op 3) [ex_op; ex_op2; ex_op] /\
  ceqb (val (addOps [ex_op; ex_op2; ex_op]) [(0, C_); (1, A_)]) (qr 3 1) = true /\
  Forall (fun op : op_t QcF => NoDup (dkeys op) /\ assert_hermitian op = Ok tt) [ex_op; ex_op].
Proof.
  split; [|split; [vm_compute; reflexivity|]].
  - repeat (constructor; [wf_op_ex|]). constructor.
  - repeat (constructor; [split; [apply ex_op_wf|vm_compute; reflexivity]|]). constructor.
Qed.

(* C21 *)
Theorem C21_job_tasks : forall (A : Type) (tasks : list A) ranks, (1 <= ranks)%nat ->
  exists parts : nat -> list A,
    (forall r, (r < ranks)%nat -> get_job_tasks r ranks tasks = Ok (parts r)) /\
    Permutation (flat_map parts (seq 0 ranks)) tasks /\
    (forall r, (r < ranks)%nat -> exists idx, Sorted.StronglySorted lt idx /\
        map (nth_error tasks) idx = map Some (parts r)) /\
    (forall r r', (r < ranks)%nat -> (r' < ranks)%nat -> (length (parts r) <= S (length (parts r')))%nat).
Proof.
  exact (fun A tasks ranks H => ex_intro _ (fun r => chunk ranks tasks r ++ extra ranks tasks r)
    (conj (fun r Hr => get_job_tasks_eq tasks r ranks Hr)
    (conj (job_tasks_partition tasks ranks H)
    (conj (fun r Hr => job_tasks_order tasks r ranks Hr)
          (fun r r' Hr Hr' => job_tasks_balance tasks r r' ranks Hr Hr'))))).
Qed.
Print Assumptions C21_job_tasks.
Example C21_example : map (fun r => get_job_tasks r 3 [10; 11; 12; 13; 14]) [0; 1; 2]%nat =
  [Ok [10; 13]; Ok [11; 14]; Ok [12]] /\ get_job_tasks 2 4 [7; 8] = Ok [] /\
  get_job_tasks 0 0 [1] = Err ZeroDivisionError.
Proof. vm_compute. auto. Qed.

(* C58 *)
Theorem C58_sum_rule : forall (F : ofield) n i (psi : psi_t F), (i < n)%nat -> valid_psi n psi ->
  exists pa pc, op_a (Z.of_nat n) (Z.of_nat i) psi = Ok pa /\ op_c (Z.of_nat n) (Z.of_nat i) psi = Ok pc /\
    (norm2 pa + norm2 pc)%F = norm2 psi.
Proof. exact (@sum_rule). Qed.
Print Assumptions C58_sum_rule.
Example C58_example : match op_a 3 1 ex_psi, op_c 3 1 ex_psi with
  | Ok pa, Ok pc => feqb (norm2 pa) (q 1 1) && feqb (norm2 pc) (q 1 4) | _, _ => false end = true.
Proof. vm_compute. reflexivity. Qed.
