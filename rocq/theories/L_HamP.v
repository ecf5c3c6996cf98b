(* Statements about Hamiltonian construction in the form used by P_Ham. *)
From Coq Require Import Permutation Ring Field.
From Verif Require Import M_Prelude M_Scalar M_PSR M_Ladder M_State M_Mpi M_Hamiltonian S_Fock S_Ops S_Ham.
From Verif Require Import L_Scalar L_Sum L_Dict L_PSR L_Fock L_State L_ApplyOp L_Ops L_FockP L_Ham L_Sort L_Expand L_ExpandP L_FromH.
Local Open Scope Z_scope.

Lemma Forall2_nth {A B} (P : A -> B -> Prop) l m : Forall2 P l m -> forall r a b, nth_error l r = Some a -> nth_error m r = Some b -> P a b.
Proof.
  induction 1 as [|x y l m Hp HF IH]; intros [|r] a b Ha Hb; simpl in *; try discriminate.
  - injection Ha as ->. injection Hb as ->. auto.
  - eapply IH; eauto.
Qed.
Lemma owner_unique {V} (hs : list (dict pybytes V)) k : NoDup (flat_map dkeys hs) -> In k (flat_map dkeys hs) ->
  exists! r, exists h, nth_error hs r = Some h /\ In k (dkeys h).
Proof.
  intros Hn Hk. apply in_flat_map in Hk as (h & Hh & Hk). destruct (In_nth_error _ _ Hh) as (r & Er).
  exists r. split; [eauto|]. intros r' (h' & Er' & Hk'). eapply (nodup_flat_map_unique dkeys hs k Hn); eauto.
Qed.
Lemma basis_index_iff basis k i : NoDup basis -> (dget (basis_index basis) k = Some i <-> nth_error basis i = Some k).
Proof. intros Hn. split; [apply basis_index_spec|apply basis_index_nodup; auto]. Qed.

Section LHamP.
Context {F : ofield}.
Add Ring Cring : (@c_ring F).
Implicit Types op : op_t F.

Lemma expand_serial_P n op rs fuel ord basis0 (h : hdict_t F) : wf_op n op -> wf_restr rs ->
  NoDup basis0 -> Forall (valid_key n) basis0 -> hdict_exact n op rs h -> (2 ^ n < fuel)%nat ->
  exists h' basis, expand_basis fuel (Z.of_nat n) op rs ord Serial basis0 [h] = [(h', Ok basis)] /\
    is_closure n op rs basis0 basis /\ hdict_exact n op rs h' /\
    (forall k, In k (dkeys h') <-> In k (dkeys h) \/ In k basis) /\
    (forall k col, dget h k = Some col -> dget h' k = Some col).
Proof.
  intros Hw Hr Hn Hv Hh Hf.
  destruct (expand_serial_top n op rs Hw Hr fuel basis0 h Hh Hn Hv) as (h' & final & E & HE & Hx & He & _ & Hk); [lia|].
  exists h', final. cbn [expand_basis map]. rewrite E. split; [auto|]. split; [apply closure_of; auto|]. auto.
Qed.

Lemma expand_hbuild_P n op rs fuel (ord : nat -> set_order) basis0 (hs : list (hdict_t F)) : wf_op n op -> wf_restr rs ->
  (forall r l, Permutation (ord r l) l) ->
  NoDup basis0 -> Forall (valid_key n) basis0 -> hs <> [] -> Forall (hdict_exact n op rs) hs -> NoDup (flat_map dkeys hs) ->
  (2 ^ n < fuel)%nat ->
  exists hs' basis, expand_basis fuel (Z.of_nat n) op rs ord HBuild basis0 hs = map (fun h' => (h', Ok basis)) hs' /\
    is_closure n op rs basis0 basis /\
    (forall h fuel' ord', hdict_exact n op rs h -> (2 ^ n < fuel')%nat ->
       exists h', expand_basis fuel' (Z.of_nat n) op rs ord' Serial basis0 [h] = [(h', Ok basis)]) /\
    (forall b, In b basis -> exists! r, exists h', nth_error hs' r = Some h' /\ In b (dkeys h')) /\
    length hs' = length hs /\ Forall (hdict_exact n op rs) hs' /\ NoDup (flat_map dkeys hs') /\
    (forall r h h' k col, nth_error hs r = Some h -> nth_error hs' r = Some h' -> dget h k = Some col -> dget h' k = Some col).
Proof.
  intros Hw Hr Hord Hn Hv Hne HF Hnd Hf.
  destruct (expand_hbuild_top n op rs Hw Hr fuel ord basis0 hs Hord Hne HF Hnd Hn Hv) as (hs' & final & E & HE & Hx & He & Hn' & Hk); [lia|].
  exists hs', final. split; [auto|]. split; [apply closure_of; auto|]. split; [|split; [|split; [|split; [auto|split; [auto|]]]]].
  - intros h fuel' ord' Hh Hf'. destruct (expand_serial_top n op rs Hw Hr fuel' basis0 h Hh Hn Hv) as (h' & final' & E' & HE' & _); [lia|].
    exists h'. cbn [expand_basis map]. rewrite E'. rewrite (Exp_fun n op rs basis0 0 final' HE' final HE). reflexivity.
  - intros b Hb. apply owner_unique; auto. apply Hk; auto.
  - symmetry. eapply Forall2_len; eauto.
  - intros r h h' k col E1 E2. apply (Forall2_nth _ _ _ He r h h' E1 E2).
Qed.

Lemma from_serial_P ord (h : hdict_t F) basis : NoDup basis -> closed_cols h basis -> (forall b, In b basis -> In b (dkeys h)) ->
  exists md ms, get_hamiltonian_matrix_from_h_dict ord [h] basis Serial false Dense = [Ok (md, basis_index basis)] /\
    get_hamiltonian_matrix_from_h_dict ord [h] basis Serial false Sparse = [Ok (ms, basis_index basis)] /\
    forall i j, md i j = stored h basis i j /\ ms i j = stored h basis i j.
Proof.
  intros Hn Hc Ha. destruct (from_dense h basis Hn Hc Ha) as (md & Ed & Hd). destruct (from_sparse h basis Hn Hc Ha) as (ms & Es & Hs).
  exists md, ms. cbn [get_hamiltonian_matrix_from_h_dict map]. rewrite Ed, Es. auto.
Qed.
Lemma from_hbuild_P (ord : nat -> set_order) (hs : list (hdict_t F)) basis : (forall r l, Permutation (ord r l) l) ->
  NoDup basis -> Forall (fun h => closed_cols h basis) hs ->
  exists ms m, get_hamiltonian_matrix_from_h_dict ord hs basis HBuild true Sparse = map (fun m => Ok (m, basis_index basis)) ms /\
    get_hamiltonian_matrix_from_h_dict ord hs basis HBuild false Sparse = map (fun _ => Ok (m, basis_index basis)) hs /\
    (forall r h mr, nth_error hs r = Some h -> nth_error ms r = Some mr -> forall i j, mr i j = stored h basis i j) /\
    length ms = length hs /\
    (forall i j, m i j = csum (fun mr : mat F => mr i j) ms) /\ (forall i j, m i j = csum (fun h => stored h basis i j) hs).
Proof.
  intros Hord Hn HF. destruct (locals_ok ord basis hs Hord Hn HF) as (ms & Em & HFm).
  exists ms, (fold_left mplus ms mzeros). cbn [get_hamiltonian_matrix_from_h_dict]. rewrite Em, bcast_all_ok, !map_map. cbn [rmap].
  assert (HL : length hs = length ms) by (eapply Forall2_len; eauto).
  assert (Hsum : forall i j, fold_left mplus ms mzeros i j = csum (fun mr : mat F => mr i j) ms)
    by (intros; rewrite fold_mplus; unfold mzeros; ring).
  split; [auto|]. split; [rewrite !map_const, HL; auto|]. split; [apply (Forall2_nth _ _ _ HFm)|]. split; [auto|]. split; [auto|].
  intros i j. rewrite Hsum. apply csum_Forall2. clear -HFm. induction HFm; constructor; auto.
Qed.

Lemma ebh_serial_P n op rs fuel ord basis0 (h : hdict_t F) : wf_op n op -> wf_restr rs ->
  NoDup basis0 -> Forall (valid_key n) basis0 -> hdict_exact n op rs h -> (2 ^ n < fuel)%nat ->
  exists h' m basis, expand_basis_and_hamiltonian fuel (Z.of_nat n) op rs ord Serial false basis0 [h] = [(h', Ok (m, basis_index basis))] /\
    is_closure n op rs basis0 basis /\ restricted_matrix n op rs basis m /\ hdict_exact n op rs h' /\
    (assert_hermitian op = Ok tt -> (forall c, length c = n -> In (key c) basis0 -> allowed_opt rs c) -> hermitian (length basis) m).
Proof.
  intros Hw Hr Hn Hv Hh Hf. destruct (ebh_serial n op rs Hw Hr fuel ord basis0 [h]) as (final & HC & _ & HF); auto; [lia|discriminate|].
  remember (expand_basis_and_hamiltonian fuel (Z.of_nat n) op rs ord Serial false basis0 [h]) as X eqn:EX. clear EX.
  inversion HF as [|? res ? rest (h' & m & E & Hx & He & Hm) HF' E1 E2]. subst. inversion HF'. subst.
  exists h', m, final. split; [auto|]. split; [auto|]. split; [auto|]. split; [auto|].
  intros HH Ha. eapply restricted_herm; eauto.
Qed.
Lemma ebh_hbuild_P n op rs fuel (ord : nat -> set_order) basis0 (hs : list (hdict_t F)) : wf_op n op -> wf_restr rs ->
  (forall r l, Permutation (ord r l) l) ->
  NoDup basis0 -> Forall (valid_key n) basis0 -> hs <> [] -> Forall (hdict_exact n op rs) hs -> NoDup (flat_map dkeys hs) ->
  (2 ^ n < fuel)%nat ->
  exists basis hs' m ms, is_closure n op rs basis0 basis /\ length ms = length hs /\ length hs' = length hs /\
    expand_basis_and_hamiltonian fuel (Z.of_nat n) op rs ord HBuild false basis0 hs =
      map (fun h' => (h', Ok (m, basis_index basis))) hs' /\
    expand_basis_and_hamiltonian fuel (Z.of_nat n) op rs ord HBuild true basis0 hs =
      map (fun hm => (fst hm, Ok (snd hm, basis_index basis))) (combine hs' ms) /\
    restricted_matrix n op rs basis m /\ (forall i j, m i j = csum (fun mr : mat F => mr i j) ms) /\
    Forall (hdict_exact n op rs) hs' /\ NoDup (flat_map dkeys hs') /\
    (assert_hermitian op = Ok tt -> (forall c, length c = n -> In (key c) basis0 -> allowed_opt rs c) -> hermitian (length basis) m).
Proof.
  intros Hw Hr Hord Hn Hv Hne HF Hnd Hf.
  destruct (ebh_hbuild n op rs Hw Hr fuel ord basis0 hs Hord Hne HF Hnd Hn Hv) as (final & hs' & m & ms & HC & _ & Hx & He & Hn' & HL & E1 & E2 & Hm & Hs); [lia|].
  exists final, hs', m, ms. split; [auto|]. split; [auto|]. split; [symmetry; eapply Forall2_len; eauto|].
  split; [auto|]. split; [auto|]. split; [auto|]. split; [auto|]. split; [auto|]. split; [auto|].
  intros HH Ha. eapply restricted_herm; eauto.
Qed.
End LHamP.
