(* Properties C20, C22, C27 - C30: Hamiltonian matrices and expansion of the basis. *)
From Coq Require Import QArith Qcanon Permutation.
From Verif Require Import M_Prelude M_Scalar M_PSR M_Ladder M_State M_Mpi M_Hamiltonian S_Fock S_Ops S_Ham.
From Verif Require Import L_Fock L_Ham L_HamP L_HamE X_Util P_Fock.
Local Open Scope Z_scope.

(* the examples use ex_op, a Hermitian operator on 3 orbitals (P_Fock), and all 8 states or some of them *)
Definition ex_basis : list pybytes := map key [[true; false; false]; [false; true; false]; [false; true; true]; [true; true; false]].
Definition valid_basisb (n : nat) (b : list pybytes) : bool := nodupb b && forallb (fun k => inb k (map key (allcfg n))) b.
Lemma valid_basisb_ok n b : valid_basisb n b = true -> NoDup b /\ Forall (valid_key n) b.
Proof.
  unfold valid_basisb. intros E. apply andb_prop in E as [E1 E2]. split; [apply nodupb_ok; auto|].
  apply Forall_forall. intros k Hk. rewrite forallb_forall in E2. apply E2, L_PSR.inb_In, in_map_iff in Hk.
  destruct Hk as (c & <- & Hc). exists c. split; auto. apply allcfg_In; auto.
Qed.
Definition mat_of (l : list (res (mat QcF))) : mat QcF := match l with Ok m :: _ => m | _ => mzeros end.
Definition ok_mats (l : list (res (mat QcF))) : bool := forallb is_ok l.
Definition mat_is (m : mat QcF) (rows : list (list (cx QcF))) : bool :=
  forallb (fun ir => forallb (fun jv => ceqb (m (fst ir) (fst jv)) (snd jv)) (enumerate (snd ir))) (enumerate rows).

Lemma ceqb_refl_of (x y : cx QcF) : x = y -> ceqb x y = true.
Proof. intros ->. destruct (L_Scalar.ceqb_spec y y); auto. Qed.

(* C20 *)
Theorem C20_matrix_elements : forall (F : ofield) n (op : op_t F) basis ranks mode,
  wf_op n op -> Forall (valid_key n) basis -> (1 <= ranks)%nat -> mode <> OtherMode ->
  exists m, get_hamiltonian_matrix ranks mode (Z.of_nat n) op basis = repeat (Ok m) ranks /\
    (NoDup basis -> forall i j ci cj, nth_error basis i = Some (key ci) -> nth_error basis j = Some (key cj) ->
       length ci = n -> length cj = n -> m i j = cut12 (opelem op ci cj)).
Proof. exact (@ham_entry). Qed.
Print Assumptions C20_matrix_elements.
Theorem C20_hermitian_matrix : forall (F : ofield) n (op : op_t F) basis ranks mode,
  wf_op n op -> assert_hermitian op = Ok tt -> Forall (valid_key n) basis -> NoDup basis ->
  (1 <= ranks)%nat -> mode <> OtherMode ->
  exists m, get_hamiltonian_matrix ranks mode (Z.of_nat n) op basis = repeat (Ok m) ranks /\ hermitian (length basis) m.
Proof. exact (@ham_hermitian). Qed.
Print Assumptions C20_hermitian_matrix.
Example C20_example : wf_op 3 ex_op /\ assert_hermitian ex_op = Ok tt /\ (NoDup ex_basis /\ Forall (valid_key 3) ex_basis) /\
  mat_is (mat_of (get_hamiltonian_matrix 3 SparseMPI 3 ex_op ex_basis))
    [[qr 0 1; qr 3 2; qr 0 1; qr 0 1]; [qr 3 2; qr 0 1; qr 0 1; qr 0 1];
     [qr 0 1; qr 0 1; qr 0 1; qi 0 1 (-1) 1]; [qr 0 1; qr 0 1; qi 0 1 1 1; qr 0 1]] = true.
Proof.
  split; [exact ex_op_wf|]. split; [exact ex_op_hermitian|]. split; [apply valid_basisb_ok; vm_compute; reflexivity|].
  vm_compute. reflexivity.
Qed.
(* With a repeated basis state the matrix need not be Hermitian. *)
Theorem C20_needs_distinct_states : exists (op : op_t QcF) basis,
  wf_op 3 op /\ assert_hermitian op = Ok tt /\ Forall (valid_key 3) basis /\
  forall m, get_hamiltonian_matrix 1 DenseSerial 3 op basis = [Ok m] -> ~ hermitian (length basis) m.
Proof.
  exists [([(0, C_); (0, A_)], qr 1 1)], [key [true; false; false]; key [true; false; false]].
  split; [wf_op_ex|]. split; [vm_compute; reflexivity|]. split.
  { apply Forall_forall. intros k [<-|[<-|[]]]; exists [true; false; false]; auto. }
  intros m E H. specialize (H 0%nat 1%nat ltac:(simpl; lia) ltac:(simpl; lia)).
  assert (E' : mat_of (get_hamiltonian_matrix 1 DenseSerial 3 [([(0, C_); (0, A_)], qr 1 1)] [key [true; false; false]; key [true; false; false]]) = m)
    by (rewrite E; reflexivity).
  rewrite <- E' in H. assert (X : ceqb (mat_of (get_hamiltonian_matrix 1 DenseSerial 3 [([(0, C_); (0, A_)], qr 1 1)] [key [true; false; false]; key [true; false; false]]) 0%nat 1%nat)
     (cconj (mat_of (get_hamiltonian_matrix 1 DenseSerial 3 [([(0, C_); (0, A_)], qr 1 1)] [key [true; false; false]; key [true; false; false]]) 1%nat 0%nat)) = false)
    by (vm_compute; reflexivity).
  apply (ceqb_refl_of _ _) in H. rewrite H in X. discriminate.
Qed.
Print Assumptions C20_needs_distinct_states.

(* C22 *)
Theorem C22_modes_agree : forall (F : ofield) n (op : op_t F) basis ranks ranks' mode mode',
  wf_op n op -> Forall (valid_key n) basis -> (1 <= ranks)%nat -> (1 <= ranks')%nat ->
  mode <> OtherMode -> mode' <> OtherMode ->
  exists m m', get_hamiltonian_matrix ranks mode (Z.of_nat n) op basis = repeat (Ok m) ranks /\
    get_hamiltonian_matrix ranks' mode' (Z.of_nat n) op basis = repeat (Ok m') ranks' /\ forall i j, m i j = m' i j.
Proof. exact (@ham_modes_agree). Qed.
Print Assumptions C22_modes_agree.
Example C22_example : wf_op 3 ex_op /\ Forall (valid_key 3) ex_basis /\
  forallb (fun rm => ok_mats (get_hamiltonian_matrix (fst rm) (snd rm) 3 ex_op ex_basis)
             && ceqb (mat_of (get_hamiltonian_matrix (fst rm) (snd rm) 3 ex_op ex_basis) 2%nat 3%nat) (qi 0 1 (-1) 1))
    [(1%nat, DenseSerial); (5%nat, DenseMPI); (2%nat, SparseSerial); (3%nat, SparseMPI)] = true.
Proof.
  split; [exact ex_op_wf|]. split; [apply valid_basisb_ok; vm_compute; reflexivity|]. vm_compute. reflexivity.
Qed.

(* any other mode ends with an unbound local variable on every rank *)
Theorem C22_other_mode : forall (F : ofield) n (op : op_t F) basis ranks, get_hamiltonian_matrix ranks OtherMode n op basis = repeat (Err UnboundLocalError) ranks.
Proof. exact (@ham_other_mode). Qed.
Print Assumptions C22_other_mode.

(* C27 *)
Theorem C27_smallest_closed_basis : forall (F : ofield) n (op : op_t F) rs fuel ord basis0 (h : hdict_t F),
  wf_op n op -> wf_restr rs -> NoDup basis0 -> Forall (valid_key n) basis0 -> hdict_exact n op rs h -> (2 ^ n < fuel)%nat ->
  exists h' basis, expand_basis fuel (Z.of_nat n) op rs ord Serial basis0 [h] = [(h', Ok basis)] /\
    is_closure n op rs basis0 basis /\ hdict_exact n op rs h' /\
    (forall k, In k (dkeys h') <-> In k (dkeys h) \/ In k basis) /\
    (forall k col, dget h k = Some col -> dget h' k = Some col).
Proof. exact (@expand_serial_P). Qed.
Print Assumptions C27_smallest_closed_basis.
(* a start state with orbital 2 occupied is not reached when that orbital has to stay empty *)
Definition ex_rs : option restrictions_t := Some [([2], (0, 0))].
Definition basis_is (n : nat) (x : list (hdict_t QcF * res (list pybytes))) (b : list config) : bool :=
  forallb (fun hb => match snd hb with Ok l => eqb l (map key b) | Err _ => false end) x.
Example C27_example : wf_op 3 ex_op /\ wf_restr ex_rs /\ hdict_exact 3 ex_op ex_rs [] /\ (2 ^ 3 < 10)%nat /\
  basis_is 3 (expand_basis 10 3 ex_op ex_rs (fun _ l => l) Serial [key [true; true; false]; key [true; false; false]] [[]])
     [[true; true; false]; [true; false; false]; [false; true; false]] = true /\
  basis_is 3 (expand_basis 10 3 ex_op None (fun _ l => l) Serial [key [true; true; false]; key [true; false; false]] [[]])
     [[true; true; false]; [true; false; false]; [false; true; false]; [false; true; true]; [true; false; true]] = true.
Proof.
  split; [exact ex_op_wf|]. split; [repeat constructor; simpl; tauto|]. split; [intros k col [=]|]. split; [simpl; lia|].
  split; vm_compute; reflexivity.
Qed.

(* C28 *)
Theorem C28_parallel_equals_serial : forall (F : ofield) n (op : op_t F) rs fuel (ord : nat -> set_order) basis0 (hs : list (hdict_t F)),
  wf_op n op -> wf_restr rs -> (forall r l, Permutation (ord r l) l) ->
  NoDup basis0 -> Forall (valid_key n) basis0 -> hs <> [] -> Forall (hdict_exact n op rs) hs -> NoDup (flat_map dkeys hs) ->
  (2 ^ n < fuel)%nat ->
  exists hs' basis, expand_basis fuel (Z.of_nat n) op rs ord HBuild basis0 hs = map (fun h' => (h', Ok basis)) hs' /\
    is_closure n op rs basis0 basis /\
    (forall h fuel' ord', hdict_exact n op rs h -> (2 ^ n < fuel')%nat ->
       exists h', expand_basis fuel' (Z.of_nat n) op rs ord' Serial basis0 [h] = [(h', Ok basis)]) /\
    (forall b, In b basis -> exists! r, exists h', nth_error hs' r = Some h' /\ In b (dkeys h')) /\
    length hs' = length hs /\ Forall (hdict_exact n op rs) hs' /\ NoDup (flat_map dkeys hs') /\
    (forall r h h' k col, nth_error hs r = Some h -> nth_error hs' r = Some h' -> dget h k = Some col -> dget h' k = Some col).
Proof. exact (@expand_hbuild_P). Qed.
Print Assumptions C28_parallel_equals_serial.
Example C28_example : (forall r l, Permutation ((fun (_ : nat) (l : list pybytes) => rev l) r l) l) /\
  basis_is 3 (expand_basis 10 3 ex_op None (fun _ l => rev l) HBuild [key [true; true; false]; key [true; false; false]] [[]; []; []])
     [[true; true; false]; [true; false; false]; [false; true; false]; [false; true; true]; [true; false; true]] = true /\
  map (fun hb => length (fst hb)) (expand_basis 10 3 ex_op None (fun _ l => rev l) HBuild [key [true; true; false]; key [true; false; false]] [[]; []; []])
     = [3; 2; 0]%nat.
Proof.
  split; [intros _ l; symmetry; apply Permutation_rev|]. split; vm_compute; reflexivity.
Qed.

(* C29 *)
Theorem C29_serial_matrix : forall (F : ofield) ord (h : hdict_t F) basis,
  NoDup basis -> closed_cols h basis -> (forall b, In b basis -> In b (dkeys h)) ->
  exists md ms, get_hamiltonian_matrix_from_h_dict ord [h] basis Serial false Dense = [Ok (md, basis_index basis)] /\
    get_hamiltonian_matrix_from_h_dict ord [h] basis Serial false Sparse = [Ok (ms, basis_index basis)] /\
    forall i j, md i j = stored h basis i j /\ ms i j = stored h basis i j.
Proof. exact (@from_serial_P). Qed.
Print Assumptions C29_serial_matrix.
Theorem C29_local_matrices : forall (F : ofield) (ord : nat -> set_order) (hs : list (hdict_t F)) basis,
  (forall r l, Permutation (ord r l) l) -> NoDup basis -> Forall (fun h => closed_cols h basis) hs ->
  exists ms m, get_hamiltonian_matrix_from_h_dict ord hs basis HBuild true Sparse = map (fun m => Ok (m, basis_index basis)) ms /\
    get_hamiltonian_matrix_from_h_dict ord hs basis HBuild false Sparse = map (fun _ => Ok (m, basis_index basis)) hs /\
    (forall r h mr, nth_error hs r = Some h -> nth_error ms r = Some mr -> forall i j, mr i j = stored h basis i j) /\
    length ms = length hs /\
    (forall i j, m i j = csum (fun mr : mat F => mr i j) ms) /\ (forall i j, m i j = csum (fun h => stored h basis i j) hs).
Proof. exact (@from_hbuild_P). Qed.
Print Assumptions C29_local_matrices.
Theorem C29_basis_index : forall basis k i, NoDup basis -> (dget (basis_index basis) k = Some i <-> nth_error basis i = Some k).
Proof. exact basis_index_iff. Qed.
Print Assumptions C29_basis_index.
Theorem C29_after_serial_expansion : forall (F : ofield) n (op : op_t F) rs fuel ord basis0 (h : hdict_t F),
  wf_op n op -> wf_restr rs -> NoDup basis0 -> Forall (valid_key n) basis0 -> hdict_exact n op rs h -> (2 ^ n < fuel)%nat ->
  exists h' m basis, expand_basis_and_hamiltonian fuel (Z.of_nat n) op rs ord Serial false basis0 [h] = [(h', Ok (m, basis_index basis))] /\
    is_closure n op rs basis0 basis /\ restricted_matrix n op rs basis m /\ hdict_exact n op rs h' /\
    (assert_hermitian op = Ok tt -> (forall c, length c = n -> In (key c) basis0 -> allowed_opt rs c) -> hermitian (length basis) m).
Proof. exact (@ebh_serial_P). Qed.
Print Assumptions C29_after_serial_expansion.
Theorem C29_after_parallel_expansion : forall (F : ofield) n (op : op_t F) rs fuel (ord : nat -> set_order) basis0 (hs : list (hdict_t F)),
  wf_op n op -> wf_restr rs -> (forall r l, Permutation (ord r l) l) ->
  NoDup basis0 -> Forall (valid_key n) basis0 -> hs <> [] -> Forall (hdict_exact n op rs) hs -> NoDup (flat_map dkeys hs) ->
  (2 ^ n < fuel)%nat ->
  exists basis hs' m ms, is_closure n op rs basis0 basis /\ length ms = length hs /\ length hs' = length hs /\
    expand_basis_and_hamiltonian fuel (Z.of_nat n) op rs ord HBuild false basis0 hs =
      map (fun h' => (h', Ok (m, basis_index basis))) hs' /\
    expand_basis_and_hamiltonian fuel (Z.of_nat n) op rs ord HBuild true basis0 hs =
      map (fun hm => (fst hm, Ok (snd hm, basis_index basis))) (combine hs' ms) /\
    restricted_matrix n op rs basis m /\ (forall i j, m i j = csum (fun mr : mat F => mr i j) ms) /\
    Forall (hdict_exact n op rs) hs' /\ NoDup (flat_map dkeys hs') /\
    (assert_hermitian op = Ok tt -> (forall c, length c = n -> In (key c) basis0 -> allowed_opt rs c) -> hermitian (length basis) m).
Proof. exact (@ebh_hbuild_P). Qed.
Print Assumptions C29_after_parallel_expansion.
(* The arguments which are refused, on every rank and for every dictionary and basis. *)
Theorem C29_local_serial_refused : forall (F : ofield) ord (hs : list (hdict_t F)) basis mode,
  get_hamiltonian_matrix_from_h_dict ord hs basis Serial true mode = map (fun _ => Err AssertionError) hs.
Proof. exact (@from_h_serial_local). Qed.
Theorem C29_wrong_refused : forall (F : ofield) ord (hs : list (hdict_t F)) basis pm loc mode,
  ~ (pm = Serial /\ loc = true) -> (mode = OtherFmt \/ pm = OtherPar \/ (mode = Dense /\ pm = HBuild)) ->
  get_hamiltonian_matrix_from_h_dict ord hs basis pm loc mode = map (fun _ => Err GenericException) hs.
Proof. exact (@from_h_wrong). Qed.
Print Assumptions C29_local_serial_refused. Print Assumptions C29_wrong_refused.
Definition ham_of (l : list (hdict_t QcF * res (mat QcF * dict pybytes nat))) : mat QcF :=
  match l with (_, Ok (m, _)) :: _ => m | _ => mzeros end.
Definition ok_hams (l : list (hdict_t QcF * res (mat QcF * dict pybytes nat))) : bool := forallb (fun x => is_ok (snd x)) l.
Definition ex_h : hdict_t QcF :=
  [(key [true; false; false], [(key [false; true; false], qr 3 2)]);
   (key [false; true; false], [(key [true; false; false], qr 3 2)])].
Example C29_example :
  (NoDup [key [true; false; false]; key [false; true; false]] /\ closed_cols ex_h [key [true; false; false]; key [false; true; false]]) /\
  ok_hams (expand_basis_and_hamiltonian 10 3 ex_op None (fun _ l => rev l) HBuild false [key [true; true; false]] [[]; []]) = true /\
  mat_is (ham_of (expand_basis_and_hamiltonian 10 3 ex_op None (fun _ l => rev l) HBuild false [key [true; true; false]] [[]; []]))
     [[qr 0 1; qi 0 1 1 1]; [qi 0 1 (-1) 1; qr 0 1]] = true /\
  mat_is (ham_of (expand_basis_and_hamiltonian 10 3 ex_op None (fun _ l => rev l) Serial false [key [true; true; false]] [[]]))
     [[qr 0 1; qi 0 1 1 1]; [qi 0 1 (-1) 1; qr 0 1]] = true /\
  (* wrong combinations of the arguments raise *)
  map is_ok (get_hamiltonian_matrix_from_h_dict (fun _ l => l) [ex_h] [key [true; false; false]] Serial true Sparse) = [false] /\
  map is_ok (get_hamiltonian_matrix_from_h_dict (fun _ l => l) [ex_h] [key [true; false; false]] HBuild true Dense) = [false] /\
  (* a basis which is not closed: KeyError *)
  map is_ok (get_hamiltonian_matrix_from_h_dict (fun _ l => l) [ex_h] [key [true; false; false]] Serial false Sparse) = [false].
Proof.
  split; [split|].
  - apply nodupb_ok. vm_compute. reflexivity.
  - assert (Hx : forall b, In b (dkeys ex_h) -> match dget ex_h b with
        | Some col => nodupb (dkeys col) && forallb (fun k => inb k [key [true; false; false]; key [false; true; false]]) (dkeys col)
        | None => true end = true) by (intros b [<-|[<-|[]]]; vm_compute; reflexivity).
    intros b col Hb E. assert (Hk : In b (dkeys ex_h)) by (apply L_Dict.dget_Some_key; eauto).
    specialize (Hx b Hk). rewrite E in Hx. apply andb_prop in Hx as [H1 H2]. split; [apply nodupb_ok; auto|].
    intros k Hk'. rewrite forallb_forall in H2. apply L_PSR.inb_In. apply H2; auto.
  - split; [vm_compute; reflexivity|]. split; [vm_compute; reflexivity|]. split; [vm_compute; reflexivity|].
    split; [vm_compute; reflexivity|]. split; vm_compute; reflexivity.
Qed.

(* C30: Hermitian, see the last part of C29_after_serial_expansion and C29_after_parallel_expansion *)
Theorem C30_restricted_matrix_hermitian : forall (F : ofield) n (op : op_t F) rs fuel ord basis0 (h : hdict_t F),
  wf_op n op -> wf_restr rs -> NoDup basis0 -> Forall (valid_key n) basis0 -> hdict_exact n op rs h -> (2 ^ n < fuel)%nat ->
  assert_hermitian op = Ok tt -> (forall c, length c = n -> In (key c) basis0 -> allowed_opt rs c) ->
  exists h' m basis, expand_basis_and_hamiltonian fuel (Z.of_nat n) op rs ord Serial false basis0 [h] = [(h', Ok (m, basis_index basis))] /\
    is_closure n op rs basis0 basis /\ hermitian (length basis) m.
Proof. intros. destruct (ebh_serial_P n op rs fuel ord basis0 h) as (h' & m & basis & E & HC & _ & _ & Hh); auto. exists h', m, basis; auto. Qed.
Print Assumptions C30_restricted_matrix_hermitian.
Theorem C30_restricted_matrix_hermitian_parallel : forall (F : ofield) n (op : op_t F) rs fuel (ord : nat -> set_order) basis0 (hs : list (hdict_t F)),
  wf_op n op -> wf_restr rs -> (forall r l, Permutation (ord r l) l) ->
  NoDup basis0 -> Forall (valid_key n) basis0 -> hs <> [] -> Forall (hdict_exact n op rs) hs -> NoDup (flat_map dkeys hs) ->
  (2 ^ n < fuel)%nat ->
  assert_hermitian op = Ok tt -> (forall c, length c = n -> In (key c) basis0 -> allowed_opt rs c) ->
  exists basis hs' m, expand_basis_and_hamiltonian fuel (Z.of_nat n) op rs ord HBuild false basis0 hs =
      map (fun h' => (h', Ok (m, basis_index basis))) hs' /\ length hs' = length hs /\
    is_closure n op rs basis0 basis /\ hermitian (length basis) m.
Proof.
  intros. destruct (ebh_hbuild_P n op rs fuel ord basis0 hs) as (basis & hs' & m & ms & HC & _ & HL & E & _ & _ & _ & _ & _ & Hh); auto.
  exists basis, hs', m; auto.
Qed.
Print Assumptions C30_restricted_matrix_hermitian_parallel.
Example C30_example : wf_op 3 ex_op /\ wf_restr ex_rs /\ hdict_exact 3 ex_op ex_rs [] /\ assert_hermitian ex_op = Ok tt /\
  (forall c, length c = 3%nat -> In (key c) [key [true; true; false]; key [true; false; false]] -> allowed_opt ex_rs c) /\
  mat_is (ham_of (expand_basis_and_hamiltonian 10 3 ex_op ex_rs (fun _ l => l) Serial false [key [true; true; false]; key [true; false; false]] [[]]))
     [[qr 0 1; qr 0 1; qr 0 1]; [qr 0 1; qr 0 1; qr 3 2]; [qr 0 1; qr 3 2; qr 0 1]] = true.
Proof.
  split; [exact ex_op_wf|]. split; [repeat constructor; simpl; tauto|]. split; [intros k col [=]|]. split; [exact ex_op_hermitian|].
  split; [|vm_compute; reflexivity].
  intros c Hc Hin.
  assert (c = [true; true; false] \/ c = [true; false; false]) as [-> | ->].
  { destruct Hin as [E|[E|[]]]; [left|right]; symmetry; apply (key_inj _ _); auto. }
  all: constructor; [vm_compute; split; discriminate|constructor].
Qed.
(* The condition on the start states is needed. *)
Theorem C30_needs_allowed_start_states : exists (op : op_t QcF) rs basis0,
  wf_op 3 op /\ wf_restr rs /\ assert_hermitian op = Ok tt /\ NoDup basis0 /\ Forall (valid_key 3) basis0 /\
  exists m, match expand_basis_and_hamiltonian 10 3 op rs (fun _ l => l) Serial false basis0 [[]] with
            | [(_, Ok (m', _))] => m' = m | _ => False end /\ ~ hermitian 2 m.
Proof.
  exists ex_op, ex_rs, [key [false; true; true]].
  split; [exact ex_op_wf|]. split; [repeat constructor; simpl; tauto|]. split; [exact ex_op_hermitian|].
  assert (Hb : NoDup [key [false; true; true]] /\ Forall (valid_key 3) [key [false; true; true]]) by (apply valid_basisb_ok; vm_compute; reflexivity).
  split; [apply Hb|]. split; [apply Hb|].
  set (x := expand_basis_and_hamiltonian 10 3 ex_op ex_rs (fun _ l => l) Serial false [key [false; true; true]] [[]]).
  exists (ham_of x). split.
  - assert (H : Nat.eqb (length x) 1 && ok_hams x = true) by (vm_compute; reflexivity). clearbody x.
    destruct x as [|[h [[m i]|e]] [|]]; try discriminate. reflexivity.
  - intros H. specialize (H 0%nat 1%nat ltac:(lia) ltac:(lia)). apply (ceqb_refl_of _ _) in H.
    assert (X : ceqb (ham_of x 0%nat 1%nat) (cconj (ham_of x 1%nat 0%nat)) = false) by (vm_compute; reflexivity).
    rewrite H in X. discriminate.
Qed.
Print Assumptions C30_needs_allowed_start_states.
