(* Properties C33 - C38: continued fraction, Lanczos recursion and Green's function. *)
From Coq Require Import QArith Qcanon Reals Permutation.
From Verif Require Import M_Prelude M_Scalar M_PSR M_Ladder M_State M_Mpi M_Hamiltonian M_Lanczos S_Fock S_Ops S_Ham S_Green.
From Verif Require Import L_Scalar L_Sum L_State L_Ops L_CFrac L_Green L_Green2 L_Green4 X_Util X_Reals P_Fock.
Local Open Scope Z_scope.

(* ---- C33 ---- *)
Theorem C33_resolvent : forall (F : ofield) (z : cx F) (alpha beta : list F),
  im z <> 0%F -> length alpha = S (length beta) ->
  resolvent (length alpha) z (tridiag alpha beta) unit0 (cont_frac z alpha beta).
Proof. exact (fun F z al be Hz HL => cf_resolvent z al be Hz (nonempty_S al be HL) HL). Qed.
Print Assumptions C33_resolvent.
(* the value is one over the first denominator, and no denominator vanishes *)
Theorem C33_denominators : forall (F : ofield) (z : cx F) (alpha beta : list F),
  im z <> 0%F -> length alpha = S (length beta) ->
  cont_frac z alpha beta = (c1 / cf_den z alpha beta)%C /\
  forall k, (k < length alpha)%nat -> cf_den z (skipn k alpha) (skipn k beta) <> c0.
Proof. exact (@cf_denominators). Qed.
Print Assumptions C33_denominators.
Example C33_example : im (qi 1 1 1 1) <> 0%F /\ length [q 0 1; q 2 1; q 1 3] = S (length [q 1 1; q (-1) 2]) /\
  ceqb (cont_frac (qi 1 1 1 1) [q 0 1; q 0 1] [q 1 1]) (qi 1 5 (-3) 5) = true.
Proof. split; [|split; [reflexivity|vm_compute; reflexivity]]. intros E. apply (f_equal (fun x => feqb x 0%F)) in E. vm_compute in E. discriminate. Qed.

(* ---- C34 for getGreen (for the spectra see P_Spectra) ---- *)
Theorem C34_getGreen : forall (F : ofield) fsqrt fuel ord n e (psi : psi_t F) op omega delta ks swm rs hs mode pm h' g,
  delta <> 0%F -> In (h', Ok g) (getGreen fsqrt fuel ord n e psi op omega delta ks swm rs hs mode pm) ->
  length g = length omega /\ Forall (fun x => (delta * im x <= 0)%F /\ (cabs2 x * (delta * delta) <= 1)%F) g.
Proof. exact (@green_bounds_ok). Qed.
Print Assumptions C34_getGreen.

(* ---- C35 ---- *)
Theorem C35_serial : forall (F : ofield) (fsqrt : F -> F), sqrt_laws fsqrt -> forall (h : mat F) psi0 ks al be,
  hermitian (length psi0) h -> ip (length psi0) (vf psi0) (vf psi0) = c1 ->
  get_tridiagonal_krylov_vectors fsqrt h psi0 ks = Ok (al, be) -> tridiagonalises (length psi0) h (vf psi0) ks al be.
Proof. exact (@serial_tridiag). Qed.
Print Assumptions C35_serial.
Theorem C35_parallel : forall (F : ofield) (fsqrt : F -> F), sqrt_laws fsqrt -> forall (hs : list (mat F)) (M : mat F) psi0 ks al be rest,
  (forall i j, M i j = csum (fun mr : mat F => mr i j) hs) ->
  hermitian (length psi0) M -> ip (length psi0) (vf psi0) (vf psi0) = c1 ->
  get_tridiagonal_krylov_vectors_local fsqrt hs psi0 ks = Ok (al, be) :: rest -> tridiagonalises (length psi0) M (vf psi0) ks al be.
Proof. exact (@local_tridiag). Qed.
Print Assumptions C35_parallel.
(* the square root of the reals has the assumed laws *)
Example C35_sqrt : @sqrt_laws RF sqrt.
Proof. exact sqrt_laws_R. Qed.
(* a Hermitian matrix and a normalised start vector, first over any scalars *)
Definition ex_mat {F : ofield} : mat F := fun i j => match i, j with 0%nat, 1%nat => mkC 0%F 1%F | 1%nat, 0%nat => mkC 0%F (fopp 1)%F | _, _ => c0 end.
Section Ex35.
Context {F : ofield}.
Add Field Ff : (f_field F).
Example C35_hypotheses : hermitian (length [@c1 F; c0]) (@ex_mat F) /\ ip (length [@c1 F; c0]) (vf [@c1 F; c0]) (vf [c1; c0]) = c1.
Proof.
  split; [|apply cx_ext; simpl; ring].
  intros [|[|i]] [|[|j]] Hi Hj; simpl in Hi, Hj; try lia; apply cx_ext; simpl; ring.
Qed.
End Ex35.
Definition nth_ok (i : nat) (l : list (res (vec QcF))) : vec QcF := match nth i l (Err OutOfFuel) with Ok x => x | Err _ => [] end.
Lemma two_oks l : match l with [Ok _; Ok _] => true | _ => false end = true -> l = [Ok (nth_ok 0 l); Ok (nth_ok 1 l)].
Proof. destruct l as [|[|] [|[|] [|]]]; try discriminate. reflexivity. Qed.
Lemma feqb_true_eq (x y : QcF) : feqb x y = true -> x = y.
Proof. destruct (feqb_spec x y); auto. discriminate. Qed.
Definition ab_is (r : res (list QcF * list QcF)) (al be : list QcF) : bool :=
  match r with Ok (a, b) => vec_eqb (map creal a) (map creal al) && vec_eqb (map creal b) (map creal be) | Err _ => false end.
Example C35_example : ab_is (get_tridiagonal_krylov_vectors qsqrt ex_mat [qr 3 5; qi 0 1 4 5] 5) [q (-24) 25; q 24 25] [q 7 25] = true /\
  map (fun r => ab_is r [q (-24) 25; q 24 25] [q 7 25])
    (get_tridiagonal_krylov_vectors_local qsqrt [fun i j => if Nat.eqb j 0 then ex_mat i j else c0; fun i j => if Nat.eqb j 1 then ex_mat i j else c0] [qr 3 5; qi 0 1 4 5] 5) = [true; false].
Proof. vm_compute. auto. Qed.

(* ---- C36 ---- *)
Theorem C36_serial : forall (F : ofield) (fsqrt : F -> F), sqrt_laws fsqrt -> forall n op rs psi, green_input n op rs psi ->
  forall fuel ord e omega delta ks swm hs mode h, mode = GDense \/ mode = GSparse ->
  Forall (hdict_exact n op rs) hs -> (2 ^ n < fuel)%nat -> hs <> [] -> delta <> 0%F -> restricted_op n op rs h ->
  exists basis, is_closure n op rs (dkeys psi) basis /\
    (Z.of_nat (length basis) <= ks -> forall h' g,
       In (h', Ok g) (getGreen fsqrt fuel ord (Z.of_nat n) e psi op omega delta ks swm rs hs mode Serial) ->
       length g = length omega /\
       forall k, (k < length omega)%nat -> fock_green n (mkC (nth k omega 0 + e)%F delta) h psi (nth k g c0)).
Proof. exact (@serial_exact). Qed.
Print Assumptions C36_serial.
Theorem C36_H_build : forall (F : ofield) (fsqrt : F -> F), sqrt_laws fsqrt -> forall n op rs psi, green_input n op rs psi ->
  forall fuel (ord : nat -> set_order) e omega delta ks swm hs mode h, mode = GDense \/ mode = GSparse ->
  (forall r l, Permutation (ord r l) l) -> Forall (hdict_exact n op rs) hs -> NoDup (flat_map dkeys hs) ->
  (2 ^ n < fuel)%nat -> hs <> [] -> delta <> 0%F -> restricted_op n op rs h ->
  exists basis, is_closure n op rs (dkeys psi) basis /\
    (Z.of_nat (length basis) <= ks -> forall h' g rest,
       getGreen fsqrt fuel ord (Z.of_nat n) e psi op omega delta ks swm rs hs mode HBuild = (h', Ok g) :: rest ->
       length g = length omega /\
       forall k, (k < length omega)%nat -> fock_green n (mkC (nth k omega 0 + e)%F delta) h psi (nth k g c0)).
Proof. exact (@hbuild_exact). Qed.
Print Assumptions C36_H_build.
(* the restricted operator exists, and is the operator itself without restrictions and small elements *)
Theorem C36_restricted_operator : forall (F : ofield) n (op : op_t F),
  (forall rs, exists h, restricted_op n op rs h) /\
  ((forall t s, length t = n -> length s = n -> opelem op t s = c0 \/ (eps12 <= cabs2 (opelem op t s))%F) -> restricted_op n op None (opelem op)).
Proof. exact (fun F n op => conj (fun rs => restricted_op_exists n op rs) (restricted_op_full n op)). Qed.
Print Assumptions C36_restricted_operator.

(* hopping between two orbitals, over any scalars *)
Definition hop_op {F : ofield} : op_t F := [([(0, C_); (1, A_)], c1); ([(1, C_); (0, A_)], c1)].
Definition hop_psi {F : ofield} : psi_t F := [(key [true; false], c1)].
Definition hop_rs : option restrictions_t := Some [([0; 1], (1, 1))].
Section Ex36.
Context {F : ofield}.
Add Field Ff2 : (f_field F).
Example C36_hypotheses : green_input 2 (@hop_op F) hop_rs hop_psi /\ hdict_exact 2 (@hop_op F) hop_rs [].
Proof.
  split; [|intros k col E; discriminate].
  assert (Hw : wf_op 2 (@hop_op F)) by (apply wf_opb_ok; vm_compute; reflexivity).
  assert (Hc : cconj (@c1 F) = c1) by (apply cx_ext; simpl; ring).
  split; [auto|]. split; [repeat constructor; simpl; intuition discriminate|]. split; [|split; [|split]].
  - apply (proj2 (assert_hermitian_iff hop_op (proj1 Hw))). split.
    { eapply Forall_impl; [|exact (proj2 Hw)]. intros ph H. eapply Forall_impl; [|exact H]. intros l [_ Hl]. exact Hl. }
    intros p h E. unfold hop_op in *. rewrite !L_Dict.dget_cons in E.
    destruct (eqb_spec p [(0, C_); (1, A_)]) as [->|]; [injection E as <-; rewrite Hc; reflexivity|].
    destruct (eqb_spec p [(1, C_); (0, A_)]) as [->|]; [injection E as <-; rewrite Hc; reflexivity|]. discriminate.
  - apply valid_psib_ok; vm_compute; reflexivity.
  - unfold norm2, hop_psi, cabs2; simpl; ring.
  - intros c Lc [E|[]]. apply L_Fock.key_inj in E; [|rewrite Lc; auto]. subst c. repeat constructor; simpl; lia.
Qed.
End Ex36.
(* with the square root of the reals all hypotheses hold together *)
Example C36_all_hypotheses : sqrt_laws (sqrt : RF -> RF) /\ green_input 2 (@hop_op RF) hop_rs hop_psi.
Proof. exact (conj sqrt_laws_R (proj1 C36_hypotheses)). Qed.
Definition gvals (o : list (hdict_t QcF * res (vec QcF))) : list (res (vec QcF)) := map snd o.
(* 1/(z - 1/z) at z = 1 + i and z = 2 + i *)
Example C36_example :
  forallb (fun r => res_vec_is r [qi 1 5 (-3) 5; qi 4 10 (-3) 10])
    (gvals (getGreen qsqrt 5 (fun _ l => l) 2 (q 1 1) hop_psi hop_op [q 0 1; q 1 1] (q 1 1) 2 (q 0 1) hop_rs [[]; []] GSparse Serial)) = true /\
  map (fun r => res_vec_is r [qi 1 5 (-3) 5; qi 4 10 (-3) 10])
    (gvals (getGreen qsqrt 5 (fun _ l => rev l) 2 (q 1 1) hop_psi hop_op [q 0 1; q 1 1] (q 1 1) 2 (q 0 1) hop_rs [[]; []] GDense HBuild)) = [true; false] /\
  forallb (fun r => res_vec_is r [qi 1 5 (-3) 5; qi 4 10 (-3) 10])
    (gvals (getGreen qsqrt 5 (fun _ l => l) 2 (q 1 1) hop_psi hop_op [q 0 1; q 1 1] (q 1 1) 2 (q 0 1) hop_rs [[]; []] GDict Serial)) = true.
Proof. vm_compute. auto. Qed.

(* ---- C37 ---- *)
(* The matrix modes return a value exactly if krylovSize is positive and the state does not lie in an
   invariant subspace that is smaller than both krylovSize and the basis. *)
Theorem C37_value_iff_partial : forall (F : ofield) (fsqrt : F -> F), sqrt_laws fsqrt -> forall n op rs psi, green_input n op rs psi ->
  forall fuel ord e omega delta ks swm hs mode, mode = GDense \/ mode = GSparse ->
  Forall (hdict_exact n op rs) hs -> (2 ^ n < fuel)%nat -> hs <> [] ->
  exists basis m, is_closure n op rs (dkeys psi) basis /\ restricted_matrix n op rs basis m /\
    forall out, In out (getGreen fsqrt fuel ord (Z.of_nat n) e psi op omega delta ks swm rs hs mode Serial) ->
      (is_ok (snd out) = true <-> 1 <= ks /\
         ~ exists d W, Z.of_nat d < Z.min ks (Z.of_nat (length basis)) /\ orthonormal (length basis) d W /\
             invariant (length basis) m d W /\ in_span (length basis) d W (amp_at basis psi)) /\
      (is_ok (snd out) = false -> snd out = Err ValueError).
Proof. exact (@serial_ok_iff). Qed.
Print Assumptions C37_value_iff_partial.
(* the full statement is false: an eigenstate with two configurations makes every mode fail *)
Definition c37_op : op_t QcF :=
  [([(0, C_); (0, A_)], qr 9 25); ([(1, C_); (1, A_)], qr 16 25); ([(0, C_); (1, A_)], qr 12 25); ([(1, C_); (0, A_)], qr 12 25)].
Definition c37_psi : psi_t QcF := [(key [true; false], qr 3 5); (key [false; true], qr 4 5)].
Lemma c37_input : green_input 2 c37_op None c37_psi.
Proof.
  split; [wf_op_ex|]. split; [exact I|]. split; [vm_compute; reflexivity|]. split; [valid_ex|]. split; [|intros; exact I].
  apply feqb_true_eq. vm_compute. reflexivity.
Qed.
Theorem C37_always_a_value_refuted : exists (op : op_t QcF) psi, green_input 2 op None psi /\
  (forall x, x = 1%F \/ x = 0%F -> qsqrt x * qsqrt x = x)%F /\
  gvals (getGreen qsqrt 5 (fun _ l => l) 2 0%F psi op [0%F] 1%F 2 0%F None [[]] GSparse Serial) = [Err ValueError] /\
  gvals (getGreen qsqrt 5 (fun _ l => l) 2 0%F psi op [0%F] 1%F 2 0%F None [[]; []] GSparse HBuild) = [Err ValueError; Err Deadlock] /\
  gvals (getGreen qsqrt 5 (fun _ l => l) 2 0%F psi op [0%F] 1%F 2 0%F None [[]] GDict Serial) = [Err AttributeError].
Proof.
  exists c37_op, c37_psi. split; [exact c37_input|]. split.
  - intros x [->| ->]; apply (feqb_true_eq); vm_compute; reflexivity.
  - split; [vm_compute; reflexivity|]. split; vm_compute; reflexivity.
Qed.
Print Assumptions C37_always_a_value_refuted.
Example C37_example : green_input 2 (@hop_op QcF) hop_rs hop_psi /\ hdict_exact 2 (@hop_op QcF) hop_rs [] /\ (2 ^ 2 < 5)%nat.
Proof. split; [apply C36_hypotheses|]. split; [apply C36_hypotheses|simpl; lia]. Qed.

(* ---- C38 for getGreen ---- *)
(* serial mode: all ranks, whatever they have stored in h_dict, obtain what a single rank obtains *)
Theorem C38_serial : forall (F : ofield) (fsqrt : F -> F) n op rs psi, green_input n op rs psi ->
  forall fuel ord e omega delta ks swm hs mode, mode = GDense \/ mode = GSparse ->
  Forall (hdict_exact n op rs) hs -> (2 ^ n < fuel)%nat -> forall h ord', hdict_exact n op rs h ->
  exists r, map snd (getGreen fsqrt fuel ord' (Z.of_nat n) e psi op omega delta ks swm rs [h] mode Serial) = [r] /\
    map snd (getGreen fsqrt fuel ord (Z.of_nat n) e psi op omega delta ks swm rs hs mode Serial) = repeat r (length hs).
Proof. exact (@serial_ranks). Qed.
Print Assumptions C38_serial.
(* H_build: rank 0 obtains the serial result *)
Theorem C38_H_build_rank0_partial : forall (F : ofield) (fsqrt : F -> F) n op rs psi, green_input n op rs psi ->
  forall fuel (ord : nat -> set_order) e omega delta ks swm hs mode, mode = GDense \/ mode = GSparse ->
  (forall r l, Permutation (ord r l) l) -> Forall (hdict_exact n op rs) hs -> NoDup (flat_map dkeys hs) -> (2 ^ n < fuel)%nat -> hs <> [] ->
  forall h ord', hdict_exact n op rs h ->
  exists r others, map snd (getGreen fsqrt fuel ord' (Z.of_nat n) e psi op omega delta ks swm rs [h] mode Serial) = [r] /\
    map snd (getGreen fsqrt fuel ord (Z.of_nat n) e psi op omega delta ks swm rs hs mode HBuild) = r :: others /\
    length (r :: others) = length hs.
Proof. exact (@hbuild_rank0). Qed.
Print Assumptions C38_H_build_rank0_partial.
(* H_build: every other rank returns 1/(omega + i delta + e), whatever the Hamiltonian *)
Theorem C38_other_ranks_ignore_H : forall (F : ofield) (fsqrt : F -> F) n op rs (psi : psi_t F), wf_op n op -> wf_restr rs -> valid_psi n psi -> psi <> [] ->
  forall fuel (ord : nat -> set_order) e omega delta ks swm hs mode h0 g0 rest, mode = GDense \/ mode = GSparse ->
  (forall r l, Permutation (ord r l) l) -> Forall (hdict_exact n op rs) hs -> NoDup (flat_map dkeys hs) -> (2 ^ n < fuel)%nat -> hs <> [] -> delta <> 0%F ->
  getGreen fsqrt fuel ord (Z.of_nat n) e psi op omega delta ks swm rs hs mode HBuild = (h0, Ok g0) :: rest ->
  S (length rest) = length hs /\ forall out, In out rest -> snd out = Ok (map (fun w => c1 / mkC (w + e)%F delta)%C omega).
Proof. exact (@hbuild_others). Qed.
Print Assumptions C38_other_ranks_ignore_H.
Theorem C38_same_on_all_ranks_refuted : exists (op : op_t QcF) rs psi, green_input 2 op rs psi /\
  exists g0 g1, gvals (getGreen qsqrt 5 (fun _ l => l) 2 1%F psi op [0%F] 1%F 2 0%F rs [[]; []] GSparse HBuild) = [Ok g0; Ok g1] /\
    vec_eqb g0 g1 = false.
Proof.
  exists hop_op, hop_rs, hop_psi. split; [apply C36_hypotheses|].
  set (o := gvals _). exists (nth_ok 0 o), (nth_ok 1 o). split.
  - apply two_oks. vm_compute. reflexivity.
  - vm_compute. reflexivity.
Qed.
Print Assumptions C38_same_on_all_ranks_refuted.
Example C38_example : green_input 2 (@hop_op QcF) hop_rs hop_psi /\ Forall (hdict_exact 2 (@hop_op QcF) hop_rs) [[]; []] /\
  NoDup (flat_map dkeys [[]; [] : hdict_t QcF]) /\ (forall r l, Permutation ((fun (_ : nat) (l : list pybytes) => rev l) r l) l).
Proof.
  split; [apply C36_hypotheses|]. split; [repeat constructor; apply C36_hypotheses|]. split; [constructor|].
  intros _ l. apply Permutation_sym, Permutation_rev.
Qed.
