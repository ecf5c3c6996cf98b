(* Properties C63 and C64: number of ranks in getRIXSmap, order of the product states in getGreen. *)
From Coq Require Import QArith Qcanon Reals Permutation.
From Verif Require Import M_Prelude M_Scalar M_PSR M_Ladder M_State M_Mpi M_Hamiltonian M_Lanczos M_Spectra M_RIXS.
From Verif Require Import S_Fock S_Ops S_Ham S_Green S_Spectra S_RIXS.
From Verif Require Import L_Scalar L_Sum L_Fock L_State L_Ops L_FockP L_Green L_Perm L_RIXS6 X_Util X_Reals X_Gauss P_Fock P_Green P_Spectra P_RIXS.
Local Open Scope Z_scope.

(* ---- C63: the number of ranks ---- *)
(* Two runs of getRIXSmap with different numbers of ranks, modes, set orders and stored Hamiltonians.  bicgstab is any
   function of the matrix and the right-hand side, krylovSize and the cut-off are arbitrary, nothing is assumed
   about the square root.  The full statement has no hypothesis no_small and is refuted below. *)
Theorem C63_rank_count_partial : forall (F : ofield) (fsqrt : F -> F) bicgstab n op rs fuel wIns wLoss delta1 delta2 ks swm tOpsIn psis es op0,
  spectra_input n op rs (op0 :: tOpsIn) psis -> no_small n op0 swm rs -> (2 ^ n < fuel)%nat ->
  forall ops ops' (ord ord' : nat -> nat -> nat -> set_order) hg hg' pm pm' r r' gs gs',
  (forall t i q l, Permutation (ord t i q l) l) -> (forall t i q l, Permutation (ord' t i q l) l) ->
  Forall (hdict_exact n op rs) hg -> hg <> [] -> Forall (hdict_exact n op rs) hg' -> hg' <> [] ->
  pm <> ROther -> (pm = RHBuild -> r = 0%nat /\ NoDup (flat_map dkeys hg)) ->
  pm' <> ROther -> (pm' = RHBuild -> r' = 0%nat /\ NoDup (flat_map dkeys hg')) ->
  nth_error (getRIXSmap fsqrt bicgstab fuel (Z.of_nat n) op wIns wLoss delta1 delta2 rs ks swm tOpsIn (op0 :: ops) psis es ord hg pm) r = Some (Ok gs) ->
  nth_error (getRIXSmap fsqrt bicgstab fuel (Z.of_nat n) op wIns wLoss delta1 delta2 rs ks swm tOpsIn (op0 :: ops') psis es ord' hg' pm') r' = Some (Ok gs') ->
  forall iE tIn tOut iw, (iE < length es)%nat -> (tIn < length tOpsIn)%nat -> (tOut < S (length ops))%nat -> (tOut < S (length ops'))%nat -> (iw < length wIns)%nat ->
    gs iE tIn tOut iw = gs' iE tIn tOut iw.
Proof. exact (@rixs_determined). Qed.
Print Assumptions C63_rank_count_partial.

(* The outgoing operator 2/3 n_0 + 1/2 c_1^+ a_0 on 2i-like core-hole amplitudes, cut-off 3/10.  On one rank the second
   energy uses the stored column, where the element 1/2 was cut; on two ranks each energy computes its own column. *)
Definition t_cut : op_t QcF := [([(0, C_); (0, A_)], qr 2 3); ([(1, C_); (0, A_)], qr 1 2)].
Definition rx_cut (swm : QcF) (R : nat) (pm : rmode) : list (res (garr4 QcF)) :=
  getRIXSmap qsqrt gauss 5 2 rx_op [q 13 10; q 7 10] [q 1 1] (q 4 10) (q 1 1) None 4 swm [t_0] [t_cut] [sp_psi] [q 0 1] (fun _ _ _ l => l) (repeat [] R) pm.
Lemma cut_input : spectra_input 2 (@rx_op QcF) None [t_cut; t_0] [sp_psi].
Proof.
  split; [wf_op_ex|]. split; [exact I|]. split.
  - apply Forall_cons; [wf_op_ex|]. apply Forall_cons; [wf_op_ex|]. apply Forall_nil.
  - apply Forall_cons; [valid_ex|]. apply Forall_nil.
Qed.
Theorem C63_rank_count_refuted : exists one two, spectra_input 2 (@rx_op QcF) None [t_cut; t_0] [sp_psi] /\
  rx_cut (q 3 10) 1 RwIn = [Ok one] /\ nth_error (rx_cut (q 3 10) 2 RwIn) 0 = Some (Ok two) /\
  vec_eqb (one 0 0 0 0)%nat (two 0 0 0 0)%nat = true /\ vec_eqb (one 0 0 0 1)%nat (two 0 0 0 1)%nat = false.
Proof.
  assert (G : forall l1 l2 : list (res (garr4 QcF)), match l1, l2 with
     | [Ok one], Ok two :: _ => vec_eqb (one 0 0 0 0)%nat (two 0 0 0 0)%nat && negb (vec_eqb (one 0 0 0 1)%nat (two 0 0 0 1)%nat) | _, _ => false end = true ->
     exists one two, l1 = [Ok one] /\ nth_error l2 0 = Some (Ok two) /\ vec_eqb (one 0 0 0 0)%nat (two 0 0 0 0)%nat = true /\ vec_eqb (one 0 0 0 1)%nat (two 0 0 0 1)%nat = false).
  { intros [|[one|] [|]] [|[two|] l2]; try discriminate. intros E. apply andb_prop in E as [E1 E2]. apply negb_true_iff in E2. exists one, two. auto. }
  destruct (G (rx_cut (q 3 10) 1 RwIn) (rx_cut (q 3 10) 2 RwIn)) as (one & two & H); [vm_compute; reflexivity|].
  exists one, two. split; [exact cut_input|exact H].
Qed.
Print Assumptions C63_rank_count_refuted.
(* with the cut-off 1/5 the operator has no small element; one, two and three ranks agree, with a solver that is not exact *)
Definition half (rows : list (list (cx QcF))) (y : list (cx QcF)) : list (cx QcF) := map (fun a => (qi 0 1 2 1 * a)%C) y.
Definition rx_half (R : nat) (pm : rmode) : list (res (garr4 QcF)) :=
  getRIXSmap qsqrt half 5 2 rx_op [q 13 10; q 7 10] [q 1 1] (q 4 10) (q 1 1) None 4 (q 1 5) [t_0] [t_cut] [sp_psi] [q 0 1] (fun _ _ _ l => l) (repeat [] R) pm.
Example C63_example : no_small 2 t_cut (q 1 5) None /\
  forallb (fun Rp => forallb (fun r => vec_eqb (ent4 r 0 0 0 1) (ent4 (hd (Err OutOfFuel) (rx_half 1 RSerial)) 0 0 0 1) && negb (vec_eqb (ent4 r 0 0 0 1) [c0])) (rx_half (fst Rp) (snd Rp)))
    [(1%nat, RwIn); (2%nat, RwIn); (3%nat, RwIn); (2%nat, RHBuildwIn)] = true.
Proof.
  split; [|vm_compute; reflexivity]. intros s t Hs Ht _.
  assert (E : (fun t s => ceqb (opelem t_cut t s) c0 || negb (fltb (cabs2 (opelem t_cut t s)) (q 1 5))) t s = true).
  { apply (all_pairs (fun t s => ceqb (opelem t_cut t s) c0 || negb (fltb (cabs2 (opelem t_cut t s)) (q 1 5))) 2); [vm_compute; reflexivity|auto|auto]. }
  cbv beta in E. apply orb_prop in E as [E|E]; [left; destruct (ceqb_spec (opelem t_cut t s) c0); [auto|discriminate]|right; apply negb_true_iff; auto].
Qed.

(* ---- C64: the order of the product states ---- *)
(* rank 0 returns the same value or exception for two dictionaries that hold the same items in different orders, in
   the modes serial and H_build, for any numbers of ranks, set orders and stored Hamiltonians *)
Theorem C64_insertion_order : forall (F : ofield) (fsqrt : F -> F) n op rs fuel omega delta ks swm e (psi psi' : psi_t F),
  wf_op n op -> wf_restr rs -> (2 ^ n < fuel)%nat -> valid_psi n psi -> Permutation psi psi' ->
  forall (ord ord' : nat -> set_order) hs hs' mode mode' pm pm',
  (mode = GDense \/ mode = GSparse) -> (mode' = GDense \/ mode' = GSparse) ->
  Forall (hdict_exact n op rs) hs -> hs <> [] -> Forall (hdict_exact n op rs) hs' -> hs' <> [] ->
  (pm = Serial \/ pm = HBuild /\ (forall r l, Permutation (ord r l) l) /\ NoDup (flat_map dkeys hs)) ->
  (pm' = Serial \/ pm' = HBuild /\ (forall r l, Permutation (ord' r l) l) /\ NoDup (flat_map dkeys hs')) ->
  exists r, hd_error (map snd (getGreen fsqrt fuel ord (Z.of_nat n) e psi op omega delta ks swm rs hs mode pm)) = Some r /\
    hd_error (map snd (getGreen fsqrt fuel ord' (Z.of_nat n) e psi' op omega delta ks swm rs hs' mode' pm')) = Some r.
Proof. exact (@green_order). Qed.
Print Assumptions C64_insertion_order.
Definition psi_35 : psi_t QcF := [(key [true; false], qr 3 5); (key [false; true], qr 4 5)].
Definition asym_op : op_t QcF := [([(0, C_); (0, A_)], qr 1 1); ([(0, C_); (1, A_)], qr 2 1); ([(1, C_); (0, A_)], qr 2 1)].
Example C64_example : wf_op 2 asym_op /\ valid_psi 2 psi_35 /\ Permutation psi_35 (rev psi_35) /\
  forallb (fun hp => match getGreen qsqrt 5 (fun _ l => l) 2 (q 0 1) psi_35 asym_op [q 1 1] (q 1 1) 1 (q 0 1) None (fst hp) GSparse (snd hp),
                getGreen qsqrt 5 (fun _ l => rev l) 2 (q 0 1) (rev psi_35) asym_op [q 1 1] (q 1 1) 1 (q 0 1) None (fst hp) GDense (snd hp) with
    | (_, Ok g) :: _, (_, Ok g') :: _ => vec_eqb g g' && negb (vec_eqb g [c0]) | _, _ => false end) [([[]], Serial); ([[]; []], HBuild)] = true.
Proof.
  split; [wf_op_ex|]. split; [valid_ex|]. split; [apply Permutation_rev|]. vm_compute. reflexivity.
Qed.
