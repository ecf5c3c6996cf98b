(* Properties C23-C26: the start basis and the spin-orbital indices. *)
From Verif Require Import M_Prelude M_PSR M_Basis S_Occ S_Fock S_Basis.
From Verif Require Import L_Index L_Basis L_Basis2 L_Basis3 L_Basis4.
Local Open Scope Z_scope.

(* ---- C25 ---- *)
(* c2i numbers the spin-orbitals: impurity shells first, then the baths, in key order *)
Theorem C25_c2i : forall nb x, wf_nbaths nb -> coord_ok nb x ->
  c2i nb x = Ok (coord_index nb x) /\ 0 <= coord_index nb x < n_total nb /\
  (match x with SImp _ _ _ => coord_index nb x < n_imp nb | SBath _ _ => n_imp nb <= coord_index nb x end).
Proof. exact c2i_P. Qed.
(* i2c is a left inverse, also when shells share an angular momentum ... *)
Theorem C25_i2c_after_c2i : forall nb x, wf_nbaths nb -> coord_ok nb x ->
  exists i, c2i nb x = Ok i /\ i2c nb i = Ok x.
Proof. exact (fun nb x Hw Hx => ex_intro _ _ (conj (c2i_ok nb x Hw Hx) (i2c_index nb x Hw Hx))). Qed.
(* ... and a bijection when they do not. *)
Theorem C25_bijection : forall nb i, wf_nbaths nb -> NoDup (angs nb) -> 0 <= i < n_total nb ->
  exists x, i2c nb i = Ok x /\ coord_ok nb x /\ c2i nb x = Ok i /\ forall y, coord_ok nb y -> c2i nb y = Ok i -> y = x.
Proof. exact i2c_bijection. Qed.
Print Assumptions C25_c2i. Print Assumptions C25_i2c_after_c2i. Print Assumptions C25_bijection.

(* 2p and 3d shells sharing a bath of 10, and an s shell with 2 bath states *)
Definition ex_nb : nbaths_t := [(KTup [1; 2], 10); (KInt 0, 2)].
Example ex_nb_wf : wf_nbaths ex_nb /\ NoDup (angs ex_nb) /\ n_total ex_nb = 30.
Proof.
  split; [|split; [|reflexivity]].
  - split; [|split]; unfold ex_nb, angs; simpl; repeat constructor; simpl; try lia; intuition discriminate.
  - unfold ex_nb, angs; simpl. repeat constructor; simpl; intuition lia.
Qed.
Example C25_c2i_ex : coord_ok ex_nb (SImp 2 1 (-2)) /\ c2i ex_nb (SImp 2 1 (-2)) = Ok 11 /\
  coord_ok ex_nb (SBath (KTup [1; 2]) 3) /\ c2i ex_nb (SBath (KTup [1; 2]) 3) = Ok 21.
Proof. vm_compute. repeat split; auto; try discriminate. exists 10. repeat split; auto; discriminate. Qed.
Example C25_i2c_ex : i2c ex_nb 29 = Ok (SBath (KInt 0) 1) /\ i2c ex_nb 5 = Ok (SImp 1 1 1).
Proof. split; reflexivity. Qed.
(* the condition that no angular momentum occurs twice is needed *)
Example C25_shared_l : exists nb i x, wf_nbaths nb /\ 0 <= i < n_total nb /\ i2c nb i = Ok x /\ c2i nb x <> Ok i.
Proof.
  exists [(KTup [0; 1], 1); (KInt 0, 1)], 9, (SImp 0 1 0). split; [|split; [vm_compute; split; congruence|split; [reflexivity|vm_compute; discriminate]]].
  split; [|split]; unfold angs; simpl; repeat constructor; simpl; try lia; intuition discriminate.
Qed.

(* ---- C26 ---- *)
Theorem C26_c2i_rejects : forall nb x, ~ coord_ok nb x -> c2i nb x = Err GenericException.
Proof. exact c2i_err. Qed.
Theorem C26_i2c_rejects_large_partial : forall nb i, wf_nbaths nb -> n_total nb <= i -> i2c nb i = Err GenericException.
Proof. exact i2c_beyond. Qed.
(* A negative index is never rejected (unless there is no shell at all): i2c returns a bath state with a negative number. *)
Theorem C26_negative_index_accepted : forall nb i, wf_nbaths nb -> nb <> [] -> i < 0 ->
  exists k b, i2c nb i = Ok (SBath k b) /\ b < 0.
Proof. exact i2c_negative. Qed.
Theorem C26_i2c_rejects_refuted : exists nb i x, wf_nbaths nb /\ ~ (0 <= i < n_total nb) /\ i2c nb i = Ok x /\ ~ coord_ok nb x.
Proof.
  exists ex_nb, (-1), (SBath (KTup [1; 2]) (-37)). split; [exact (proj1 ex_nb_wf)|]. split; [lia|]. split; [reflexivity|].
  cbn [coord_ok]. intros (n & _ & Hn). lia.
Qed.
Print Assumptions C26_c2i_rejects. Print Assumptions C26_i2c_rejects_large_partial. Print Assumptions C26_negative_index_accepted.
Print Assumptions C26_i2c_rejects_refuted.
Example C26_ex : ~ coord_ok ex_nb (SImp 2 2 0) /\ ~ coord_ok ex_nb (SBath (KInt 0) 2) /\ c2i ex_nb (SImp 2 2 0) = Err GenericException /\ i2c ex_nb 30 = Err GenericException.
Proof.
  split; [cbn; intros (_ & [H|H] & _); discriminate|]. split; [|split; reflexivity].
  cbn. intros (n & [H|[H|[]]] & Hn); [discriminate|injection H as <-; lia].
Qed.

(* ---- C23 ---- *)
(* With feasible parameters the basis is exactly the set of admitted configurations. *)
Theorem C23_basis : forall d val dnV dnC tol n0, wf_shells d -> feasible d val dnV dnC tol n0 ->
  exists basis, get_basis d val dnV dnC tol n0 = Ok basis /\ NoDup basis /\
    forall k, In k basis <-> exists c, length c = Z.to_nat (n_total (nbaths_of d)) /\ k = key c /\ admitted d val dnV dnC tol n0 c.
Proof.
  exact (fun d val dnV dnC tol n0 Hw HF => ex_intro _ _ (conj (basis_eq d val dnV dnC tol n0 Hw HF)
    (conj (basis_NoDup d val dnV dnC tol n0 Hw HF) (basis_In d val dnV dnC tol n0 Hw HF)))).
Qed.
(* its size *)
Theorem C23_basis_size : forall d val dnV dnC tol n0 basis, wf_shells d -> feasible d val dnV dnC tol n0 ->
  get_basis d val dnV dnC tol n0 = Ok basis ->
  length basis = fold_right Nat.mul 1%nat (map (fun kv => n_choices (fst kv) (snd kv) (par val dnV dnC tol n0 (fst kv))) d).
Proof. exact basis_size_P. Qed.
(* Exactly the feasible parameters are accepted; everything else is an AssertionError or ValueError. *)
Theorem C23_accepted_parameters : forall d val dnV dnC tol n0,
  wf_shells d -> complete d val dnV dnC tol n0 -> no_empty_valence d val dnV dnC tol n0 ->
  match get_basis d val dnV dnC tol n0 with
  | Ok _ => feasible d val dnV dnC tol n0
  | Err e => ~ feasible d val dnV dnC tol n0 /\ (e = AssertionError \/ e = ValueError)
  end.
Proof. exact accepted_P. Qed.
Print Assumptions C23_basis. Print Assumptions C23_basis_size. Print Assumptions C23_accepted_parameters.

Definition ex_d : zdict := [(1, 1); (0, 2)].
Definition ex_val : zdict := [(1, 1); (0, 1)].
Definition ex_dnV : zdict := [(1, 1); (0, 1)].
Definition ex_dnC : zdict := [(1, 0); (0, 1)].
Definition ex_tol : zdict := [(1, 1); (0, 1)].
Definition ex_n0 : zdict := [(1, 2); (0, 1)].
Example ex_shells : wf_shells ex_d.
Proof.
  split.
  - unfold ex_d, dkeys; simpl. repeat constructor; simpl; intuition congruence.
  - unfold ex_d. repeat (apply Forall_cons; [simpl; lia|]). constructor.
Qed.
Example ex_feasible : feasible ex_d ex_val ex_dnV ex_dnC ex_tol ex_n0.
Proof.
  intros l nB [H|[H|[]]]; injection H as <- <-; eexists (mk_par _ _ _ _ _); (split; [repeat split; reflexivity|]); (split; [simpl; lia|]);
    intros dv dc (H1 & H2 & H3); unfold shell_size; cbn [p_val p_dv p_dc p_tol p_n0] in *; lia.
Qed.
Example C23_ex : match get_basis ex_d ex_val ex_dnV ex_dnC ex_tol ex_n0 with
  | Ok b => length b = 210%nat /\ existsb (eqb (key (map (fun k => Z.eqb k 0 || Z.eqb k 5 || Z.eqb k 6 || Z.eqb k 8 || Z.eqb k 9) (zrange 11)))) b = true
  | Err _ => False end.
Proof. vm_compute. split; reflexivity. Qed.
(* an over-occupied impurity and a negative occupation *)
Example C23_reject_ex :
  get_basis [(0, 1)] [(0, 1)] [(0, 1)] [(0, 0)] [(0, 1)] [(0, 2)] = Err AssertionError /\
  get_basis [(0, 1)] [(0, 0)] [(0, 0)] [(0, 1)] [(0, 1)] [(0, 0)] = Err ValueError.
Proof. split; reflexivity. Qed.

(* ---- C24 ---- *)
Theorem C24_electrons_partial : forall d val dnV dnC tol n0 basis, wf_shells d -> complete d val dnV dnC tol n0 ->
  no_empty_valence d val dnV dnC tol n0 -> get_basis d val dnV dnC tol n0 = Ok basis ->
  forall k, In k basis -> exists c, k = key c /\ length c = Z.to_nat (n_total (nbaths_of d)) /\
    electrons c = zsum (map (fun kv => p_n0 (par val dnV dnC tol n0 (fst kv)) + p_val (par val dnV dnC tol n0 (fst kv))) d).
Proof. exact electrons_P. Qed.
(* Without the condition on empty valence baths electrons appear from nowhere. *)
Theorem C24_electrons_refuted : exists d val dnV dnC tol n0 basis c1 c2, wf_shells d /\ complete d val dnV dnC tol n0 /\
  get_basis d val dnV dnC tol n0 = Ok basis /\ In (key c1) basis /\ In (key c2) basis /\
  length c1 = 3%nat /\ length c2 = 3%nat /\ electrons c1 = 1 /\ electrons c2 = 2.
Proof.
  exists [(0, 1)], [(0, 0)], [(0, 1)], [(0, 0)], [(0, 1)], [(0, 1)]. eexists _, [true; false; false], [true; true; false].
  split; [split; [simpl; repeat constructor; simpl; intuition congruence|apply Forall_cons; [simpl; lia|constructor]]|].
  split; [intros l [<-|[]]; eexists (mk_par _ _ _ _ _); repeat split; reflexivity|].
  split; [reflexivity|]. repeat split; try reflexivity; vm_compute; auto.
Qed.
Print Assumptions C24_electrons_partial. Print Assumptions C24_electrons_refuted.
Example C24_ex : complete ex_d ex_val ex_dnV ex_dnC ex_tol ex_n0 /\ no_empty_valence ex_d ex_val ex_dnV ex_dnC ex_tol ex_n0.
Proof.
  split.
  - intros l [<-|[<-|[]]]; eexists (mk_par _ _ _ _ _); repeat split; reflexivity.
  - intros l p [<-|[<-|[]]] (E1 & _) H0; rewrite H0 in E1; discriminate.
Qed.
