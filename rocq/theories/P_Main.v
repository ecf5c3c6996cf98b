(* Properties C53 - C55, C57, C62: eigenstates, their selection, restrictions, printed averages and RIXS.bin. *)
From Coq Require Import QArith Qcanon Permutation Sorted Reals.
From Verif Require Import M_Prelude M_Scalar M_PSR M_Ladder M_State M_Mpi M_Hamiltonian M_Basis M_Average M_Expect M_Main.
From Verif Require Import S_Fock S_Ops S_Ham S_Basis S_Expect S_Thermal S_Green S_Print S_Main.
From Verif Require Import L_Main L_Main2 L_Main3 L_RixsFile L_Main4 L_Scalar X_Util X_Ops X_Main X_Reals P_Ham P_Expect.
Local Open Scope Z_scope.

(* ---- C55: eigensystem ---- *)
Theorem C55_full : forall (F : ofield) eigh eigsh argsort n (op : op_t F) cs ranks nPsiMax swm,
  wf_op n op -> assert_hermitian op = Ok tt -> Forall (fun c => length c = n) cs -> NoDup cs -> cs <> [] -> (1 <= ranks)%nat ->
  0 <= nPsiMax -> eigh_works op cs eigh ->
  exists es psis, eigensystem eigh eigsh argsort ranks (Z.of_nat n) op (map key cs) nPsiMax FullDiag swm = repeat (Ok (es, psis)) ranks /\
    Z.of_nat (length es) = Z.min nPsiMax (Z.of_nat (length cs)) /\ eigenstates op cs swm es psis.
Proof. exact (@eigensystem_full). Qed.
Theorem C55_Lanczos : forall (F : ofield) eigh eigsh argsort n (op : op_t F) cs ranks nPsiMax swm,
  wf_op n op -> assert_hermitian op = Ok tt -> Forall (fun c => length c = n) cs -> NoDup cs -> cs <> [] -> (1 <= ranks)%nat ->
  eigsh_works op cs nPsiMax eigsh -> argsort_works argsort ->
  exists es psis, eigensystem eigh eigsh argsort ranks (Z.of_nat n) op (map key cs) nPsiMax LanczosDiag swm = repeat (Ok (es, psis)) ranks /\
    Z.of_nat (length es) = nPsiMax /\ eigenstates op cs swm es psis.
Proof. exact (@eigensystem_lanczos). Qed.
(* the lost weight *)
Theorem C55_weight : forall (F : ofield) n cs (swm : F) v psi,
  Forall (fun c => length c = n) cs -> NoDup cs -> length v = length cs -> truncated cs swm v psi ->
  (norm2 psi <= fsum cabs2 v)%F /\ ((0 <= swm)%F -> (fsum cabs2 v <= norm2 psi + fofZ (Z.of_nat (length cs)) * swm)%F).
Proof. exact (@truncated_weight). Qed.
(* without a cutoff: orthonormal solutions of the eigenvalue equation in the space of the basis *)
Theorem C55_no_cutoff : forall (F : ofield) n (op : op_t F) cs (swm : F) es psis,
  Forall (fun c => length c = n) cs -> NoDup cs -> (swm <= 0)%F -> eigenstates op cs swm es psis ->
  forall k e psi, nth_error es k = Some e -> nth_error psis k = Some psi ->
    (forall c, In c cs -> csum (fun c' => cut12 (opelem op c c') * amp psi c')%C cs = (creal e * amp psi c)%C) /\
    forall l phi, nth_error psis l = Some phi -> inner psi phi = if Nat.eqb k l then c1 else c0.
Proof. exact (@exact_states). Qed.
(* an unknown mode, an empty basis *)
Theorem C55_other_mode : forall (F : ofield) eigh eigsh argsort n (op : op_t F) cs ranks nPsiMax swm,
  wf_op n op -> Forall (fun c => length c = n) cs -> cs <> [] -> (1 <= ranks)%nat ->
  eigensystem eigh eigsh argsort ranks (Z.of_nat n) op (map key cs) nPsiMax OtherDiag swm = repeat (Err UnboundLocalError) ranks.
Proof. exact (@eigensystem_other). Qed.
Theorem C55_empty_basis : forall (F : ofield) eigh eigsh argsort n (op : op_t F) ranks nPsiMax mode swm, wf_op n op -> (1 <= ranks)%nat ->
  hd_error (eigensystem eigh eigsh argsort ranks (Z.of_nat n) op [] nPsiMax mode swm) = Some (Err ZeroDivisionError).
Proof. exact (@eigensystem_empty). Qed.
Print Assumptions C55_full. Print Assumptions C55_Lanczos. Print Assumptions C55_weight. Print Assumptions C55_no_cutoff.
Print Assumptions C55_other_mode. Print Assumptions C55_empty_basis.

(* 16 n0 + 9 n1 - 12 (c0+ c1 + c1+ c0) with one electron: energies 0 and 25 *)
Definition ex_dimer : op_t QcF := [([(0, lab_c); (0, lab_a)], qr 16 1); ([(1, lab_c); (1, lab_a)], qr 9 1);
  ([(0, lab_c); (1, lab_a)], qr (-12) 1); ([(1, lab_c); (0, lab_a)], qr (-12) 1)].
Definition ex_cs : list config := [[true; false]; [false; true]].
Definition ex_es : list QcF := [q 0 1; q 25 1].
Definition ex_vecs : list (list (cx QcF)) := [[qr 3 5; qr 4 5]; [qr (-4) 5; qr 3 5]].
Definition ex_eigh (N : nat) (h : M_Hamiltonian.mat QcF) : res (list QcF * list (list (cx QcF))) := Ok (ex_es, ex_vecs).
(* eigsh finding them in another order *)
Definition ex_eigsh (N : nat) (h : M_Hamiltonian.mat QcF) (k : Z) : res (list QcF * list (list (cx QcF))) := Ok (rev ex_es, rev ex_vecs).
Lemma ceqb_eq (x y : cx QcF) : ceqb x y = true -> x = y.
Proof. destruct (ceqb_spec x y); auto; discriminate. Qed.
Lemma ex_eigen h : matrix_of ex_dimer ex_cs h -> eigen_of 2 h ex_es ex_vecs /\ orthonormal 2 ex_vecs /\ eigen_of 2 h (rev ex_es) (rev ex_vecs) /\ orthonormal 2 (rev ex_vecs).
Proof.
  intros Hm.
  assert (H00 : h 0%nat 0%nat = qr 16 1) by (rewrite (Hm 0 0 [true; false] [true; false])%nat by reflexivity; apply ceqb_eq; vm_compute; reflexivity).
  assert (H01 : h 0%nat 1%nat = qr (-12) 1) by (rewrite (Hm 0 1 [true; false] [false; true])%nat by reflexivity; apply ceqb_eq; vm_compute; reflexivity).
  assert (H10 : h 1%nat 0%nat = qr (-12) 1) by (rewrite (Hm 1 0 [false; true] [true; false])%nat by reflexivity; apply ceqb_eq; vm_compute; reflexivity).
  assert (H11 : h 1%nat 1%nat = qr 9 1) by (rewrite (Hm 1 1 [false; true] [false; true])%nat by reflexivity; apply ceqb_eq; vm_compute; reflexivity).
  assert (HE : forall es vecs, (es, vecs) = (ex_es, ex_vecs) \/ (es, vecs) = (rev ex_es, rev ex_vecs) -> eigen_of 2 h es vecs /\ orthonormal 2 vecs).
  { intros es vecs Hc. split; [split; [|split]|].
    - destruct Hc as [E|E]; injection E as -> ->; reflexivity.
    - destruct Hc as [E|E]; injection E as -> ->; repeat constructor.
    - intros k e v He Hv i Hi. destruct Hc as [E|E]; injection E as -> ->; destruct k as [|[|k]]; try (destruct k; discriminate); cbn in He, Hv; injection He as <-; injection Hv as <-;
        (destruct i as [|[|i]]; [| |lia]); cbn [csum fold_right seq]; rewrite ?H00, ?H01, ?H10, ?H11; apply ceqb_eq; vm_compute; reflexivity.
    - intros k l v w Hv Hw. destruct Hc as [E|E]; injection E as -> ->; destruct k as [|[|k]]; try (destruct k; discriminate); destruct l as [|[|l]]; try (destruct l; discriminate);
        cbn in Hv, Hw; injection Hv as <-; injection Hw as <-; apply ceqb_eq; vm_compute; reflexivity. }
  destruct (HE ex_es ex_vecs) as [A B]; [auto|]. destruct (HE (rev ex_es) (rev ex_vecs)) as [C D]; auto.
Qed.
Example C55_ex : wf_op 2 ex_dimer /\ assert_hermitian ex_dimer = Ok tt /\ Forall (fun c => length c = 2%nat) ex_cs /\ NoDup ex_cs /\
  eigh_works ex_dimer ex_cs ex_eigh /\ eigsh_works ex_dimer ex_cs 2 ex_eigsh /\ argsort_works (@isort QcF).
Proof.
  split; [apply wf_opb_ok; vm_compute; reflexivity|]. split; [vm_compute; reflexivity|]. split; [repeat constructor|]. split; [apply nodupb_ok; vm_compute; reflexivity|].
  split; [|split; [|apply isort_works]].
  - intros h Hm _. exists ex_es, ex_vecs. split; [reflexivity|]. split; [reflexivity|]. split; [apply ascb_ok; vm_compute; reflexivity|]. split; apply (ex_eigen h Hm).
  - intros h Hm _. exists (rev ex_es), (rev ex_vecs). split; [reflexivity|]. split; [reflexivity|]. split; apply (ex_eigen h Hm).
Qed.
Definition es_psis_is (r : res (list QcF * list (psi_t QcF))) (es : list QcF) (psis : list (psi_t QcF)) : bool :=
  match r with
  | Ok (es', psis') => vec_eqb (map creal es') (map creal es) && Nat.eqb (length psis') (length psis) && forallb (fun pp => psi_eqb (fst pp) (snd pp)) (combine psis' psis)
  | Err _ => false
  end.
Example C55_ex_run :
  forallb (fun r => es_psis_is r ex_es [[(key [true; false], qr 3 5); (key [false; true], qr 4 5)]; [(key [true; false], qr (-4) 5); (key [false; true], qr 3 5)]])
    (eigensystem ex_eigh ex_eigsh isort 3 2 ex_dimer (map key ex_cs) 2 LanczosDiag (q 0 1)) = true /\
  forallb (fun r => es_psis_is r [q 0 1] [[(key [false; true], qr 4 5)]])
    (eigensystem ex_eigh ex_eigsh isort 3 2 ex_dimer (map key ex_cs) 1 FullDiag (q 1 2)) = true.
Proof. split; vm_compute; reflexivity. Qed.

(* ---- C53: the energy cut ---- *)
Theorem C53_pairing : forall (F : ofield) (es : list F) (psis : list (psi_t F)) (cut : F), ascending es -> (length es <= length psis)%nat ->
  exists k, low_energy es psis cut = Ok (firstn k es, firstn k psis) /\ (k <= length es)%nat /\
    forall e0 i e, nth_error es 0 = Some e0 -> nth_error es i = Some e -> ((i < k)%nat <-> (e - e0 < cut)%F).
Proof. exact (@low_energy_prefix). Qed.
(* for energies in another order the states would be exchanged *)
Theorem C53_needs_order : exists (es : list QcF) (psis : list (psi_t QcF)) cut es' psis', length es = length psis /\
  low_energy es psis cut = Ok (es', psis') /\ ~ incl (combine es' psis') (combine es psis).
Proof.
  exists [q 0 1; q 5 1; q 0 1], [[]; [(key [true; false], qr 1 1)]; [(key [true; false], qr 3 5); (key [false; true], qr 4 5)]], (q 1 1). do 2 eexists. split; [reflexivity|]. split; [reflexivity|].
  intros H. specialize (H (q 0 1, [(key [true; false], qr 1 1)]) (or_intror (or_introl eq_refl))).
  destruct H as [H|[H|[H|[]]]]; [discriminate| |discriminate].
  assert (H' : feqb (q 5 1) (q 0 1) = true) by (assert (H1 : q 5 1 = q 0 1) by congruence; rewrite H1; destruct (feqb_spec (q 0 1) (q 0 1)); auto).
  vm_compute in H'. discriminate.
Qed.
Print Assumptions C53_pairing. Print Assumptions C53_needs_order.
(* a twofold degenerate ground state *)
Example C53_ex : ascending [q (-3) 1; q (-3) 1; q (-5) 2] /\
  low_energy [q (-3) 1; q (-3) 1; q (-5) 2] [[(key [true; false], qr 1 1)]; [(key [false; true], qr 1 1)]; [(key [true; true], qr 1 1)]] (q 1 4) =
  Ok ([q (-3) 1; q (-3) 1], [[(key [true; false], qr 1 1)]; [(key [false; true], qr 1 1)]]).
Proof. split; [apply ascb_ok; vm_compute; reflexivity|reflexivity]. Qed.

(* ---- C54: restrictions of the excited states ---- *)
(* their meaning *)
Theorem C54_meaning : forall d val dnV dnC tol n0 nB p rs c, wf_shells d -> In (2, nB) d -> shell_params val dnV dnC tol n0 2 p ->
  0 <= p_val p <= nB -> 0 <= p_dv p -> excited_restrictions d val dnV dnC tol n0 = Ok rs ->
  (allowed rs c <->
   p_n0 p - 1 <= occ_in c (imp_idx d 2) <= p_n0 p + p_tol p + 1 /\
   p_val p - p_dv p <= occ_in c (val_idx d 2 (p_val p)) <= p_val p /\ 0 <= occ_in c (con_idx d 2 (p_val p) nB) <= p_dc p).
Proof. exact (fun d val dnV dnC tol n0 nB p rs c Hw H2 Hp Hv => allowed_meaning d val dnV dnC tol n0 Hw nB H2 p Hp Hv rs c). Qed.
Theorem C54_defined : forall d val dnV dnC tol n0 nB p, wf_shells d -> In (2, nB) d -> shell_params val dnV dnC tol n0 2 p ->
  0 <= p_val p <= nB -> exists rs, excited_restrictions d val dnV dnC tol n0 = Ok rs.
Proof. exact (fun d val dnV dnC tol n0 nB p Hw H2 Hp Hv => ex_intro _ _ (restrictions_eq d val dnV dnC tol n0 Hw nB H2 p Hp Hv)). Qed.
(* Every product state of the ground-state basis satisfies them if dnTol <= 1 or dnConBaths <= 1.  The full property would be
   without that condition; it is false (C54_basis_allowed_refuted). *)
Theorem C54_basis_allowed_partial : forall d val dnV dnC tol n0 basis nB p, wf_shells d -> complete d val dnV dnC tol n0 -> no_empty_valence d val dnV dnC tol n0 ->
  get_basis d val dnV dnC tol n0 = Ok basis -> In (2, nB) d -> shell_params val dnV dnC tol n0 2 p -> p_tol p <= 1 \/ p_dc p <= 1 ->
  forall k, In k basis -> exists rs c, excited_restrictions d val dnV dnC tol n0 = Ok rs /\ k = key c /\
    length c = Z.to_nat (n_total (nbaths_of d)) /\ allowed rs c.
Proof. exact basis_allowed. Qed.
(* 2p6 3d2 with two conduction bath states and dnTol = 2: the state with both d electrons in the bath *)
Definition ex_c54 : config := repeat true 6 ++ repeat false 10 ++ [true; true].
Theorem C54_basis_allowed_refuted : exists d val dnV dnC tol n0 basis rs c, wf_shells d /\ complete d val dnV dnC tol n0 /\ no_empty_valence d val dnV dnC tol n0 /\
  get_basis d val dnV dnC tol n0 = Ok basis /\ excited_restrictions d val dnV dnC tol n0 = Ok rs /\ In (key c) basis /\
  length c = Z.to_nat (n_total (nbaths_of d)) /\ ~ allowed rs c.
Proof.
  exists [(1, 0); (2, 2)], [(1, 0); (2, 0)], [(1, 0); (2, 0)], [(1, 0); (2, 2)], [(1, 0); (2, 2)], [(1, 6); (2, 2)]. do 2 eexists. exists ex_c54.
  split; [split; [apply nodupb_ok; reflexivity|repeat (apply Forall_cons || apply Forall_nil); simpl; lia]|].
  split; [intros l [<-|[<-|[]]]; eexists (mk_par _ _ _ _ _); repeat split; reflexivity|].
  split; [intros l p [<-|[<-|[]]] (_ & Hd & _) _; simpl in Hd; injection Hd as <-; lia|].
  split; [vm_compute; reflexivity|]. split; [vm_compute; reflexivity|]. split; [apply L_PSR.inb_In; vm_compute; reflexivity|]. split; [reflexivity|].
  intros H. inversion H as [|? ? H1 _]. vm_compute in H1. destruct H1 as [H1 _]. now apply H1.
Qed.
Print Assumptions C54_meaning. Print Assumptions C54_defined. Print Assumptions C54_basis_allowed_partial. Print Assumptions C54_basis_allowed_refuted.
(* 2p6 3d8 with ten valence bath states (as for NiO) and one conduction bath state *)
Example C54_ex : let d := [(1, 0); (2, 11)] in let val := [(1, 0); (2, 10)] in let dnV := [(1, 0); (2, 1)] in let dnC := [(1, 0); (2, 1)] in
  let tol := [(1, 0); (2, 1)] in let n0 := [(1, 6); (2, 8)] in
  wf_shells d /\ complete d val dnV dnC tol n0 /\ no_empty_valence d val dnV dnC tol n0 /\ In (2, 11) d /\ shell_params val dnV dnC tol n0 2 (mk_par 10 1 1 1 8) /\
  (exists basis, get_basis d val dnV dnC tol n0 = Ok basis /\ length basis = 715%nat) /\
  excited_restrictions d val dnV dnC tol n0 = Ok [(zrange2 6 16, (7, 10)); (zrange2 16 26, (9, 10)); ([26], (0, 1))].
Proof.
  cbv zeta. split; [split; [apply nodupb_ok; reflexivity|repeat (apply Forall_cons || apply Forall_nil); simpl; lia]|].
  split; [intros l [<-|[<-|[]]]; eexists (mk_par _ _ _ _ _); repeat split; reflexivity|].
  split; [intros l p [<-|[<-|[]]] (Hv & Hd & _) H0; simpl in Hd, Hv; injection Hd as <-; injection Hv as Hv; lia|].
  split; [simpl; auto|]. split; [repeat split; reflexivity|]. split; [|vm_compute; reflexivity].
  assert (E : match get_basis [(1, 0); (2, 11)] [(1, 0); (2, 10)] [(1, 0); (2, 1)] [(1, 0); (2, 1)] [(1, 0); (2, 1)] [(1, 6); (2, 8)] with Ok b => Nat.eqb (length b) 715 | Err _ => false end = true) by (vm_compute; reflexivity).
  destruct (get_basis _ _ _ _ _ _) as [b|]; [|discriminate]. exists b. split; [reflexivity|]. now apply Nat.eqb_eq in E.
Qed.

(* ---- C57: RIXS.bin ---- *)
(* f32 is the rounding to float32, fint the conversion of a float to int; the number of columns must survive (true up to 2^24) *)
Theorem C57_round_trip : forall (F : ofield) (f32 : F -> F) (fint : F -> Z) wIn wLoss aSum,
  length aSum = length wIn -> Forall (fun a => length a = length wLoss) aSum ->
  fint (f32 (fofZ (Z.of_nat (length wIn)))) = Z.of_nat (length wIn) ->
  exists x rixs, write_rixs f32 wIn wLoss aSum = Ok x /\ read_rixs fint x = Ok (map f32 wLoss, map f32 wIn, rixs) /\
    length rixs = length wLoss /\ Forall (fun r => length r = length wIn) rixs /\
    forall i j, (i < length wLoss)%nat -> (j < length wIn)%nat -> nth j (nth i rixs []) 0%F = f32 (nth i (nth j aSum []) 0%F).
Proof. exact (@rixs_round_trip). Qed.
Print Assumptions C57_round_trip.
(* What the reader does with any file: no number at all, a header -1, a header below -1 or a length that does not fit are errors; ... *)
Theorem C57_read_errors : forall (F : ofield) (fint : F -> Z), read_rixs fint [] = Err IndexError /\
  forall x0 x, let N := Z.of_nat (length (x0 :: x)) in
    (fint x0 = -1 -> read_rixs fint (x0 :: x) = Err ZeroDivisionError) /\
    ((fint x0 < -1 \/ (0 <= fint x0 /\ N mod (fint x0 + 1) <> 0)) -> read_rixs fint (x0 :: x) = Err ValueError).
Proof. exact (@read_errors). Qed.
(* ... all other files are read, and no number is lost. *)
Theorem C57_read : forall (F : ofield) (fint : F -> Z) x0 x, 0 <= fint x0 -> Z.of_nat (length (x0 :: x)) mod (fint x0 + 1) = 0 ->
  exists wLoss wIn rixs, read_rixs fint (x0 :: x) = Ok (wLoss, wIn, rixs) /\ length wIn = Z.to_nat (fint x0) /\ length rixs = length wLoss /\ Forall (fun r => length r = length wIn) rixs /\
    x0 :: x = concat ((x0 :: wIn) :: map (fun p => fst p :: snd p) (combine wLoss rixs)).
Proof. exact (@read_ok). Qed.
Print Assumptions C57_read_errors. Print Assumptions C57_read.
Example C57_ex : let wIn := [q 1 1; q 2 1; q 3 1] in let wLoss := [q 5 1; q 6 1] in let aSum := [[q 10 1; q 11 1]; [q 20 1; q 21 1]; [q 30 1; q 31 1]] in
  length aSum = length wIn /\ Forall (fun a => length a = length wLoss) aSum /\ qint ((fun x => x) (fofZ (Z.of_nat (length wIn)))) = Z.of_nat (length wIn) /\
  write_rixs (fun x => x) wIn wLoss aSum = Ok [fofZ 3; q 1 1; q 2 1; q 3 1; q 5 1; q 10 1; q 20 1; q 30 1; q 6 1; q 11 1; q 21 1; q 31 1].
Proof. cbv zeta. split; [reflexivity|]. split; [repeat constructor|]. split; [apply qint_ofZ|reflexivity]. Qed.

(* ---- C62: printed thermal averages ---- *)
Theorem C62_thermal : forall (F : ofield) (fsqrt fexp : F -> F), exp_laws fexp -> sqrt_laws fsqrt -> forall k_B T : F, (k_B * T <> 0)%F ->
  forall nb, has_shell nb 2 -> forall u, get_spherical_2_cubic_matrix fsqrt false 2 = Ok u ->
  forall es psis e0 cutOff, hd_error es = Some e0 -> length psis = length es -> (0 < cutOff * k_B * T)%F -> (forall psi, In psi psis -> valid_psi (n_orb nb) psi) ->
  printThermalExpValues fsqrt fexp k_B nb es psis T cutOff =
  Ok (map (boltz_mean fexp (k_B * T)%F (selected e0 (cutOff * k_B * T)%F es psis)) (observables fsqrt nb u e0)).
Proof. exact (@print_ok). Qed.
(* the occupations add up to N, which is at most 10 *)
Theorem C62_sum : forall (F : ofield) (fsqrt fexp : F -> F), sqrt_laws fsqrt -> forall nb, has_shell nb 2 -> forall u, get_spherical_2_cubic_matrix fsqrt false 2 = Ok u ->
  forall (kT e0 : F) sel, (forall ep, In ep sel -> valid_psi (n_orb nb) (snd ep)) ->
  let mean i := boltz_mean fexp kT sel (nth i (observables fsqrt nb u e0) (fun _ => c0)) in
  mean 1%nat = (mean 2%nat + (mean 3%nat + (mean 4%nat + mean 5%nat)))%C.
Proof. exact (@mean_N_sum). Qed.
Theorem C62_bounds : forall (F : ofield) (fsqrt fexp : F -> F), exp_laws fexp -> sqrt_laws fsqrt -> forall nb, has_shell nb 2 -> forall u, get_spherical_2_cubic_matrix fsqrt false 2 = Ok u ->
  forall (kT e0 : F) sel, (forall ep, In ep sel -> valid_psi (n_orb nb) (snd ep)) -> sel <> [] -> (forall ep, In ep sel -> (norm2 (snd ep) <= 1)%F) ->
  exists x, boltz_mean fexp kT sel (nth 1 (observables fsqrt nb u e0) (fun _ => c0)) = creal x /\ (0 <= x)%F /\ (x <= fofZ 10)%F.
Proof. exact (@mean_N_bounds). Qed.
Print Assumptions C62_thermal. Print Assumptions C62_sum. Print Assumptions C62_bounds.
Example C62_ex : @exp_laws RF exp /\ @sqrt_laws RF R_sqrt.sqrt /\ has_shell ex_3d 2 /\ (exists u, @get_spherical_2_cubic_matrix RF R_sqrt.sqrt false 2 = Ok u) /\
  (forall psi, In psi [[(key (ex_cfg [0; 1; 9]%nat), c1); (key (ex_cfg [2; 9; 11]%nat), cI)]] -> valid_psi (F := RF) (n_orb ex_3d) psi).
Proof.
  split; [exact exp_laws_R|]. split; [exact sqrt_laws_R|]. split; [apply ex_3d_shell|]. split.
  - destruct (C45_real_d RF R_sqrt.sqrt sqrt_laws_R) as (u & E & _). exists u. exact E.
  - intros psi [<-|[]]. apply ex_psi3d_gen.
Qed.
