(* Properties of unitary changes of the bath orbitals: C91. *)
From Coq Require Import QArith Qcanon Reals Permutation.
From Verif Require Import M_Prelude M_Scalar M_PSR M_Ladder M_State M_Mpi M_Hamiltonian M_Basis M_Expect M_Operators M_Lanczos M_Average M_Spectra M_Simulate M_RIXS M_Main M_Program.
From Verif Require Import S_Fock S_Ops S_Ham S_Green S_Thermal S_Spectra S_Basis S_Expect S_Operators S_Symmetry S_TimeReversal S_Dichroism S_Sector S_RIXS S_Levels S_Unitary S_Unitary2.
From Verif Require Import L_Scalar L_Sum L_Fock L_State L_FockP L_Expect L_Index L_Shift4 L_Unitary L_Unitary2 L_Unitary3 L_Unitary4 L_Unitary5 X_Util X_Reals X_Ops X_Symmetry X_Unitary P_Fock P_Green P_Spectra P_Levels P_Shift.
From Verif Require S_Dict.
Local Open Scope Z_scope.

(* ---- C91: the spectra do not depend on the choice of the bath orbitals ---- *)
(* A unitary change of the orbitals keeps the inner products of the many-electron states, ... *)
Theorem C91_inner : forall (F : ofield) n (u : nat -> nat -> cx F), unitary_orbitals n u -> forall v w, vdot n (turned n u v) (turned n u w) = vdot n v w.
Proof. exact (@T_iso). Qed.
(* ... the operators of the orbitals that are not turned, ... *)
Theorem C91_kept : forall (F : ofield) n (u : nat -> nat -> cx F), unitary_orbitals n u -> forall A, wf_op n A -> kept_op n u A -> turns n u A A.
Proof. exact (@turns_kept). Qed.
(* ... and takes a one-particle operator h to u h u^+. *)
Theorem C91_hops : forall (F : ofield) n (u : nat -> nat -> cx F), unitary_orbitals n u -> forall h, turns n u (hops n h) (hops n (turned_hops n u h)).
Proof. exact (@turns_hops). Qed.
(* The eigenstates are turned with the Hamiltonian; complete sets of them belong together, whichever the diagonalisation returns. *)
Theorem C91_eigen : forall (F : ofield) n (u : nat -> nat -> cx F) A B e v, turns n u A B -> eigenvector n A e v -> eigenvector n B e (turned n u v).
Proof. exact (@eig_turned). Qed.
Theorem C91_levels : forall (F : ofield) n (u : nat -> nat -> cx F) A B es psis psis', unitary_orbitals n u -> turns n u A B -> Forall (valid_psi n) psis -> Forall (valid_psi n) psis' ->
  whole_levels n A es psis -> whole_levels n B es psis' -> turned_levels n u es psis psis'.
Proof. exact (@whole_turned). Qed.
(* The Hamiltonian of the program: if the bath orbitals of h0 are turned, and the impurity orbitals are not, the whole Hamiltonian is turned. *)
Theorem C91_h0 : forall (F : ofield) nb, wf_nbaths nb -> forall (u : nat -> nat -> cx F) (h0 h0' : sop_t F), unitary_orbitals (n_orb nb) u ->
  NoDup (dkeys h0) -> op_in nb h0 -> only_hops h0 -> NoDup (dkeys h0') -> op_in nb h0' -> only_hops h0' ->
  (forall i j, (i < n_orb nb)%nat -> (j < n_orb nb)%nat -> hop_matrix nb h0' i j = turned_hops (n_orb nb) u (hop_matrix nb h0) i j) -> turns (n_orb nb) u (indexed nb h0) (indexed nb h0').
Proof. exact (@turns_h0). Qed.
Theorem C91_hamiltonian : forall (F : ofield) nb, wf_nbaths nb -> forall (fsqrt : F -> F) pi gaunt fint hp n3d,
  (forall l1 l2 l3 m1 m2 m3, gaunt l1 l2 l3 m1 m2 m3 = gaunt l3 l2 l1 m3 m2 m1) ->
  (forall l1 l2 l3 m1 m2 m3, gaunt l1 l2 l3 (- m1) (- m2) (- m3) = gaunt l1 l2 l3 m1 m2 m3) ->
  (forall z, fint (fofZ z) = z) -> dget (hp_n0imps hp) 2 = Some n3d -> dget (hp_n0imps hp) 1 = Some 6 ->
  (5 <= length (hp_Fdd hp))%nat -> (1 <= length (hp_Fpd hp))%nat -> (4 <= length (hp_Gpd hp))%nat -> In 1 (angs nb) -> In 2 (angs nb) ->
  forall u rs (h0 h0' : sop_t F) hOp hOp', unitary_orbitals (n_orb nb) u -> kept_impurity nb u -> wf_restr rs -> unmixed (n_orb nb) u rs ->
  NoDup (dkeys h0) -> assert_hermitian h0 = Ok tt -> op_in nb h0 -> NoDup (dkeys h0') -> assert_hermitian h0' = Ok tt -> op_in nb h0' ->
  turns (n_orb nb) u (indexed nb h0) (indexed nb h0') ->
  get_hamiltonian_operator fsqrt pi gaunt fint nb hp h0 = Ok hOp -> get_hamiltonian_operator fsqrt pi gaunt fint nb hp h0' = Ok hOp' ->
  S_Dict.no_small (n_orb nb) hOp -> S_Dict.no_small (n_orb nb) hOp' -> turned_hamiltonians (n_orb nb) u rs hOp hOp'.
Proof. exact (@total_turned). Qed.
(* The crystal-field program with the cubic and with the spherical bath: the second Hamiltonian is the first with turned bath orbitals; the restrictions of the excited states do not tell them apart. *)
Theorem C91_bath_basis : forall (F : ofield) (fsqrt : F -> F) pi gaunt fint d vals dnV dnC tol n0 rs nB p nv hp n3d params hOp hOp', sqrt_laws fsqrt -> wf_shells d -> let nb := nbaths_of d in NoDup (angs nb) ->
  (forall l1 l2 l3 m1 m2 m3, gaunt l1 l2 l3 m1 m2 m3 = gaunt l3 l2 l1 m3 m2 m1) ->
  (forall l1 l2 l3 m1 m2 m3, gaunt l1 l2 l3 (- m1) (- m2) (- m3) = gaunt l1 l2 l3 m1 m2 m3) ->
  (forall z, fint (fofZ z) = z) -> dget (hp_n0imps hp) 2 = Some n3d -> dget (hp_n0imps hp) 1 = Some 6 ->
  (5 <= length (hp_Fdd hp))%nat -> (1 <= length (hp_Fpd hp))%nat -> (4 <= length (hp_Gpd hp))%nat -> In 1 (angs nb) -> In 2 (angs nb) ->
  dget d 2 = Some nB -> nB = 10 \/ nB = 20 -> dget nv (KInt 2) = Some 10 -> shell_params vals dnV dnC tol n0 2 p -> p_val p = 10 -> excited_restrictions d vals dnV dnC tol n0 = Ok rs ->
  get_hamiltonian_operator_using_CF fsqrt pi gaunt fint nb nv hp params Cubic = Ok hOp -> get_hamiltonian_operator_using_CF fsqrt pi gaunt fint nb nv hp params Spherical = Ok hOp' ->
  S_Dict.no_small (n_orb nb) hOp -> S_Dict.no_small (n_orb nb) hOp' ->
  exists u, get_spherical_2_cubic_matrix fsqrt false 2 = Ok u /\ unitary 5 u /\ kept_impurity nb (bath_turn nb nB u) /\ turned_hamiltonians (n_orb nb) (bath_turn nb nB u) (Some rs) hOp hOp'.
Proof. exact (@CF_basis). Qed.
(* All transition operators of the program act on the impurity only. *)
Theorem C91_transitions : forall (F : ofield) nb, wf_nbaths nb -> forall (fsqrt arccos fsin : F -> F) pi gaunt spherical_jn sph_harm u ops dN dNc, unitary_orbitals (n_orb nb) u -> kept_impurity nb u ->
  transition_ops fsqrt arccos fsin pi gaunt spherical_jn sph_harm nb ops dN dNc -> Forall (wf_op (n_orb nb)) ops /\ Forall (fun o => turns (n_orb nb) u o o) ops.
Proof. exact (@transitions_turned). Qed.
(* The written columns are the same, with a full Krylov space and without cut-off, also with restrictions: XAS.dat and NIXS.dat, XPS.dat, PS.dat, ... *)
Theorem C91_absorption : forall (F : ofield) n (u : nat -> nat -> cx F) op op' rs, turned_hamiltonians n u rs op op' -> forall fsqrt fexp : F -> F, sqrt_laws fsqrt -> exp_laws fexp ->
  forall (k_B T : F) fuel ks swm, (2 ^ n < fuel)%nat -> Z.of_nat (2 ^ n) <= ks -> (swm <= 0)%F -> (k_B * T)%F <> 0%F -> forall es psis psis', turned_levels n u es psis psis' ->
  forall ord ord' : nat -> nat -> nat -> set_order, (forall t i q l, Permutation (ord t i q l) l) -> (forall t i q l, Permutation (ord' t i q l) l) ->
  forall R R', (1 <= R)%nat -> (1 <= R')%nat -> forall w d tOps cols rest cols' rest', d <> 0%F -> Forall (wf_op n) tOps -> Forall (fun o => turns n u o o) tOps ->
  absorption fsqrt fexp k_B fuel (Z.of_nat n) op rs ks swm ord R psis es T w d tOps = Ok cols :: rest ->
  absorption fsqrt fexp k_B fuel (Z.of_nat n) op' rs ks swm ord' R' psis' es T w d tOps = Ok cols' :: rest' -> cols' = cols.
Proof. exact (@turned_absorption). Qed.
Theorem C91_emission : forall (F : ofield) n (u : nat -> nat -> cx F) op op' rs, turned_hamiltonians n u rs op op' -> forall fsqrt fexp : F -> F, sqrt_laws fsqrt -> exp_laws fexp ->
  forall (k_B T : F) fuel ks swm, (2 ^ n < fuel)%nat -> Z.of_nat (2 ^ n) <= ks -> (swm <= 0)%F -> (k_B * T)%F <> 0%F -> forall es psis psis', turned_levels n u es psis psis' ->
  forall ord ord' : nat -> nat -> nat -> set_order, (forall t i q l, Permutation (ord t i q l) l) -> (forall t i q l, Permutation (ord' t i q l) l) ->
  forall R R', (1 <= R)%nat -> (1 <= R')%nat -> forall w d tOps cols rest cols' rest', d <> 0%F -> Forall (wf_op n) tOps -> Forall (fun o => turns n u o o) tOps ->
  emission fsqrt fexp k_B fuel (Z.of_nat n) op rs ks swm ord R psis es T w d tOps = Ok cols :: rest ->
  emission fsqrt fexp k_B fuel (Z.of_nat n) op' rs ks swm ord' R' psis' es T w d tOps = Ok cols' :: rest' -> cols' = cols.
Proof. exact (@turned_emission). Qed.
Theorem C91_photoemission : forall (F : ofield) n (u : nat -> nat -> cx F) op op' rs, turned_hamiltonians n u rs op op' -> forall fsqrt fexp : F -> F, sqrt_laws fsqrt -> exp_laws fexp ->
  forall (k_B T : F) fuel ks swm, (2 ^ n < fuel)%nat -> Z.of_nat (2 ^ n) <= ks -> (swm <= 0)%F -> (k_B * T)%F <> 0%F -> forall es psis psis', turned_levels n u es psis psis' ->
  forall ord ord' : nat -> nat -> nat -> set_order, (forall t i q l, Permutation (ord t i q l) l) -> (forall t i q l, Permutation (ord' t i q l) l) ->
  forall R R', (1 <= R)%nat -> (1 <= R')%nat -> forall w d ps ips cols rest cols' rest', d <> 0%F -> Forall (wf_op n) ps -> Forall (wf_op n) ips ->
  Forall (fun o => turns n u o o) ps -> Forall (fun o => turns n u o o) ips ->
  photoemission fsqrt fexp k_B fuel (Z.of_nat n) op rs ks swm ord R psis es T w d ps ips = Ok cols :: rest ->
  photoemission fsqrt fexp k_B fuel (Z.of_nat n) op' rs ks swm ord' R' psis' es T w d ps ips = Ok cols' :: rest' -> cols' = cols.
Proof. exact (@turned_photoemission). Qed.
(* ... and RIXS.bin. *)
Theorem C91_RIXS : forall (F : ofield) n (u : nat -> nat -> cx F) op op' rs, turned_hamiltonians n u rs op op' -> forall fsqrt fexp : F -> F, sqrt_laws fsqrt -> exp_laws fexp ->
  forall (k_B T : F) fuel ks swm, (2 ^ n < fuel)%nat -> Z.of_nat (2 ^ n) <= ks -> (swm <= 0)%F -> (k_B * T)%F <> 0%F -> forall es psis psis', turned_levels n u es psis psis' ->
  forall ord ord' : nat -> nat -> nat -> set_order, (forall t i q l, Permutation (ord t i q l) l) -> (forall t i q l, Permutation (ord' t i q l) l) ->
  forall f32 bicgstab delta1 delta2 tOpsIn op0 ops (ms : @meshes F) hg hg' pm pm' r r' gs gs' outs outs' f f' data data',
  exact_solver bicgstab -> Forall (wf_op n) (op0 :: tOpsIn) -> Forall (fun o => turns n u o o) (op0 :: tOpsIn) -> delta1 <> 0%F -> delta2 <> 0%F ->
  Forall (hdict_exact n op rs) hg -> hg <> [] -> Forall (hdict_exact n op' rs) hg' -> hg' <> [] -> (pm = RwIn \/ pm = RHBuildwIn) -> (pm' = RwIn \/ pm' = RHBuildwIn) ->
  nth_error (getRIXSmap fsqrt bicgstab fuel (Z.of_nat n) op (m_wIn ms) (m_wLoss ms) delta1 delta2 rs ks swm tOpsIn (op0 :: ops) psis es ord hg pm) r = Some (Ok gs) ->
  nth_error (getRIXSmap fsqrt bicgstab fuel (Z.of_nat n) op' (m_wIn ms) (m_wLoss ms) delta1 delta2 rs ks swm tOpsIn (op0 :: ops) psis' es ord' hg' pm') r' = Some (Ok gs') ->
  report_RIXS fexp f32 k_B es T ms (length tOpsIn) (S (length ops)) gs = Ok outs -> report_RIXS fexp f32 k_B es T ms (length tOpsIn) (S (length ops)) gs' = Ok outs' ->
  In (Bin f data) outs -> In (Bin f' data') outs' -> f' = f /\ data' = data.
Proof. exact (@turned_RIXS). Qed.
Print Assumptions C91_inner. Print Assumptions C91_kept. Print Assumptions C91_hops. Print Assumptions C91_eigen. Print Assumptions C91_levels. Print Assumptions C91_h0. Print Assumptions C91_hamiltonian.
Print Assumptions C91_bath_basis. Print Assumptions C91_transitions. Print Assumptions C91_absorption. Print Assumptions C91_emission. Print Assumptions C91_photoemission. Print Assumptions C91_RIXS.

(* ---- examples ---- *)
Add Ring CringU : (@c_ring QcF).
(* an impurity orbital and two bath orbitals in a chain, and the same with turned bath orbitals *)
Definition tu (j i : nat) : cx QcF := nth i (nth j [[qr 1 1; qr 0 1; qr 0 1]; [qr 0 1; qr 3 5; qr (-4) 5]; [qr 0 1; qr 4 5; qr 3 5]] []) c0.
Definition th (i j : nat) : cx QcF := nth j (nth i [[qr 7 1; qr 5 1; qr 0 1]; [qr 5 1; qr 25 1; qr 25 1]; [qr 0 1; qr 25 1; qr 50 1]] []) c0.
Definition th_op : op_t QcF := hops 3 th.
Definition th_op' : op_t QcF := hops 3 (turned_hops 3 tu th).
Definition vac : psi_t QcF := [(key [false; false; false], qr 1 1)].
Definition bath_rs : option restrictions_t := Some [([1; 2], (0, 1))].
Lemma tu_unitary : unitary_orbitals 3 tu.
Proof. intros i j Hi Hj. destruct i as [|[|[|]]]; try lia; destruct j as [|[|[|]]]; try lia; split; apply ceqb_ok; vm_compute; reflexivity. Qed.
Example C91_hypotheses : turned_hamiltonians 3 tu bath_rs th_op th_op' /\ turned_levels 3 tu [q 0 1] [vac] [vac] /\ kept 3 tu 0 /\
  Forall (wf_op 3) [[([(0, C_)], qr 1 1)]] /\ Forall (fun o => turns 3 tu o o) [[([(0, C_)], qr 1 1)]] /\
  eigenvector 3 th_op (q 0 1) (amp vac) /\ existsb (fun kv => negb (ceqb (snd kv) (val th_op (fst kv)))) th_op' = true.
Proof.
  assert (K : kept 3 tu 0) by (intros j Hj; destruct j as [|[|[|]]]; try lia; apply ceqb_ok; vm_compute; reflexivity).
  assert (Wt : wf_op 3 [([(0, C_)], qr 1 1 : cx QcF)]) by wf_op_ex.
  assert (V : valid_psi 3 vac) by valid_ex.
  split; [|split; [|split; [exact K|split; [apply Forall_cons; [exact Wt|apply Forall_nil]|split; [|split]]]]].
  - split; [exact tu_unitary|]. split; [wf_op_ex|]. split; [wf_op_ex|]. split; [vm_compute; reflexivity|]. split; [vm_compute; reflexivity|]. split; [apply int_opb_ok; vm_compute; reflexivity|]. split; [apply int_opb_ok; vm_compute; reflexivity|].
    split; [apply C91_hops, tu_unitary|]. split.
    + apply Forall_cons; [apply nodupb_ok; reflexivity|apply Forall_nil].
    + apply Forall_cons; [|apply Forall_nil]. intros i j Hi Hj Hne. cbn [fst]. destruct i as [|[|[|]]]; try lia; destruct j as [|[|[|]]]; try lia; cbn; try tauto; elim Hne; apply ceqb_ok; vm_compute; reflexivity.
  - split; [apply Forall_cons; [exact V|apply Forall_nil]|]. split; [apply Forall_cons; [exact V|apply Forall_nil]|]. split; [reflexivity|]. exists [vac]. split; [apply Forall_cons; [exact V|apply Forall_nil]|]. split.
    + assert (O : orthonormal_states 3 [vac]) by (intros i j Hi Hj; cbn in Hi, Hj; assert (i = 0%nat) by lia; assert (j = 0%nat) by lia; subst; apply ceqb_ok; vm_compute; reflexivity).
      split; [reflexivity|]. split; [reflexivity|]. split; [exact O|]. split; [exact O|]. intros i Hi. assert (i = 0%nat) by (cbn in Hi; lia). subst i.
      assert (L : in_level 3 [q 0 1] [vac] (q 0 1) (amp vac)) by (exists (fun _ => c1); split; [intros i Hi' N; cbn in Hi'; assert (i = 0%nat) by lia; subst i; now elim N|intros t _; cbn [length seq csum nth]; ring]). split; exact L.
    + intros i t Hi Ht. assert (i = 0%nat) by (cbn in Hi; lia). subst i. cbn [nth].
      assert (C : forallb (fun t => ceqb (amp vac t) (turned 3 tu (amp vac) t)) (allcfg 3) = true) by (vm_compute; reflexivity). rewrite forallb_forall in C. apply ceqb_ok, C, allcfg_In, Ht.
  - apply Forall_cons; [|apply Forall_nil]. apply C91_kept; [exact tu_unitary|exact Wt|]. intros p l [<-|[]] [<-|[]]. exact K.
  - assert (C : forallb (fun t => ceqb (opv 3 th_op (amp vac) t) (creal (q 0 1 : QcF) * amp vac t)%C) (allcfg 3) = true) by (vm_compute; reflexivity). intros t Ht. rewrite forallb_forall in C. apply ceqb_ok, C, allcfg_In, Ht.
  - vm_compute. reflexivity.
Qed.
Example C91_run : let run op := absorption qsqrt one_exp (q 1 1) 9 3 op None 8 (q 0 1) (fun _ _ _ l => l) 2 [vac] [q 0 1] (q 1 1) [q 0 1; q 1 1] (q 1 1) [[([(0, C_)], qr 1 1)]] in
  match nth 0 (run th_op) (Err OutOfFuel), nth 0 (run th_op') (Err OutOfFuel) with Ok c, Ok c' => is_cols (Ok c') c && Nat.eqb (length c) 3 && negb (is_cols (Ok c) [[q 0 1; q 1 1]; [q 0 1; q 0 1]; [q 0 1; q 0 1]]) | _, _ => false end = true.
Proof. vm_compute. reflexivity. Qed.
(* the program without hybridisation and interaction, the bath levels are split by 2 *)
Example C91_bath_basis_ex : let d := [(1, 0); (2, 10)] in let nb := nbaths_of d in exists rs hOp hOp',
  sqrt_laws (F := RF) sqrt /\ wf_shells d /\ NoDup (angs nb) /\ In 1 (angs nb) /\ In 2 (angs nb) /\ dget d 2 = Some 10 /\
  shell_params [(1, 0); (2, 10)] [(1, 0); (2, 2)] [(1, 0); (2, 0)] [(1, 0); (2, 2)] [(1, 6); (2, 8)] 2 (mk_par 10 2 0 2 8) /\
  excited_restrictions d [(1, 0); (2, 10)] [(1, 0); (2, 2)] [(1, 0); (2, 0)] [(1, 0); (2, 2)] [(1, 6); (2, 8)] = Ok rs /\
  @get_hamiltonian_operator_using_CF RF sqrt PI gaunt_ex Int_part nb [(KInt 2, 10)] hp0 cf0 Cubic = Ok hOp /\ @get_hamiltonian_operator_using_CF RF sqrt PI gaunt_ex Int_part nb [(KInt 2, 10)] hp0 cf0 Spherical = Ok hOp' /\
  S_Dict.no_small (n_orb nb) hOp /\ S_Dict.no_small (n_orb nb) hOp'.
Proof.
  cbv zeta. change (nbaths_of [(1, 0); (2, 10)]) with (pd_baths 10).
  destruct (cf0_int (F := RF) sqrt sqrt_laws_R PI gaunt_ex Int_part Int_part_IZR gaunt_ex_swap gaunt_ex_neg Cubic ltac:(discriminate)) as (hOp & E & S).
  destruct (cf0_int (F := RF) sqrt sqrt_laws_R PI gaunt_ex Int_part Int_part_IZR gaunt_ex_swap gaunt_ex_neg Spherical ltac:(discriminate)) as (hOp' & E' & S').
  destruct (excited_restrictions [(1, 0); (2, 10)] [(1, 0); (2, 10)] [(1, 0); (2, 2)] [(1, 0); (2, 0)] [(1, 0); (2, 2)] [(1, 6); (2, 8)]) as [rs|e] eqn:ER; [|vm_compute in ER; discriminate ER].
  exists rs, hOp, hOp'. split; [exact sqrt_laws_R|]. split; [split; [apply nodupb_ok; reflexivity|repeat constructor; cbn; lia]|]. split; [apply nodupb_ok; reflexivity|]. split; [cbn; auto|]. split; [cbn; auto|].
  split; [reflexivity|]. split; [repeat split|]. split; [reflexivity|]. split; [exact E|]. split; [exact E'|]. split; [exact S|exact S'].
Qed.
