(* Properties of the core-level photoemission: C95. *)
From Coq Require Import QArith Qcanon Reals Permutation Lra.
From Verif Require Import M_Prelude M_Scalar M_PSR M_Ladder M_State M_Mpi M_Hamiltonian M_Basis M_Expect M_Operators M_Lanczos M_Average M_Main M_Spectra M_Simulate.
From Verif Require Import S_Fock S_Ops S_Ham S_Green S_Thermal S_Spectra S_Basis S_Expect S_Operators S_Symmetry S_TimeReversal S_RIXS S_Unitary S_Unitary2 S_Free S_Lines.
From Verif Require Import L_Scalar L_Sum L_Dict L_Fock L_State L_Ops L_Ham L_Free3 L_Free4 L_Lines L_Lines2 L_Lines3 L_Lines4 X_Util X_Reals X_Ops X_Symmetry P_Fock P_Green P_Spectra P_Operators P_Shift P_Levels.
From Verif Require S_Dict.
Local Open Scope Z_scope.

(* ---- C95: without interaction XPS.dat has the two lines 2p3/2 and 2p1/2 ---- *)
(* The six columns of XPS.dat and their sum: Lorentzians at e + xi_2p/2 and e - xi_2p, where e is the energy of the 2p orbitals in h0 raised by the charge-transfer correction; the sum has the weights 4 and 2. *)
Theorem C95_program : forall (F : ofield) (fint : F -> Z) (fsqrt fexp : F -> F) pi gaunt, sqrt_laws fsqrt -> exp_laws fexp -> (forall z, fint (fofZ z) = z) ->
  (forall l1 l2 l3 m1 m2 m3, gaunt l1 l2 l3 m1 m2 m3 = gaunt l3 l2 l1 m3 m2 m1) -> (forall l1 l2 l3 m1 m2 m3, gaunt l1 l2 l3 (- m1) (- m2) (- m3) = gaunt l1 l2 l3 m1 m2 m3) ->
  forall nb hp n3d (h0 : sop_t F) e hOp, wf_nbaths nb -> NoDup (angs nb) -> In 1 (angs nb) -> In 2 (angs nb) -> dget (hp_n0imps hp) 2 = Some n3d -> dget (hp_n0imps hp) 1 = Some 6 ->
  (5 <= length (hp_Fdd hp))%nat -> (1 <= length (hp_Fpd hp))%nat -> (4 <= length (hp_Gpd hp))%nat -> no_interaction hp ->
  NoDup (dkeys h0) -> assert_hermitian h0 = Ok tt -> op_in nb h0 -> only_hops h0 -> core_level h0 e -> get_hamiltonian_operator fsqrt pi gaunt fint nb hp h0 = Ok hOp -> S_Dict.no_small (n_orb nb) hOp ->
  forall fuel rs ks swm es psis k_B T ord R, wf_restr rs -> (2 ^ n_orb nb < fuel)%nat -> Z.of_nat (2 ^ n_orb nb) <= ks -> (swm <= 0)%F -> (k_B * T)%F <> 0%F -> es <> [] ->
  eigenstates (n_orb nb) hOp es psis -> (forall i, (i < length es)%nat -> room_for_one (n_orb nb) rs (amp (nth i psis []))) ->
  (forall i, (i < length es)%nat -> occupied (n_orb nb) (map (fun x => Z.to_nat (coord_index nb x)) (S_Operators.shell_list 1)) (amp (nth i psis []))) -> (forall t i q l, Permutation (ord t i q l) l) -> (1 <= R)%nat ->
  forall wl d ops cols rest, d <> 0%F -> getPhotoEmissionOperators nb 1 = Ok ops ->
  emission fsqrt fexp k_B fuel (Z.of_nat (n_orb nb)) hOp rs ks swm ord R psis es T wl d ops = Ok cols :: rest -> two_lines wl d (e + hp_ctc hp)%F (hp_xi_2p hp) cols.
Proof. exact (@lines_program). Qed.
(* The spin-orbit coupling by itself: the resolvent of e + xi l.s on the six 2p orbitals has these two poles, whatever the 3d shell and the bath are. *)
Theorem C95_green : forall (F : ofield) (fint : F -> Z), (forall z, fint (fofZ z) = z) -> forall fsqrt : F -> F, sqrt_laws fsqrt -> forall pi gaunt,
  (forall l1 l2 l3 m1 m2 m3, gaunt l1 l2 l3 m1 m2 m3 = gaunt l3 l2 l1 m3 m2 m1) -> (forall l1 l2 l3 m1 m2 m3, gaunt l1 l2 l3 (- m1) (- m2) (- m3) = gaunt l1 l2 l3 m1 m2 m3) ->
  forall nb, wf_nbaths nb -> NoDup (angs nb) -> In 1 (angs nb) -> In 2 (angs nb) -> forall (hp : @ham_params F) n3d, dget (hp_n0imps hp) 2 = Some n3d -> dget (hp_n0imps hp) 1 = Some 6 ->
  (5 <= length (hp_Fdd hp))%nat -> (1 <= length (hp_Fpd hp))%nat -> (4 <= length (hp_Gpd hp))%nat -> no_interaction hp ->
  forall (h0 : sop_t F) e, NoDup (dkeys h0) -> assert_hermitian h0 = Ok tt -> op_in nb h0 -> core_level h0 e -> forall hOp, get_hamiltonian_operator fsqrt pi gaunt fint nb hp h0 = Ok hOp ->
  forall u d G x, d <> 0%F -> one_particle_green (n_orb nb) (hop_elements hOp) (mkC u d) G -> in_shell 1 x -> let i := Z.to_nat (coord_index nb x) in
  (- im (G i i) = weight32 x * lorentzian d (u - (e + hp_ctc hp + hp_xi_2p hp / fofZ 2)) + weight12 x * lorentzian d (u - (e + hp_ctc hp - hp_xi_2p hp)))%F.
Proof. exact (@core_lines). Qed.
(* The h0 of the crystal-field variant leaves the 2p orbitals at zero. *)
Theorem C95_crystal_field : forall (F : ofield) (fsqrt : F -> F) nb, sqrt_laws fsqrt -> forall nv params b nB, b <> OtherBasis -> dget nb (KInt 2) = Some nB -> dget nv (KInt 2) = Some 10 ->
  forall h0, get_CF_hamiltonian fsqrt nb nv (read_h0_CF_file params) b = Ok h0 -> core_level h0 0%F.
Proof. exact (@core_CF). Qed.
(* Two files that satisfy the description have the same numbers. *)
Theorem C95_determined : forall (F : ofield) mesh (d e xi : F) cols cols', two_lines mesh d e xi cols -> two_lines mesh d e xi cols' -> cols' = cols.
Proof. exact (@lines_same). Qed.
Print Assumptions C95_program.
Print Assumptions C95_green.
Print Assumptions C95_crystal_field.
Print Assumptions C95_determined.

(* ---- examples ---- *)
(* the shares of the six orbitals in the two levels *)
Example C95_weights : map (fun x => (weight32 x, weight12 x)) (S_Operators.shell_list 1) = [(q 1 1, q 0 1); (q 2 3, q 1 3); (q 1 3, q 2 3); (q 1 3, q 2 3); (q 2 3, q 1 3); (q 1 1, q 0 1)] :> list (QcF * QcF).
Proof. change (S_Operators.shell_list 1) with [SImp 1 0 (-1); SImp 1 0 0; SImp 1 0 1; SImp 1 1 (-1); SImp 1 1 0; SImp 1 1 1]. cbn [map]. repeat (apply f_equal2; [apply f_equal2; apply Qc_is_canon; vm_compute; reflexivity|]). reflexivity. Qed.
(* a 2p shell with the coupling 2, at the energy 3 *)
Definition ln_hp : @ham_params QcF := mkHP [q 0 1; q 0 1; q 0 1; q 0 1; q 0 1] [q 0 1; q 0 1; q 0 1] [q 0 1; q 0 1; q 0 1] [q 0 1; q 0 1; q 0 1; q 0 1] (q 2 1) (q 0 1) [(1, 6); (2, 8)] (q 1 1) (q 0 1) (q 0 1) (q 2 1).
Definition ln_h0 : sop_t QcF := sh_h0 ++ map (fun x => (hop2 x x, qr 3 1)) (S_Operators.shell_list 1).
Example C95_ex : no_interaction ln_hp /\ NoDup (dkeys ln_h0) /\ assert_hermitian ln_h0 = Ok tt /\ op_in (pd_baths 0) ln_h0 /\ only_hops ln_h0 /\ wf_nbaths (pd_baths 0) /\ NoDup (angs (pd_baths 0)) /\ core_level ln_h0 (q 3 1) /\ core_level sh_h0 0%F /\
  match get_hamiltonian_operator qsqrt (q 22 7) toy_gaunt qint (pd_baths 0) ln_hp ln_h0 with Ok op => length op = 22%nat | Err _ => False end.
Proof.
  split; [intros x Hx; cbn in Hx; repeat (destruct Hx as [<-|Hx]; [reflexivity|]); destruct Hx|]. split; [apply nodupb_ok; vm_compute; reflexivity|]. split; [vm_compute; reflexivity|].
  split; [|split; [|split; [apply pd_wf; lia|split; [apply nodupb_ok; reflexivity|split; [|split; [|vm_compute; reflexivity]]]]]].
  - unfold op_in, ln_h0, sh_h0. cbn [app map S_Operators.shell_list flat_map mrange]. repeat (apply Forall_cons || apply Forall_nil); cbn; tauto || lia.
  - intros p Hp. cbn in Hp. repeat (destruct Hp as [<-|Hp]; [eexists; eexists; reflexivity|]). destruct Hp.
  - intros x y Hxy. destruct (dget ln_h0 (hop2 x y)) as [v|] eqn:E.
    + assert (K : In (hop2 x y) (dkeys ln_h0)) by (apply dget_Some_key; eauto). clear E. cbn in K.
      repeat (destruct K as [K|K]; [injection K as <- <-; first [exfalso; destruct Hxy as [(s & m & Z & _)|(s & m & Z & _)]; discriminate Z|apply ceqb_ok; vm_compute; reflexivity]|]). destruct K.
    + destruct (M_Prelude.eqb_spec x y) as [<-|_]; [|unfold val; rewrite E; reflexivity]. exfalso. assert (Hx : in_shell 1 x) by tauto. apply shell_po in Hx as (a & Ha & ->). apply (f_equal (fun o => match o with None => true | _ => false end)) in E. cbn in Ha.
      repeat (destruct Ha as [<-|Ha]; [vm_compute in E; discriminate E|]). destruct Ha.
  - apply core_zero. intros p [<-|[<-|[]]] x Hx (s & m & -> & _); cbn in Hx; intuition discriminate.
Qed.
