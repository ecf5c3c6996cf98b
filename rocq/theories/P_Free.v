(* Properties of electrons without interaction: C93. *)
From Coq Require Import QArith Qcanon Reals Permutation Lra.
From Verif Require Import M_Prelude M_Scalar M_PSR M_Ladder M_State M_Mpi M_Hamiltonian M_Basis M_Expect M_Operators M_Lanczos M_Average M_Main M_Spectra M_Simulate.
From Verif Require Import S_Fock S_Ops S_Ham S_Green S_Thermal S_Spectra S_Basis S_Expect S_Operators S_Symmetry S_TimeReversal S_RIXS S_Unitary S_Unitary2 S_Free.
From Verif Require Import L_Scalar L_Sum L_Fock L_State L_Ops L_Ham L_Shift4 L_Free L_Free2 L_Free3 L_Free4 X_Util X_Reals X_Ops X_Symmetry P_Fock P_Green P_Spectra P_Operators P_Shift P_Levels.
From Verif Require S_Dict.
Local Open Scope Z_scope.

(* ---- C93: without interaction PS.dat holds the one-particle spectral function ---- *)
(* When all Slater integrals vanish, the Hamiltonian of the program is sum_ij h_ij c_i^+ c_j with the matrix of its hoppings, which is Hermitian. *)
Theorem C93_hamiltonian : forall (F : ofield) (fint : F -> Z), (forall z, fint (fofZ z) = z) -> forall (fsqrt : F -> F) pi gaunt,
  (forall l1 l2 l3 m1 m2 m3, gaunt l1 l2 l3 m1 m2 m3 = gaunt l3 l2 l1 m3 m2 m1) -> (forall l1 l2 l3 m1 m2 m3, gaunt l1 l2 l3 (- m1) (- m2) (- m3) = gaunt l1 l2 l3 m1 m2 m3) ->
  forall nb, wf_nbaths nb -> In 1 (angs nb) -> In 2 (angs nb) -> forall (hp : @ham_params F) n3d, dget (hp_n0imps hp) 2 = Some n3d -> dget (hp_n0imps hp) 1 = Some 6 ->
  (5 <= length (hp_Fdd hp))%nat -> (1 <= length (hp_Fpd hp))%nat -> (4 <= length (hp_Gpd hp))%nat -> no_interaction hp ->
  forall h0 : sop_t F, NoDup (dkeys h0) -> assert_hermitian h0 = Ok tt -> op_in nb h0 -> only_hops h0 ->
  exists hOp, get_hamiltonian_operator fsqrt pi gaunt fint nb hp h0 = Ok hOp /\ wf_op (n_orb nb) hOp /\ assert_hermitian hOp = Ok tt /\ free_hamiltonian (n_orb nb) (hop_elements hOp) hOp.
Proof. exact (@free_total). Qed.
Theorem C93_matrix : forall (F : ofield) n (op : op_t F), wf_op n op -> assert_hermitian op = Ok tt -> forall i j, hop_elements op i j = cconj (hop_elements op j i).
Proof. exact (@hop_hermitian). Qed.
(* The one-particle Green's function exists for every Hermitian matrix away from the real axis. *)
Theorem C93_green_exists : forall (F : ofield) n (h : nat -> nat -> cx F), (forall i j, (i < n)%nat -> (j < n)%nat -> h i j = cconj (h j i)) -> forall z, im z <> 0%F -> exists G, one_particle_green n h z G.
Proof. exact (@green_exists). Qed.
(* For every eigenstate the inverse photoemission and the photoemission of an orbital together are its diagonal element; psi has the norm <psi|psi>. *)
Theorem C93_greens_functions : forall (F : ofield) n (h : nat -> nat -> cx F) (op : op_t F) rs, free_hamiltonian n h op -> wf_op n op -> assert_hermitian op = Ok tt -> S_Dict.no_small n op ->
  forall e (psi : psi_t F), eigenvector n op e (amp psi) -> room_for_one n rs (amp psi) -> forall z G, one_particle_green n h z G ->
  forall i p p' g g' hm, (i < n)%nat -> restricted_op n op rs hm -> op_image n (orbital_op lab_c i) rs psi p -> op_image n (orbital_op lab_a i) rs psi p' ->
  fock_green n (z + creal e)%C hm p g -> fock_green n (- z + creal e)%C hm p' g' -> (g - g' = G i i * vdot n (amp psi) (amp psi))%C.
Proof. exact (@free_pair). Qed.
(* PS.dat, for a Hamiltonian without interaction ... *)
Theorem C93_photoemission : forall (F : ofield) (fsqrt fexp : F -> F), sqrt_laws fsqrt -> exp_laws fexp -> forall k_B T n fuel (op : op_t F) rs ks swm h,
  free_hamiltonian n h op -> wf_op n op -> assert_hermitian op = Ok tt -> S_Dict.no_small n op -> wf_restr rs -> (2 ^ n < fuel)%nat -> Z.of_nat (2 ^ n) <= ks -> (swm <= 0)%F -> (k_B * T)%F <> 0%F ->
  forall es psis, es <> [] -> eigenstates n op es psis -> (forall i, (i < length es)%nat -> room_for_one n rs (amp (nth i psis []))) ->
  forall ord, (forall t i q l, Permutation (ord t i q l) l) -> forall R, (1 <= R)%nat -> forall wl d G orbs, d <> 0%F ->
  (forall k, (k < length wl)%nat -> one_particle_green n h (mkC (nth k wl 0%F) d) (G k)) -> Forall (fun i => (i < n)%nat) orbs -> forall cols rest,
  photoemission fsqrt fexp k_B fuel (Z.of_nat n) op rs ks swm ord R psis es T wl d (map (orbital_op lab_a) orbs) (map (orbital_op lab_c) orbs) = Ok cols :: rest -> free_file wl orbs G cols.
Proof. exact (@photoemission_free). Qed.
(* ... whence it does not depend on the states, the number of electrons in them, the temperature, the restrictions, the number of ranks, ... *)
Theorem C93_independent : forall (F : ofield) (fsqrt fexp : F -> F), sqrt_laws fsqrt -> exp_laws fexp -> forall n fuel fuel' (op : op_t F) ks ks' swm swm' h, free_hamiltonian n h op -> hermitian n h -> wf_op n op ->
  assert_hermitian op = Ok tt -> S_Dict.no_small n op -> (2 ^ n < fuel)%nat -> (2 ^ n < fuel')%nat -> Z.of_nat (2 ^ n) <= ks -> Z.of_nat (2 ^ n) <= ks' -> (swm <= 0)%F -> (swm' <= 0)%F ->
  forall rs rs' es es' psis psis' k_B k_B' T T' ord ord' R R', wf_restr rs -> wf_restr rs' -> (k_B * T)%F <> 0%F -> (k_B' * T')%F <> 0%F -> es <> [] -> es' <> [] ->
  eigenstates n op es psis -> eigenstates n op es' psis' -> (forall i, (i < length es)%nat -> room_for_one n rs (amp (nth i psis []))) -> (forall i, (i < length es')%nat -> room_for_one n rs' (amp (nth i psis' []))) ->
  (forall t i q l, Permutation (ord t i q l) l) -> (forall t i q l, Permutation (ord' t i q l) l) -> (1 <= R)%nat -> (1 <= R')%nat ->
  forall wl d orbs cols rest cols' rest', d <> 0%F -> Forall (fun i => (i < n)%nat) orbs ->
  photoemission fsqrt fexp k_B fuel (Z.of_nat n) op rs ks swm ord R psis es T wl d (map (orbital_op lab_a) orbs) (map (orbital_op lab_c) orbs) = Ok cols :: rest ->
  photoemission fsqrt fexp k_B' fuel' (Z.of_nat n) op rs' ks' swm' ord' R' psis' es' T' wl d (map (orbital_op lab_a) orbs) (map (orbital_op lab_c) orbs) = Ok cols' :: rest' -> cols' = cols.
Proof. exact (@photoemission_any). Qed.
(* ... and for the Hamiltonian and the operators of the program. *)
Theorem C93_program : forall (F : ofield) (fint : F -> Z) (fsqrt fexp : F -> F) pi gaunt, sqrt_laws fsqrt -> exp_laws fexp -> (forall z, fint (fofZ z) = z) ->
  (forall l1 l2 l3 m1 m2 m3, gaunt l1 l2 l3 m1 m2 m3 = gaunt l3 l2 l1 m3 m2 m1) -> (forall l1 l2 l3 m1 m2 m3, gaunt l1 l2 l3 (- m1) (- m2) (- m3) = gaunt l1 l2 l3 m1 m2 m3) ->
  forall nb hp n3d (h0 : sop_t F) hOp, wf_nbaths nb -> In 1 (angs nb) -> In 2 (angs nb) -> dget (hp_n0imps hp) 2 = Some n3d -> dget (hp_n0imps hp) 1 = Some 6 ->
  (5 <= length (hp_Fdd hp))%nat -> (1 <= length (hp_Fpd hp))%nat -> (4 <= length (hp_Gpd hp))%nat -> no_interaction hp ->
  NoDup (dkeys h0) -> assert_hermitian h0 = Ok tt -> op_in nb h0 -> only_hops h0 -> get_hamiltonian_operator fsqrt pi gaunt fint nb hp h0 = Ok hOp -> S_Dict.no_small (n_orb nb) hOp ->
  forall fuel rs ks swm es psis k_B T ord R, wf_restr rs -> (2 ^ n_orb nb < fuel)%nat -> Z.of_nat (2 ^ n_orb nb) <= ks -> (swm <= 0)%F -> (k_B * T)%F <> 0%F -> es <> [] ->
  eigenstates (n_orb nb) hOp es psis -> (forall i, (i < length es)%nat -> room_for_one (n_orb nb) rs (amp (nth i psis []))) -> (forall t i q l, Permutation (ord t i q l) l) -> (1 <= R)%nat ->
  forall wl d ps ips cols rest G, d <> 0%F -> getPhotoEmissionOperators nb 2 = Ok ps -> getInversePhotoEmissionOperators nb 2 = Ok ips ->
  (forall k, (k < length wl)%nat -> one_particle_green (n_orb nb) (hop_elements hOp) (mkC (nth k wl 0%F) d) (G k)) ->
  photoemission fsqrt fexp k_B fuel (Z.of_nat (n_orb nb)) hOp rs ks swm ord R psis es T wl d ps ips = Ok cols :: rest ->
  free_file wl (map (fun x => Z.to_nat (coord_index nb x)) (S_Operators.shell_list 2)) G cols.
Proof. exact (@program_free). Qed.
(* XPS.dat, when the orbitals are occupied in all states: no inverse photoemission, so the photoemission is the one-particle spectral function. *)
Theorem C93_core_level : forall (F : ofield) (fsqrt fexp : F -> F), sqrt_laws fsqrt -> exp_laws fexp -> forall k_B T n fuel (op : op_t F) rs ks swm h,
  free_hamiltonian n h op -> wf_op n op -> assert_hermitian op = Ok tt -> S_Dict.no_small n op -> wf_restr rs -> (2 ^ n < fuel)%nat -> Z.of_nat (2 ^ n) <= ks -> (swm <= 0)%F -> (k_B * T)%F <> 0%F ->
  forall es psis, es <> [] -> eigenstates n op es psis -> (forall i, (i < length es)%nat -> room_for_one n rs (amp (nth i psis []))) ->
  forall ord, (forall t i q l, Permutation (ord t i q l) l) -> forall R, (1 <= R)%nat -> forall wl d G orbs, d <> 0%F ->
  (forall k, (k < length wl)%nat -> one_particle_green n h (mkC (nth k wl 0%F) d) (G k)) -> Forall (fun i => (i < n)%nat) orbs -> (forall i, (i < length es)%nat -> occupied n orbs (amp (nth i psis []))) -> forall cols rest,
  emission fsqrt fexp k_B fuel (Z.of_nat n) op rs ks swm ord R psis es T wl d (map (orbital_op lab_a) orbs) = Ok cols :: rest -> free_file wl orbs G cols.
Proof. exact (@emission_free). Qed.
Theorem C93_core_program : forall (F : ofield) (fint : F -> Z) (fsqrt fexp : F -> F) pi gaunt, sqrt_laws fsqrt -> exp_laws fexp -> (forall z, fint (fofZ z) = z) ->
  (forall l1 l2 l3 m1 m2 m3, gaunt l1 l2 l3 m1 m2 m3 = gaunt l3 l2 l1 m3 m2 m1) -> (forall l1 l2 l3 m1 m2 m3, gaunt l1 l2 l3 (- m1) (- m2) (- m3) = gaunt l1 l2 l3 m1 m2 m3)%Z ->
  forall nb hp n3d (h0 : sop_t F) hOp, wf_nbaths nb -> In 1%Z (angs nb) -> In 2%Z (angs nb) -> dget (hp_n0imps hp) 2%Z = Some n3d -> dget (hp_n0imps hp) 1%Z = Some 6%Z ->
  (5 <= length (hp_Fdd hp))%nat -> (1 <= length (hp_Fpd hp))%nat -> (4 <= length (hp_Gpd hp))%nat -> no_interaction hp ->
  NoDup (dkeys h0) -> assert_hermitian h0 = Ok tt -> op_in nb h0 -> only_hops h0 -> get_hamiltonian_operator fsqrt pi gaunt fint nb hp h0 = Ok hOp -> S_Dict.no_small (n_orb nb) hOp ->
  forall fuel rs ks swm es psis k_B T ord R, wf_restr rs -> (2 ^ n_orb nb < fuel)%nat -> (Z.of_nat (2 ^ n_orb nb) <= ks)%Z -> (swm <= 0)%F -> (k_B * T)%F <> 0%F -> es <> [] ->
  eigenstates (n_orb nb) hOp es psis -> (forall i, (i < length es)%nat -> room_for_one (n_orb nb) rs (amp (nth i psis []))) ->
  (forall i, (i < length es)%nat -> occupied (n_orb nb) (map (fun x => Z.to_nat (coord_index nb x)) (S_Operators.shell_list 1)) (amp (nth i psis []))) -> (forall t i q l, Permutation (ord t i q l) l) -> (1 <= R)%nat ->
  forall wl d ops cols rest G, d <> 0%F -> getPhotoEmissionOperators nb 1 = Ok ops ->
  (forall k, (k < length wl)%nat -> one_particle_green (n_orb nb) (hop_elements hOp) (mkC (nth k wl 0%F) d) (G k)) ->
  emission fsqrt fexp k_B fuel (Z.of_nat (n_orb nb)) hOp rs ks swm ord R psis es T wl d ops = Ok cols :: rest ->
  free_file wl (map (fun x => Z.to_nat (coord_index nb x)) (S_Operators.shell_list 1)) G cols.
Proof. exact (@core_program). Qed.
(* The Hamiltonian of the crystal-field variant has such hoppings. *)
Theorem C93_crystal_field : forall (F : ofield) (fint : F -> Z) (fsqrt : F -> F) pi gaunt nb (hp : @ham_params F), sqrt_laws fsqrt -> wf_nbaths nb -> forall nv params b nB, b <> OtherBasis -> dget nb (KInt 2) = Some nB -> dget nv (KInt 2) = Some 10%Z -> nB = 10%Z \/ nB = 20%Z ->
  exists h0, get_CF_hamiltonian fsqrt nb nv (read_h0_CF_file params) b = Ok h0 /\ NoDup (dkeys h0) /\ assert_hermitian h0 = Ok tt /\ op_in nb h0 /\ only_hops h0 /\
    get_hamiltonian_operator_using_CF fsqrt pi gaunt fint nb nv hp params b = get_hamiltonian_operator fsqrt pi gaunt fint nb hp h0.
Proof. exact (@free_CF). Qed.
Print Assumptions C93_hamiltonian.
Print Assumptions C93_matrix.
Print Assumptions C93_green_exists.
Print Assumptions C93_greens_functions.
Print Assumptions C93_photoemission.
Print Assumptions C93_independent.
Print Assumptions C93_program.
Print Assumptions C93_core_level.
Print Assumptions C93_core_program.
Print Assumptions C93_crystal_field.

(* ---- examples ---- *)
(* Two orbitals with the hopping 1 between them at w = 0 and delta = 1: G = 1/(i - h) has the diagonal elements -i/2, and 1/2 is what PS.dat holds, for the vacuum, for the full shell, and for a mixture of both. *)
Definition fr_vac {F : ofield} : psi_t F := [(key [false; false], c1)].
Definition fr_full {F : ofield} : psi_t F := [(key [true; true], c1)].
Definition fr_run (es : list QcF) (psis : list (psi_t QcF)) := photoemission qsqrt one_exp (q 1 1) 5 2 hop_op None 4 (q 0 1) (fun _ _ _ l => l) 2 psis es (q 1 1) [q 0 1] (q 1 1) (map (orbital_op lab_a) [0; 1]%nat) (map (orbital_op lab_c) [0; 1]%nat).
Example C93_run : forallb (fun r => is_cols (nth 0 r (Err OutOfFuel)) [[q 0 1]; [q 1 1]; [q 1 2]; [q 1 2]]) [fr_run [q 0 1] [fr_vac]; fr_run [q 0 1] [fr_full]; fr_run [q 0 1; q 0 1] [fr_vac; fr_full]] = true.
Proof. vm_compute. reflexivity. Qed.
Lemma all_pairs (P : config -> config -> bool) : forallb (fun ts => P (fst ts) (snd ts)) (list_prod (allcfg 2) (allcfg 2)) = true -> forall t s, length t = 2%nat -> length s = 2%nat -> P t s = true.
Proof. intros H t s Ht Hs. rewrite forallb_forall in H. apply (H (t, s)). apply in_prod; apply allcfg_In; auto. Qed.
Example C93_hypotheses : let op : op_t QcF := hop_op in free_hamiltonian 2 (hop_elements op) op /\ hermitian 2 (hop_elements op) /\ wf_op 2 op /\ assert_hermitian op = Ok tt /\ S_Dict.no_small 2 op /\
  eigenstates 2 op [q 0 1; q 0 1] [fr_vac; fr_full] /\ (forall v : config -> cx QcF, room_for_one 2 None v) /\ room_for_one 2 (Some [([0; 1], (1, 1))]) (amp (@fr_vac QcF)) /\
  exists G, one_particle_green 2 (hop_elements op) (mkC (q 0 1 : QcF) (q 1 1 : QcF)) G.
Proof.
  cbv zeta. assert (W : wf_op 2 (@hop_op QcF)) by wf_op_ex. assert (HH : assert_hermitian (@hop_op QcF) = Ok tt) by (vm_compute; reflexivity).
  assert (HE : hermitian 2 (hop_elements (@hop_op QcF))) by (intros i j _ _; apply (C93_matrix QcF 2); auto).
  split; [intros t s Ht Hs; apply ceqb_ok; apply (all_pairs (fun t s => ceqb (opelem (@hop_op QcF) t s) (opelem (hops 2 (hop_elements (@hop_op QcF))) t s))); auto; vm_compute; reflexivity|].
  split; [exact HE|]. split; [exact W|]. split; [exact HH|]. split; [apply int_opb_ok; vm_compute; reflexivity|]. split; [|split; [|split]].
  - split; [reflexivity|]. intros i Hi. cbn [length] in Hi. assert (X : forall psi : psi_t QcF, forallb (fun ts => ceqb (opv 2 hop_op (amp psi) (fst ts)) (creal (q 0 1) * amp psi (fst ts))%C) (list_prod (allcfg 2) (allcfg 2)) = true -> eigenvector 2 hop_op (q 0 1) (amp psi)).
    { intros psi H t Ht. apply ceqb_ok. apply (all_pairs (fun t s => ceqb (opv 2 hop_op (amp psi) t) (creal (q 0 1) * amp psi t)%C) H t t Ht Ht). }
    destruct i as [|[|i]]; [| |lia]; cbn [nth]; (split; [valid_ex|split; [apply ceqb_ok; vm_compute; reflexivity|apply X; vm_compute; reflexivity]]).
  - intros v label i s t _ _ _ _ _ _. exact I.
  - intros label i s t Hl Hi Hs Ht Hv Ho. destruct (list_eq_dec Bool.bool_dec t [true; false]) as [->|N1]; [constructor; [split; vm_compute; discriminate|constructor]|]. destruct (list_eq_dec Bool.bool_dec t [false; true]) as [->|N2]; [constructor; [split; vm_compute; discriminate|constructor]|].
    exfalso. destruct Hl as [-> | ->]; destruct i as [|[|i]]; try lia; destruct s as [|[] [|[] [|]]]; try discriminate; destruct t as [|[] [|[] [|]]]; try discriminate; try contradiction;
      first [apply Ho; apply ceqb_ok; vm_compute; reflexivity|apply Hv; apply ceqb_ok; vm_compute; reflexivity].
  - apply C93_green_exists; [exact HE|cbn [im]; discriminate].
Qed.
(* the program without interaction, a field along z and a hopping between two 3d orbitals *)
Example C93_program_ex : no_interaction sh_hp /\ NoDup (dkeys sh_h0) /\ assert_hermitian sh_h0 = Ok tt /\ op_in (pd_baths 0) sh_h0 /\ only_hops sh_h0 /\ wf_nbaths (pd_baths 0) /\
  match get_hamiltonian_operator qsqrt (q 22 7) toy_gaunt qint (pd_baths 0) sh_hp sh_h0 with Ok op => length op = 18%nat | Err _ => False end.
Proof.
  split; [intros x Hx; cbn in Hx; repeat (destruct Hx as [<-|Hx]; [reflexivity|]); destruct Hx|]. split; [apply nodupb_ok; reflexivity|]. split; [vm_compute; reflexivity|].
  split; [|split; [|split; [apply pd_wf; lia|vm_compute; reflexivity]]].
  - unfold op_in, sh_h0. repeat (apply Forall_cons || apply Forall_nil); cbn; tauto || lia.
  - intros p [<-|[<-|[]]]; eexists; eexists; reflexivity.
Qed.
(* the same two orbitals when both are occupied: the photoemission alone *)
Example C93_core_ex : is_cols (nth 0 (emission qsqrt one_exp (q 1 1) 5 2 hop_op None 4 (q 0 1) (fun _ _ _ l => l) 2 [fr_full] [q 0 1] (q 1 1) [q 0 1] (q 1 1) (map (orbital_op lab_a) [0; 1]%nat)) (Err OutOfFuel)) [[q 0 1]; [q 1 1]; [q 1 2]; [q 1 2]] = true /\
  occupied 2 [0; 1]%nat (amp (@fr_full QcF)) /\ ~ occupied 2 [0; 1]%nat (amp (@fr_vac QcF)).
Proof.
  split; [vm_compute; reflexivity|]. split.
  - intros i s Hi Hs Hv. destruct Hi as [<-|[<-|[]]]; destruct s as [|[] [|[] [|]]]; try discriminate; try reflexivity; exfalso; apply Hv; apply ceqb_ok; vm_compute; reflexivity.
  - intros H. specialize (H 0%nat [false; false] (or_introl eq_refl) eq_refl). cbn [nth] in H. discriminate H. intros E. apply (f_equal (fun c => ceqb c c0)) in E. vm_compute in E. discriminate E.
Qed.
Example C93_crystal_field_ex : let h0 := get_CF_hamiltonian qsqrt (pd_baths 20) [(KInt 2, 10)] (read_h0_CF_file []) Cubic in match h0 with Ok h => length h = 106%nat | Err _ => False end.
Proof. vm_compute. reflexivity. Qed.
