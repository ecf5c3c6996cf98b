(* Properties of shifted levels: C90. *)
From Coq Require Import QArith Qcanon Reals Permutation Lra.
From Verif Require Import M_Prelude M_Scalar M_PSR M_Ladder M_State M_Mpi M_Hamiltonian M_Basis M_Expect M_Operators M_Lanczos M_Average M_Spectra M_Simulate M_RIXS M_Program.
From Verif Require Import S_Fock S_Ops S_Ham S_Green S_Thermal S_Spectra S_Basis S_Expect S_Operators S_Symmetry S_TimeReversal S_Sector S_RIXS S_Shift.
From Verif Require Import L_Scalar L_Sum L_Fock L_State L_Ops L_Ham L_Shift L_Shift2 L_Shift3 L_Shift4 X_Util X_Reals X_Ops X_Symmetry P_Fock P_Green P_Spectra P_Operators.
From Verif Require S_Dict.
Local Open Scope Z_scope.

(* ---- C90: levels that are shifted together shift the spectra rigidly ---- *)
(* The sum of number operators adds c for every unit of charge, ... *)
Theorem C90_levels : forall (F : ofield) n w (c : F) (op : op_t F), levels_added n w c op (addOps [op; levels n w c]).
Proof. exact (@levels_addOps). Qed.
(* ... also if it is part of the h0 from which the program builds its Hamiltonian. *)
Theorem C90_hamiltonian : forall (F : ofield) nb, wf_nbaths nb -> NoDup (angs nb) -> forall (fsqrt : F -> F) pi gaunt fint hp n3d (h0 : sop_t F) w c,
  (forall l1 l2 l3 m1 m2 m3, gaunt l1 l2 l3 m1 m2 m3 = gaunt l3 l2 l1 m3 m2 m1) ->
  (forall l1 l2 l3 m1 m2 m3, gaunt l1 l2 l3 (- m1) (- m2) (- m3) = gaunt l1 l2 l3 m1 m2 m3) ->
  (forall z, fint (fofZ z) = z) -> dget (hp_n0imps hp) 2 = Some n3d -> dget (hp_n0imps hp) 1 = Some 6 ->
  (5 <= length (hp_Fdd hp))%nat -> (1 <= length (hp_Fpd hp))%nat -> (4 <= length (hp_Gpd hp))%nat -> In 1 (angs nb) -> In 2 (angs nb) ->
  NoDup (dkeys h0) -> assert_hermitian h0 = Ok tt -> op_in nb h0 ->
  exists hOp hOp', get_hamiltonian_operator fsqrt pi gaunt fint nb hp h0 = Ok hOp /\
    get_hamiltonian_operator fsqrt pi gaunt fint nb hp (addOps [h0; site_levels nb w c]) = Ok hOp' /\ levels_added (n_orb nb) (at_index nb w) c hOp hOp'.
Proof. exact (@ham_levels). Qed.
(* A state with charge q keeps its wave function; its energy is shifted by q c. *)
Theorem C90_eigen : forall (F : ofield) n w c (op op' : op_t F) e v q, levels_added n w c op op' -> in_sector n w q v -> eigenvector n op e v -> eigenvector n op' (e + c * fofZ q)%F v.
Proof. exact (@eig_shift). Qed.
(* Everything that getSpectra returns is the same at the shifted energies: a transition that changes the charge by dq is shifted by dq c. *)
Theorem C90_spectra : forall (F : ofield) (fsqrt : F -> F), sqrt_laws fsqrt -> forall n w c (op op' : op_t F) rs fuel ks swm a es es' psis ord ord' R R' d dq tOps wl g rest g' rest',
  shifted_hamiltonians n w c op op' -> wf_restr rs -> (2 ^ n < fuel)%nat -> Z.of_nat (2 ^ n) <= ks -> (swm <= 0)%F -> shifted_states n w c a es es' psis ->
  (forall t i q l, Permutation (ord t i q l) l) -> (forall t i q l, Permutation (ord' t i q l) l) -> (1 <= R)%nat -> (1 <= R')%nat ->
  d <> 0%F -> Forall (wf_op n) tOps -> Forall (shifts w dq) tOps ->
  getSpectra fsqrt fuel (Z.of_nat n) op wl d rs ks swm ord R tOps psis es SHBuild = Ok g :: rest ->
  getSpectra fsqrt fuel (Z.of_nat n) op' (moved_mesh c dq wl) d rs ks swm ord' R' tOps psis es' SHBuild = Ok g' :: rest' ->
  forall i t, (i < length es)%nat -> (t < length tOps)%nat -> g' i t = g i t.
Proof. exact (@spectra_shift). Qed.
(* The written columns, for states with the same charge: XAS.dat and NIXS.dat, XPS.dat, PS.dat. *)
Theorem C90_absorption : forall (F : ofield) (fsqrt fexp : F -> F), sqrt_laws fsqrt -> exp_laws fexp -> forall n w c (op op' : op_t F) rs fuel ks swm k_B T a0 es es' psis ord ord' R R',
  shifted_hamiltonians n w c op op' -> wf_restr rs -> (2 ^ n < fuel)%nat -> Z.of_nat (2 ^ n) <= ks -> (swm <= 0)%F -> (k_B * T)%F <> 0%F -> shifted_states n w c (fun _ => a0) es es' psis ->
  (forall t i q l, Permutation (ord t i q l) l) -> (forall t i q l, Permutation (ord' t i q l) l) -> (1 <= R)%nat -> (1 <= R')%nat ->
  forall d dq tOps wl cols rest cols' rest', d <> 0%F -> Forall (wf_op n) tOps -> Forall (shifts w dq) tOps ->
  absorption fsqrt fexp k_B fuel (Z.of_nat n) op rs ks swm ord R psis es T wl d tOps = Ok cols :: rest ->
  absorption fsqrt fexp k_B fuel (Z.of_nat n) op' rs ks swm ord' R' psis es' T (moved_mesh c dq wl) d tOps = Ok cols' :: rest' ->
  exists data, cols = wl :: data /\ cols' = moved_mesh c dq wl :: data.
Proof. exact (@absorption_shift). Qed.
Theorem C90_emission : forall (F : ofield) (fsqrt fexp : F -> F), sqrt_laws fsqrt -> exp_laws fexp -> forall n w c (op op' : op_t F) rs fuel ks swm k_B T a0 es es' psis ord ord' R R',
  shifted_hamiltonians n w c op op' -> wf_restr rs -> (2 ^ n < fuel)%nat -> Z.of_nat (2 ^ n) <= ks -> (swm <= 0)%F -> (k_B * T)%F <> 0%F -> shifted_states n w c (fun _ => a0) es es' psis ->
  (forall t i q l, Permutation (ord t i q l) l) -> (forall t i q l, Permutation (ord' t i q l) l) -> (1 <= R)%nat -> (1 <= R')%nat ->
  forall d dq tOps wl cols rest cols' rest', d <> 0%F -> Forall (wf_op n) tOps -> Forall (shifts w dq) tOps ->
  emission fsqrt fexp k_B fuel (Z.of_nat n) op rs ks swm ord R psis es T wl d tOps = Ok cols :: rest ->
  emission fsqrt fexp k_B fuel (Z.of_nat n) op' rs ks swm ord' R' psis es' T (moved_mesh c (- dq) wl) d tOps = Ok cols' :: rest' ->
  exists data, cols = wl :: data /\ cols' = moved_mesh c (- dq) wl :: data.
Proof. exact (@emission_shift). Qed.
Theorem C90_photoemission : forall (F : ofield) (fsqrt fexp : F -> F), sqrt_laws fsqrt -> exp_laws fexp -> forall n w c (op op' : op_t F) rs fuel ks swm k_B T a0 es es' psis ord ord' R R',
  shifted_hamiltonians n w c op op' -> wf_restr rs -> (2 ^ n < fuel)%nat -> Z.of_nat (2 ^ n) <= ks -> (swm <= 0)%F -> (k_B * T)%F <> 0%F -> shifted_states n w c (fun _ => a0) es es' psis ->
  (forall t i q l, Permutation (ord t i q l) l) -> (forall t i q l, Permutation (ord' t i q l) l) -> (1 <= R)%nat -> (1 <= R')%nat ->
  forall d dq ps ips wl cols rest cols' rest', d <> 0%F -> Forall (wf_op n) ps -> Forall (wf_op n) ips -> Forall (shifts w (- dq)) ps -> Forall (shifts w dq) ips ->
  photoemission fsqrt fexp k_B fuel (Z.of_nat n) op rs ks swm ord R psis es T wl d ps ips = Ok cols :: rest ->
  photoemission fsqrt fexp k_B fuel (Z.of_nat n) op' rs ks swm ord' R' psis es' T (moved_mesh c dq wl) d ps ips = Ok cols' :: rest' ->
  exists data, cols = wl :: data /\ cols' = moved_mesh c dq wl :: data.
Proof. exact (@photoemission_shift). Qed.
(* The RIXS map: the incoming energies are shifted by d1 c and the energy losses by (d1 + d2) c. *)
Theorem C90_RIXS : forall (F : ofield) (fsqrt : F -> F), sqrt_laws fsqrt ->
  forall n w c (op op' : op_t F) rs fuel ks swm a es es' psis bicgstab d1 d2 delta1 delta2 tOpsIn op0 ops wIn wLoss (od od' : nat -> nat -> nat -> set_order) hg hg' pm pm' r r' gs gs',
  shifted_hamiltonians n w c op op' -> wf_restr rs -> (2 ^ n < fuel)%nat -> Z.of_nat (2 ^ n) <= ks -> (swm <= 0)%F -> shifted_states n w c a es es' psis ->
  exact_solver bicgstab -> Forall (wf_op n) (op0 :: tOpsIn) -> Forall (shifts w d1) tOpsIn -> shifts w d2 op0 -> delta1 <> 0%F -> delta2 <> 0%F ->
  (forall t i q l, Permutation (od t i q l) l) -> (forall t i q l, Permutation (od' t i q l) l) ->
  Forall (hdict_exact n op rs) hg -> hg <> [] -> Forall (hdict_exact n op' rs) hg' -> hg' <> [] -> pm <> ROther -> pm' <> ROther ->
  (pm = RHBuild -> r = 0%nat /\ NoDup (flat_map dkeys hg)) -> (pm' = RHBuild -> r' = 0%nat /\ NoDup (flat_map dkeys hg')) ->
  nth_error (getRIXSmap fsqrt bicgstab fuel (Z.of_nat n) op wIn wLoss delta1 delta2 rs ks swm tOpsIn (op0 :: ops) psis es od hg pm) r = Some (Ok gs) ->
  nth_error (getRIXSmap fsqrt bicgstab fuel (Z.of_nat n) op' (moved_mesh c d1 wIn) (moved_mesh c (d1 + d2) wLoss) delta1 delta2 rs ks swm tOpsIn (op0 :: ops) psis es' od' hg' pm') r' = Some (Ok gs') ->
  forall i t o k, (i < length es)%nat -> (t < length tOpsIn)%nat -> (o < S (length ops))%nat -> (k < length wIn)%nat -> gs' i t o k = gs i t o k.
Proof. exact (@RIXS_shift). Qed.
(* The program: a shift of all levels or of the 2p levels in h0 meets the hypotheses; how the transition operators change the charge is told by C84_transitions. *)
Theorem C90_program : forall (F : ofield) (fsqrt : F -> F) pi gaunt fint nb hp n3d (h0 : sop_t F) q (c : F) hOp hOp', wf_nbaths nb -> NoDup (angs nb) ->
  (forall l1 l2 l3 m1 m2 m3, gaunt l1 l2 l3 m1 m2 m3 = gaunt l3 l2 l1 m3 m2 m1) ->
  (forall l1 l2 l3 m1 m2 m3, gaunt l1 l2 l3 (- m1) (- m2) (- m3) = gaunt l1 l2 l3 m1 m2 m3) ->
  (forall z, fint (fofZ z) = z) -> dget (hp_n0imps hp) 2 = Some n3d -> dget (hp_n0imps hp) 1 = Some 6 ->
  (5 <= length (hp_Fdd hp))%nat -> (1 <= length (hp_Fpd hp))%nat -> (4 <= length (hp_Gpd hp))%nat -> In 1 (angs nb) -> In 2 (angs nb) ->
  NoDup (dkeys h0) -> assert_hermitian h0 = Ok tt -> op_in nb h0 -> conserves q_N h0 -> conserves (q_shell 1) h0 -> q = q_N \/ q = q_shell 1 ->
  get_hamiltonian_operator fsqrt pi gaunt fint nb hp h0 = Ok hOp -> get_hamiltonian_operator fsqrt pi gaunt fint nb hp (addOps [h0; site_levels nb q c]) = Ok hOp' ->
  S_Dict.no_small (n_orb nb) hOp -> S_Dict.no_small (n_orb nb) hOp' -> shifted_hamiltonians (n_orb nb) (at_index nb q) c hOp hOp'.
Proof. exact (@program_shift). Qed.
(* Raising the 2p levels by c lowers the energies of XAS.dat by c; the intensities do not change. *)
Theorem C90_XAS_core : forall (F : ofield) (fsqrt fexp : F -> F), sqrt_laws fsqrt -> exp_laws fexp -> forall pi gaunt nb c (op op' : op_t F) rs fuel ks swm k_B T Nc es es' psis ord ord' R R',
  wf_nbaths nb -> dkeys nb = [KInt 1; KInt 2] -> let n := n_orb nb in let w := at_index nb (q_shell 1) in
  shifted_hamiltonians n w c op op' -> wf_restr rs -> (2 ^ n < fuel)%nat -> Z.of_nat (2 ^ n) <= ks -> (swm <= 0)%F -> (k_B * T)%F <> 0%F -> shifted_states n w c (fun _ => Nc) es es' psis ->
  (forall t i q l, Permutation (ord t i q l) l) -> (forall t i q l, Permutation (ord' t i q l) l) -> (1 <= R)%nat -> (1 <= R')%nat ->
  forall d epsilons tOps wl cols rest cols' rest', d <> 0%F -> getDipoleOperators fsqrt pi gaunt nb epsilons = Ok tOps ->
  absorption fsqrt fexp k_B fuel (Z.of_nat n) op rs ks swm ord R psis es T wl d tOps = Ok cols :: rest ->
  absorption fsqrt fexp k_B fuel (Z.of_nat n) op' rs ks swm ord' R' psis es' T (map (fun x => (x - c)%F) wl) d tOps = Ok cols' :: rest' ->
  exists data, cols = wl :: data /\ cols' = map (fun x => (x - c)%F) wl :: data.
Proof. exact (@core_XAS). Qed.
(* Raising all levels by c does not change XAS.dat. *)
Theorem C90_XAS_all : forall (F : ofield) (fsqrt fexp : F -> F), sqrt_laws fsqrt -> exp_laws fexp -> forall pi gaunt nb c (op op' : op_t F) rs fuel ks swm k_B T N es es' psis ord ord' R R',
  wf_nbaths nb -> dkeys nb = [KInt 1; KInt 2] -> let n := n_orb nb in let w := at_index nb q_N in
  shifted_hamiltonians n w c op op' -> wf_restr rs -> (2 ^ n < fuel)%nat -> Z.of_nat (2 ^ n) <= ks -> (swm <= 0)%F -> (k_B * T)%F <> 0%F -> shifted_states n w c (fun _ => N) es es' psis ->
  (forall t i q l, Permutation (ord t i q l) l) -> (forall t i q l, Permutation (ord' t i q l) l) -> (1 <= R)%nat -> (1 <= R')%nat ->
  forall d epsilons tOps wl cols rest cols' rest', d <> 0%F -> getDipoleOperators fsqrt pi gaunt nb epsilons = Ok tOps ->
  absorption fsqrt fexp k_B fuel (Z.of_nat n) op rs ks swm ord R psis es T wl d tOps = Ok cols :: rest ->
  absorption fsqrt fexp k_B fuel (Z.of_nat n) op' rs ks swm ord' R' psis es' T wl d tOps = Ok cols' :: rest' -> cols' = cols.
Proof. exact (@all_XAS). Qed.
Print Assumptions C90_levels.
Print Assumptions C90_hamiltonian.
Print Assumptions C90_eigen.
Print Assumptions C90_spectra.
Print Assumptions C90_absorption.
Print Assumptions C90_emission.
Print Assumptions C90_photoemission.
Print Assumptions C90_RIXS.
Print Assumptions C90_program.
Print Assumptions C90_XAS_core.
Print Assumptions C90_XAS_all.

(* ---- examples ---- *)
(* two levels with a hopping between them; both levels are raised by 1 *)
Definition up_op : op_t RF := addOps [hop_op; levels 2 (fun _ => 1) (1%F : RF)].
Example C90_hypotheses : shifted_hamiltonians 2 (fun _ => 1) (1%F : RF) hop_op up_op /\ shifted_states 2 (fun _ => 1) (1%F : RF) (fun _ => 1) [0%R : RF; 2%R : RF] [1%R : RF; 3%R : RF] [hop_psi; hop_psi] /\
  Forall (wf_op 2) [@t_in RF] /\ Forall (shifts (fun _ => 1) 1) [@t_in RF] /\ wf_op 2 (@t_out RF) /\ shifts (fun _ => 1) (-1) (@t_out RF) /\
  opelem up_op [true; true] [true; true] <> opelem (@hop_op RF) [true; true] [true; true].
Proof.
  assert (W : wf_op 2 (@hop_op RF)) by wf_op_ex. assert (HH : assert_hermitian (@hop_op RF) = Ok tt) by (destruct (@C36_spectra_input RF) as (_ & X & _); exact X).
  assert (I1 : forall t s, exists z, opelem (@hop_op RF) t s = cofZ z) by (intros t s; apply int_elem; repeat constructor; exists 1; reflexivity).
  split.
  { split; [exact W|]. split; [apply wf_addOps; apply Forall_cons; [exact W|apply Forall_cons; [apply levels_wf|apply Forall_nil]]|]. split; [exact HH|]. split; [apply addOps_hermitian; apply Forall_cons; [split; [apply W|exact HH]|apply Forall_cons; [split; [apply levels_NoDup|apply levels_hermitian]|apply Forall_nil]]|].
    split; [apply int_no_small; auto|]. split; [|split; [intros p [<-|[<-|[]]]; reflexivity|apply C90_levels]].
    apply int_no_small. intros t s. unfold up_op. rewrite opelem_addOps. cbn [csum]. destruct (I1 t s) as (z & ->).
    assert (I2 : exists y, opelem (levels 2 (fun _ => 1) (1%F : RF)) t s = cofZ y).
    { apply int_elem. unfold levels. cbn [map seq]. assert (Y : creal ((1 : RF) * fofZ 1)%F = cofZ 1) by (unfold cofZ; f_equal; change (1 * 1 = 1)%R; ring). apply Forall_cons; [exists 1; exact Y|apply Forall_cons; [exists 1; exact Y|apply Forall_nil]]. }
    destruct I2 as (y & ->). exists (z + (y + 0)). rewrite !cofZ_add. reflexivity. }
  split.
  { split; [apply Forall_cons; [valid_ex|apply Forall_cons; [valid_ex|apply Forall_nil]]|]. split; [reflexivity|]. split; [reflexivity|]. intros i Hi. split.
    - assert (E : nth i [@hop_psi RF; hop_psi] [] = hop_psi) by (destruct i as [|[|i]]; auto; cbn in Hi; lia). rewrite E. intros t Ht Hne. destruct t as [|[] [|[] [|]]]; try discriminate Ht; try reflexivity; elim Hne; reflexivity.
    - destruct i as [|[|i]]; [| |cbn in Hi; lia]; cbn [nth]; change (@fofZ RF 1) with 1%R; [change (1 = 0 + 1 * 1)%R; lra|change (3 = 2 + 1 * 1)%R; lra]. }
  split; [apply Forall_cons; [wf_op_ex|apply Forall_nil]|]. split; [apply Forall_cons; [|apply Forall_nil]; intros p [<-|[<-|[]]]; reflexivity|]. split; [wf_op_ex|]. split; [intros p [<-|[]]; reflexivity|].
  unfold up_op. rewrite (C90_levels RF 2 (fun _ => 1) 1%F hop_op [true; true] [true; true] eq_refl eq_refl).
  destruct (list_eq_dec Bool.bool_dec [true; true] [true; true]) as [_|N]; [|now elim N]. set (x := opelem (@hop_op RF) [true; true] [true; true]). intros C. apply (f_equal re) in C.
  assert (X : charge (fun _ => 1) [true; true] = 2) by reflexivity. rewrite X in C. cbn [cadd re creal] in C. rewrite RofZ in C. change (re x + 1 * 2 = re x)%R in C. lra.
Qed.
(* the program with a field and without interaction; the 2p levels are raised by 3 *)
Definition sh_hp : @ham_params QcF := mkHP [q 0 1; q 0 1; q 0 1; q 0 1; q 0 1] [q 0 1; q 0 1; q 0 1] [q 0 1; q 0 1; q 0 1] [q 0 1; q 0 1; q 0 1; q 0 1] (q 0 1) (q 0 1) [(1, 6); (2, 8)] (q 1 1) (q 0 1) (q 0 1) (q 2 1).
Definition sh_h0 : sop_t QcF := [(hop2 (SImp 2 0 0) (SImp 2 0 1), qr 1 1); (hop2 (SImp 2 0 1) (SImp 2 0 0), qr 1 1)].
Definition sh_op (h : sop_t QcF) : op_t QcF := match get_hamiltonian_operator qsqrt (q 22 7) toy_gaunt qint (pd_baths 0) sh_hp h with Ok x => x | Err _ => [] end.
Definition int_opb (op : op_t QcF) : bool := forallb (fun kv => ceqb (snd kv) (cofZ (qint (re (snd kv))))) op.
Lemma int_opb_ok n op : int_opb op = true -> S_Dict.no_small n op.
Proof.
  intros H. apply int_no_small. intros t s. apply int_elem. apply Forall_forall. intros kv Hk. unfold int_opb in H. rewrite forallb_forall in H. specialize (H kv Hk). cbv beta in H.
  destruct (ceqb_spec (snd kv) (cofZ (qint (re (snd kv))))); [eauto|discriminate].
Qed.
Example C90_program_ex : let nb := pd_baths 0 in let h1 := addOps [sh_h0; site_levels nb (q_shell 1) (q 3 1)] in
  wf_nbaths nb /\ NoDup (angs nb) /\ In 1 (angs nb) /\ In 2 (angs nb) /\ NoDup (dkeys sh_h0) /\ assert_hermitian sh_h0 = Ok tt /\ op_in nb sh_h0 /\ conserves q_N sh_h0 /\ conserves (q_shell 1) sh_h0 /\
  get_hamiltonian_operator qsqrt (q 22 7) toy_gaunt qint nb sh_hp sh_h0 = Ok (sh_op sh_h0) /\ get_hamiltonian_operator qsqrt (q 22 7) toy_gaunt qint nb sh_hp h1 = Ok (sh_op h1) /\
  S_Dict.no_small (n_orb nb) (sh_op sh_h0) /\ S_Dict.no_small (n_orb nb) (sh_op h1) /\ map (fun kv => length (sh_op kv)) [sh_h0; h1] = [18%nat; 18%nat].
Proof.
  cbv zeta. split; [apply pd_wf; lia|]. split; [apply nodupb_ok; reflexivity|]. split; [cbn; auto|]. split; [cbn; auto|]. split; [apply nodupb_ok; reflexivity|]. split; [vm_compute; reflexivity|].
  split; [repeat constructor; cbn; lia|]. split; [intros p [<-|[<-|[]]]; reflexivity|]. split; [intros p [<-|[<-|[]]]; reflexivity|].
  assert (K : forall h, match get_hamiltonian_operator qsqrt (q 22 7) toy_gaunt qint (pd_baths 0) sh_hp h with Ok _ => true | Err _ => false end = true ->
    get_hamiltonian_operator qsqrt (q 22 7) toy_gaunt qint (pd_baths 0) sh_hp h = Ok (sh_op h)).
  { intros h. unfold sh_op. destruct (get_hamiltonian_operator _ _ _ _ _ _ h); [auto|discriminate]. }
  split; [apply K; vm_compute; reflexivity|]. split; [apply K; vm_compute; reflexivity|]. split; [apply int_opb_ok; vm_compute; reflexivity|]. split; [apply int_opb_ok; vm_compute; reflexivity|]. vm_compute. reflexivity.
Qed.
