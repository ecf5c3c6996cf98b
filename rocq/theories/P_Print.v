(* Property C76: what a run prints, the meshes it uses and the command lines it accepts. *)
From Coq Require Import QArith Qcanon Permutation String Reals Lra.
From Verif Require Import M_Prelude M_Scalar M_PSR M_Ladder M_State M_Mpi M_Hamiltonian M_Basis M_Average M_Expect M_Operators M_Main M_Program.
From Verif Require Import S_Fock S_Basis S_Expect S_Ham S_Green S_Thermal S_Print S_Main S_Program S_Spectrum S_Spectrum2 S_Output L_Scalar L_Ham L_Expect3 L_Cubic L_Expect5 L_Expect6 L_Expect7 L_Program2 L_Program3 L_Program4 L_Program5 L_Program6 L_Program7 L_Program8 L_Print X_Util X_Ops X_Main X_Program X_Reals P_Expect P_Program4.
Local Open Scope Z_scope.

(* ---- C76 ---- *)
(* one row of expectation values per state: E-E0, N, the occupations of eg and t2g with spin down and up, Lz, Sz, L^2, S^2 *)
Theorem C76_rows : forall (F : ofield) (fsqrt : F -> F), sqrt_laws fsqrt -> forall nb, has_shell nb 2 -> forall u, get_spherical_2_cubic_matrix fsqrt false 2 = Ok u ->
  forall es psis e0, hd_error es = Some e0 -> (forall psi, In psi psis -> valid_psi (n_orb nb) psi) ->
  printExpValues fsqrt nb es psis = Ok (map (fun ep => map (fun f => f ep) (observables fsqrt nb u e0)) (combine es psis)).
Proof. exact (@rows_ok). Qed.
(* the elements of the density matrix *)
Theorem C76_density : forall (F : ofield) (fsqrt : F -> F) nb, has_shell nb 2 -> forall u, get_spherical_2_cubic_matrix fsqrt false 2 = Ok u ->
  forall tol psis, (forall psi, In psi psis -> valid_psi (n_orb nb) psi) ->
  exists ds, print_density fsqrt nb tol psis = Ok ds /\ Forall2 (density_elements nb u tol) psis ds.
Proof. exact (@density_ok). Qed.
(* all that a run prints before the spectra *)
Theorem C76_main : forall (F : ofield) fsqrt fexp arccos fsin f32 k_B pi gaunt jn sph bicgstab eigh eigsh argsort fuel ord R hamiltonian ms (a : @args F) radial,
  sqrt_laws fsqrt -> exp_laws fexp -> (0 < k_B)%F -> argsort_works argsort -> sound_args a ->
  forall u su es psis others e0, get_spherical_2_cubic_matrix fsqrt false 2 = Ok u -> main_setup hamiltonian a = Ok su ->
  eigensystem eigh eigsh argsort R (n_spin_orbitals (su_nBaths su)) (su_hOp su) (su_basis su) (a_nPsiMax a) LanczosDiag slaterWeightMin = Ok (es, psis) :: others ->
  forallb is_ok others = true -> hd_error es = Some e0 ->
  printed fsqrt fexp k_B (nbaths_of (su_nBaths su)) u a ms radial e0 es psis
    (firstn 12 (fst (main fsqrt fexp arccos fsin f32 k_B pi gaunt jn sph bicgstab eigh eigsh argsort fuel ord R hamiltonian ms a radial))).
Proof. exact (@main_printed). Qed.
(* the meshes *)
Theorem C76_meshes : forall (F : ofield) (fsqrt : F -> F), sqrt_laws fsqrt -> program_meshes (main_meshes fsqrt).
Proof. exact (@meshes_ok). Qed.
Theorem C76_linspace : forall (F : ofield) (a b : F) num, 1 < num -> even_mesh a b (Z.to_nat num) (linspace a b num).
Proof. exact (@linspace_even). Qed.
(* the accepted command lines; get_spectra.py rejects the others with an AssertionError *)
Theorem C76_checks : forall (F : ofield) (a : @args F), sanity_checks a = Ok tt <-> accepted a.
Proof. exact (@checks_exact). Qed.
Theorem C76_checks_CF : forall (F : ofield) (a : @args F), sanity_checks_CF a = Ok tt <-> accepted_CF a.
Proof. exact (@checks_CF_exact). Qed.
Theorem C76_rejected : forall (F : ofield) (a : @args F) e, sanity_checks a = Err e -> e = AssertionError.
Proof. exact (@checks_err). Qed.
Print Assumptions C76_rows. Print Assumptions C76_density. Print Assumptions C76_main. Print Assumptions C76_meshes. Print Assumptions C76_linspace.
Print Assumptions C76_checks. Print Assumptions C76_checks_CF. Print Assumptions C76_rejected.

(* a state of three electrons meets the hypotheses of C76_rows and C76_density *)
Example C76_ex : @sqrt_laws RF R_sqrt.sqrt /\ has_shell ex_3d 2 /\ (exists u, @get_spherical_2_cubic_matrix RF R_sqrt.sqrt false 2 = Ok u) /\ hd_error [0%F : RF] = Some 0%F /\
  (forall psi, In psi [[(key (ex_cfg [0; 1; 9]%nat), c1); (key (ex_cfg [2; 9; 11]%nat), cI)]] -> valid_psi (F := RF) (n_orb ex_3d) psi).
Proof.
  split; [exact sqrt_laws_R|]. split; [apply ex_3d_shell|]. split; [eexists; apply sph2cub_2|]. split; [reflexivity|]. intros psi [<-|[]]. apply ex_psi3d_gen.
Qed.
(* a run with real numbers: no Hamiltonian, and an eigensolver that returns one vector *)
Definition r_eigsh (N : nat) (h : M_Hamiltonian.mat RF) (k : Z) : res (list RF * list (list (cx RF))) := Ok ([0%F], [repeat cI N]).
Lemma column_ok {F : ofield} basis swm (col : list (cx F)) : length col = length basis -> exists psi, state_of_column basis swm col = Ok psi.
Proof.
  intros L. unfold state_of_column. generalize (@nil (pybytes * cx F)) as psi0. assert (H : forall i, In i (seq 0 (length basis)) -> (i < length basis)%nat) by (intros i Hi; apply in_seq in Hi; lia).
  induction (seq 0 (length basis)) as [|i l IH]; intros psi0; [eexists; reflexivity|]. cbn [fold_res]. pose proof (H i (or_introl eq_refl)) as Hi.
  unfold nth_res. destruct (nth_error col i) eqn:E1; [|apply nth_error_None in E1; lia]. destruct (nth_error basis i) eqn:E2; [|apply nth_error_None in E2; lia]. cbn [bind].
  destruct (_ <? _)%F; cbn [bind]; apply IH; intros j Hj; apply H; right; auto.
Qed.
Example C76_main_ex : exists su psi others, main_setup (fun _ _ _ => Ok []) r_args = Ok su /\
  eigensystem (fun _ _ => Err ValueError) r_eigsh (@isort RF) 3 (n_spin_orbitals (su_nBaths su)) (su_hOp su) (su_basis su) (a_nPsiMax r_args) LanczosDiag slaterWeightMin = Ok ([0%F], [psi]) :: others /\
  forallb is_ok others = true /\ @argsort_works RF isort /\ sound_args r_args.
Proof.
  pose proof C73_hypotheses as [(_ & _ & _ & _ & HA & _) _].
  destruct (setup_ok r_args HA (fun _ _ _ => Ok []) (fun _ _ _ => eq_refl)) as (su & Es & (hp & Eh) & E1 & _ & Eb & _). injection Eh as Eh.
  destruct (setup_facts _ _ _ HA Es) as (Hsh & _ & Hv). exists su.
  assert (Hb : exists b bs, su_basis su = b :: bs).
  { destruct (su_basis su) as [|b bs] eqn:E; [|eauto]. exfalso.
    assert (Hc : main_setup (fun _ _ _ => Ok []) r_args = Ok su) by exact Es. vm_compute in Hc. injection Hc as Hc. rewrite <- Hc in E. discriminate. }
  destruct Hb as (b & bs & Hb).
  destruct (ham_entry (n_orb (nbaths_of (su_nBaths su))) (su_hOp su) (su_basis su) 3 SparseMPI) as (m & Em & _); [rewrite <- Eh; split; constructor|exact Hv|lia|discriminate|].
  rewrite <- (n_eq (su_nBaths su) Hsh) in Em.
  destruct (column_ok (su_basis su) slaterWeightMin (repeat cI (length (su_basis su)) : list (cx RF)) (repeat_length _ _)) as (psi & Ep).
  exists psi, (repeat (Ok ([0%F], [psi])) 2). split; [exact Es|]. split; [|split; [reflexivity|split; [apply isort_works|exact HA]]].
  unfold eigensystem. rewrite Em. cbn [repeat enumerate].
  assert (G : forall r, eigen_local (fun _ _ => Err ValueError) r_eigsh (@isort RF) r m (su_basis su) (a_nPsiMax r_args) LanczosDiag slaterWeightMin = Ok ([0%F], [psi])).
  { intros r. unfold eigen_local. rewrite Hb at 1. cbn [length Nat.eqb]. rewrite andb_false_r. cbn [diagonalize r_eigsh bind].
    change (isort [0%F : RF]) with [0%nat]. cbn [map_res nth_res nth_error bind length seq]. rewrite Ep. reflexivity. }
  unfold enumerate. cbn [length seq combine map fst snd bind]. rewrite !G. reflexivity.
Qed.
(* the arguments of C69 and those of a calculation with crystal fields are accepted *)
Example C76_checks_ex : @accepted RF r_args /\ ~ @accepted_CF RF r_args.
Proof.
  split; [apply C76_checks; reflexivity|]. intros H. apply C76_checks_CF in H. discriminate.
Qed.
Example C76_checks_CF_ex : @accepted_CF RF (mkArgs [1; 2] [0; 20] [0; 10] [6; 8] [0; 2] [0; 2] [0; 0] (r_zeros 5) (r_zeros 3) (r_zeros 3) (r_zeros 4) 0%F 0%F 0%F (r_zeros 3)
  2 3 1%F (300%R : RF) (10%R : RF) 1%F 1%F 1%F).
Proof. apply C76_checks_CF. reflexivity. Qed.
