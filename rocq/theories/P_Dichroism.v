(* Properties of the spectra of time-reversed states: C82. *)
From Coq Require Import QArith Qcanon Reals.
From Verif Require Import M_Prelude M_Scalar M_PSR M_State M_Basis M_Expect M_Operators.
From Verif Require Import S_Fock S_Ops S_Basis S_Expect S_Green S_Operators S_NIXS S_Symmetry S_TimeReversal S_Dichroism.
From Verif Require Import L_Scalar L_Sum L_Dict L_Fock L_Ops L_Operators L_Operators2 L_Operators3 L_Operators4 L_Operators5 L_Operators7 L_Operators10 L_Symmetry3 L_Symmetry6 L_TimeReversal L_TimeReversal2 L_TimeReversal3 L_Dichroism.
From Verif Require L_Ham.
From Verif Require Import X_Util X_Reals X_Ops X_Symmetry P_TimeReversal.
Local Open Scope Z_scope.

(* ---- C82: spectra of time-reversed states, circular dichroism ---- *)
(* Off the real axis the response is defined as soon as (z - A) x = Sv has a solution. *)
Theorem C82_defined : forall (F : ofield) n (A : op_t F) z S v x, NoDup (dkeys A) -> assert_hermitian A = Ok tt -> im z <> 0%F ->
  (forall t, length t = n -> z * x t - opv n A x t = S v t)%C -> response n A z S v (vdot n (S v) x).
Proof. exact (@response_defined). Qed.
(* If time reversal takes A to A' and the transition S to S', the spectrum of v is that of the reversed v. *)
Theorem C82_response : forall (F : ofield) bp bs nb, wf_nbaths nb -> NoDup (angs nb) -> pairs bp bs nb -> forall (A A' : op_t F) z S S' v g g',
  NoDup (dkeys A') -> assert_hermitian A' = Ok tt -> reverses bp bs nb A A' -> reversed bp bs nb S S' ->
  response (n_orb nb) A z S v g -> response (n_orb nb) A' z S' (timerev bp bs nb v) g' -> g' = g.
Proof. exact (@reversed_response). Qed.
(* The transitions of the program: dipole transitions with D1 + c D2 become D1 + conj(c) D2, in particular the two circular polarisations are exchanged; *)
Theorem C82_dipole : forall (F : ofield) bp bs nb, wf_nbaths nb -> NoDup (angs nb) -> pairs bp bs nb -> forall (fsqrt : F -> F) pi gaunt,
  (forall l1 l2 l3 m1 m2 m3, gaunt l1 l2 l3 (- m1) (- m2) (- m3) = gaunt l1 l2 l3 m1 m2 m3) -> fsqrt (fofZ 2) <> 0%F ->
  forall n1 n2 D1 D2 c, getDipoleOperator fsqrt pi gaunt nb n1 = Ok D1 -> getDipoleOperator fsqrt pi gaunt nb n2 = Ok D2 ->
  reversed bp bs nb (two_transitions (n_orb nb) D1 D2 c) (two_transitions (n_orb nb) D1 D2 (cconj c)).
Proof. exact (@reversed_dipole). Qed.
(* removing or adding an electron becomes the same with the opposite spin and momentum; *)
Theorem C82_one_electron : forall (F : ofield) bp bs nb, wf_nbaths nb -> NoDup (angs nb) -> pairs bp bs nb ->
  forall lab x, (lab = lab_a \/ lab = lab_c) -> coord_ok nb x ->
  reversed (F := F) bp bs nb (transition (n_orb nb) (one_electron nb lab x)) (transition (n_orb nb) (one_electron nb lab (reverse bp x))).
Proof. exact (@reversed_one). Qed.
(* the operators of NIXS become themselves, for any q. *)
Theorem C82_NIXS : forall (F : ofield) bp bs nb, wf_nbaths nb -> NoDup (angs nb) -> pairs bp bs nb -> forall (fsqrt : F -> F) pi gaunt,
  (forall l1 l2 l3 m1 m2 m3, gaunt l1 l2 l3 (- m1) (- m2) (- m3) = gaunt l1 l2 l3 m1 m2 m3) ->
  forall arccos fsin spherical_jn sph_harm li lj q0 q1 q2 mesh kmin op, In li (angs nb) -> In lj (angs nb) -> 0 <= kmin ->
  (forall k m phi theta, sph_harm (- m) k phi theta = (cofZ (parity m) * cconj (sph_harm m k phi theta))%C) -> real_functions mesh ->
  getNIXSOperator fsqrt pi gaunt arccos fsin spherical_jn sph_harm nb q0 q1 q2 li lj mesh kmin = Ok op ->
  reversed bp bs nb (transition (n_orb nb) op) (transition (n_orb nb) op).
Proof. exact (@reversed_nixs). Qed.
(* So the spectrum of a state in a field is the spectrum of the reversed state in the opposite field. *)
Theorem C82_hamiltonian : forall (F : ofield) (fsqrt : F -> F) pi gaunt fint nb hp bp bs h0 h0' hOp hOp',
  wf_nbaths nb -> NoDup (angs nb) -> pairs bp bs nb ->
  (forall l1 l2 l3 m1 m2 m3, gaunt l1 l2 l3 m1 m2 m3 = gaunt l3 l2 l1 m3 m2 m1) ->
  (forall l1 l2 l3 m1 m2 m3, gaunt l1 l2 l3 (- m1) (- m2) (- m3) = gaunt l1 l2 l3 m1 m2 m3) -> ham_set fint nb hp ->
  NoDup (dkeys h0) -> assert_hermitian h0 = Ok tt -> op_in nb h0 -> NoDup (dkeys h0') -> assert_hermitian h0' = Ok tt -> op_in nb h0' ->
  reverses bp bs nb (indexed nb h0) (indexed nb h0') ->
  get_hamiltonian_operator fsqrt pi gaunt fint nb hp h0 = Ok hOp ->
  get_hamiltonian_operator fsqrt pi gaunt fint nb (opposite_field hp) h0' = Ok hOp' ->
  forall z S S' v g g', reversed bp bs nb S S' -> response (n_orb nb) hOp z S v g -> response (n_orb nb) hOp' z S' (timerev bp bs nb v) g' -> g' = g.
Proof. exact (@dichroism). Qed.
Theorem C82_CF : forall (F : ofield) (fsqrt : F -> F) pi gaunt fint nb nv hp params b hOp hOp',
  (forall x : F, (0 <= x)%F -> (0 <= fsqrt x)%F /\ (fsqrt x * fsqrt x)%F = x) ->
  (forall l1 l2 l3 m1 m2 m3, gaunt l1 l2 l3 m1 m2 m3 = gaunt l3 l2 l1 m3 m2 m1) ->
  (forall l1 l2 l3 m1 m2 m3, gaunt l1 l2 l3 (- m1) (- m2) (- m3) = gaunt l1 l2 l3 m1 m2 m3) -> ham_set fint nb hp -> cf_system nb nv -> b <> OtherBasis ->
  get_hamiltonian_operator_using_CF fsqrt pi gaunt fint nb nv hp params b = Ok hOp ->
  get_hamiltonian_operator_using_CF fsqrt pi gaunt fint nb nv (opposite_field hp) params b = Ok hOp' ->
  forall z S S' v g g', reversed (cf_partner b) (cf_sign b) nb S S' -> response (n_orb nb) hOp z S v g ->
  response (n_orb nb) hOp' z S' (timerev (cf_partner b) (cf_sign b) nb v) g' -> g' = g.
Proof. exact (@dichroism_CF). Qed.
(* Without field the two states of a Kramers pair together absorb both circular polarisations alike. *)
Theorem C82_no_dichroism : forall (F : ofield) (fsqrt : F -> F) pi gaunt fint nb nv hp params b hOp,
  (forall x : F, (0 <= x)%F -> (0 <= fsqrt x)%F /\ (fsqrt x * fsqrt x)%F = x) ->
  (forall l1 l2 l3 m1 m2 m3, gaunt l1 l2 l3 m1 m2 m3 = gaunt l3 l2 l1 m3 m2 m1) ->
  (forall l1 l2 l3 m1 m2 m3, gaunt l1 l2 l3 (- m1) (- m2) (- m3) = gaunt l1 l2 l3 m1 m2 m3) -> ham_set fint nb hp -> cf_system nb nv -> b <> OtherBasis ->
  no_field hp -> get_hamiltonian_operator_using_CF fsqrt pi gaunt fint nb nv hp params b = Ok hOp ->
  forall n1 n2 D1 D2, getDipoleOperator fsqrt pi gaunt nb n1 = Ok D1 -> getDipoleOperator fsqrt pi gaunt nb n2 = Ok D2 ->
  forall c z v g1 g2 g1' g2', let w := timerev (cf_partner b) (cf_sign b) nb v in
  response (n_orb nb) hOp z (two_transitions (n_orb nb) D1 D2 c) v g1 -> response (n_orb nb) hOp z (two_transitions (n_orb nb) D1 D2 c) w g2 ->
  response (n_orb nb) hOp z (two_transitions (n_orb nb) D1 D2 (cconj c)) v g1' -> response (n_orb nb) hOp z (two_transitions (n_orb nb) D1 D2 (cconj c)) w g2' ->
  g2' = g1 /\ g2 = g1' /\ (g1 + g2 = g1' + g2')%C.
Proof. exact (@no_dichroism). Qed.
Print Assumptions C82_defined. Print Assumptions C82_response. Print Assumptions C82_dipole. Print Assumptions C82_one_electron. Print Assumptions C82_NIXS.
Print Assumptions C82_hamiltonian. Print Assumptions C82_CF. Print Assumptions C82_no_dichroism.

(* the 2p shell: removing the electron from m = 1, spin up, with spin-orbit coupling; the response at z = i is -i, also for the reversed state *)
Notation no_pair := (fun (_ : bkey) (b : Z) => b).
Notation p_rem x := (transition (F := QcF) (n_orb p_only) (one_electron p_only lab_a x)).
Definition p_empty (t : config) : cx QcF := if eqb (nelec t) 0%nat then (- cI)%C else c0.
Example C82_ex : wf_nbaths p_only /\ NoDup (angs p_only) /\ pairs no_pair (fun _ _ => 1) p_only /\
  NoDup (dkeys p_soc) /\ assert_hermitian p_soc = Ok tt /\ reverses no_pair (fun _ _ => 1) p_only p_soc p_soc /\
  response (n_orb p_only) p_soc cI (p_rem (SImp 1 1 1)) (one_at (SImp 1 1 1)) (vdot (n_orb p_only) (p_rem (SImp 1 1 1) (one_at (SImp 1 1 1))) p_empty) /\
  ceqb (vdot (n_orb p_only) (p_rem (SImp 1 1 1) (one_at (SImp 1 1 1))) p_empty) (- cI)%C = true /\ reverse no_pair (SImp 1 1 1) = SImp 1 0 (-1) /\
  coord_ok p_only (SImp 1 1 1).
Proof.
  destruct C79_kramers_ex as (Hw & Ha & Hp & _).
  assert (HN : NoDup (dkeys p_soc)).
  { let k := eval vm_compute in (dkeys p_soc) in assert (K : dkeys p_soc = k) by (vm_compute; reflexivity). rewrite K.
    repeat (constructor; [cbn; intuition discriminate|]). constructor. }
  assert (HA : assert_hermitian p_soc = Ok tt) by (vm_compute; reflexivity).
  split; [exact Hw|split; [exact Ha|split; [exact Hp|split; [exact HN|split; [exact HA|]]]]].
  split; [apply rev_SOC; auto; cbn; auto|]. split; [|split; [vm_compute; reflexivity|split; [reflexivity|cbn; lia]]].
  apply response_defined; auto.
  - intros H. apply (f_equal (fun x => fltb 0%F x)) in H. vm_compute in H. discriminate H.
  - assert (C : forallb (fun t => ceqb (cI * p_empty t - opv (n_orb p_only) p_soc p_empty t)%C (p_rem (SImp 1 1 1) (one_at (SImp 1 1 1)) t)) (allcfg (n_orb p_only)) = true) by (vm_compute; reflexivity).
    intros t Ht. rewrite forallb_forall in C. specialize (C t (proj2 (allcfg_In _ _) Ht)). destruct (ceqb_spec (cI * p_empty t - opv (n_orb p_only) p_soc p_empty t)%C (p_rem (SImp 1 1 1) (one_at (SImp 1 1 1)) t)); [assumption|discriminate C].
Qed.
(* the dipole operators of the d8 ion exist, the laws of the Gaunt coefficients and of the root hold; its Hamiltonians exist by C79_CF_ex *)
Example C82_dipole_ex : (forall n, (3 <= length n)%nat -> exists D, @getDipoleOperator RF sqrt PI gaunt_ex (pd_baths 10) n = Ok D) /\
  (forall l1 l2 l3 m1 m2 m3, gaunt_ex l1 l2 l3 m1 m2 m3 = gaunt_ex l3 l2 l1 m3 m2 m1) /\
  (forall l1 l2 l3 m1 m2 m3, gaunt_ex l1 l2 l3 (- m1) (- m2) (- m3) = gaunt_ex l1 l2 l3 m1 m2 m3) /\
  (forall x : RF, (0 <= x)%F -> (0 <= (sqrt : RF -> RF) x)%F /\ ((sqrt : RF -> RF) x * sqrt x)%F = x) /\ (sqrt : RF -> RF) (fofZ 2) <> 0%F.
Proof.
  assert (Hs : forall x : RF, (0 <= x)%F -> (0 <= (sqrt : RF -> RF) x)%F /\ ((sqrt : RF -> RF) x * sqrt x)%F = x) by (apply sqrt_laws_R).
  assert (H2 : (sqrt : RF -> RF) (fofZ 2) <> 0%F).
  { intros X. destruct (Hs (fofZ 2)) as [_ Y]; [apply flt_le, L_Ham.fofZ_pos; lia|]. rewrite X in Y.
    assert (Q : @fofZ RF 2 <> 0%F) by (intros C; pose proof (L_Ham.fofZ_pos (F := RF) 2 ltac:(lia)) as P2; rewrite C, flt_irrefl in P2; discriminate P2).
    apply Q. rewrite <- Y. apply fmul_0_l. }
  split; [|split; [exact gaunt_ex_swap|split; [exact gaunt_ex_neg|split; [exact Hs|exact H2]]]].
  intros [|a [|b [|c n]]] H; cbn in H; try lia.
  destruct (@dip_ok RF sqrt PI gaunt_ex (pd_baths 10) (pd_wf 10 ltac:(lia)) 1 2 eq_refl a b c n H2) as (D & E & _). exists D. exact E.
Qed.
