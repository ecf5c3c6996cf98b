(* Specification of the text files written by the program. *)
From Coq Require Import Permutation String.
From Verif Require Import M_Prelude M_Scalar M_PSR M_State M_Mpi M_Hamiltonian M_Basis M_Expect M_Operators M_Main M_Program S_Fock S_Basis S_Expect S_Green S_Ham S_Thermal S_Program S_Spectrum.

Section Files.
Context {F : ofield}.
Local Open Scope of_scope.
Variables fsqrt fexp arccos fsin : F -> F.
Variables k_B pi : F.
Variable gaunt : Z -> Z -> Z -> Z -> Z -> Z -> F.
Variable spherical_jn : Z -> F -> F.
Variable sph_harm : Z -> Z -> F -> F -> cx F.
Variable eigh : nat -> M_Hamiltonian.mat F -> res (list F * list (list (cx F))).
Variable eigsh : nat -> M_Hamiltonian.mat F -> Z -> res (list F * list (list (cx F))).
Variable argsort : list F -> list nat.
Variable fuel : nat.
Variable ord : nat -> nat -> nat -> nat -> set_order.
Variable R : nat.

(* what is assumed of the run *)
Definition run_input (a : @args F) : Prop :=
  sqrt_laws fsqrt /\ exp_laws fexp /\ (1 <= R)%nat /\ (forall c t i q l, Permutation (ord c t i q l) l) /\
  sound_args a /\ k_B * a_T a <> 0 /\ a_delta a <> 0 /\ a_deltaNIXS a <> 0 /\
  (2 ^ n_orb (nbaths_of (ordered (a_ls a) (a_nBaths a))) < fuel)%nat.

(* the states with an energy of at most energy_cut * k_B * T above the lowest one *)
Definition run_states (a : @args F) (su : @setup F) (es : list F) (psis : list (psi_t F)) : Prop :=
  exists es0 psis0 others,
    eigensystem eigh eigsh argsort R (n_spin_orbitals (su_nBaths su)) (su_hOp su) (su_basis su) (a_nPsiMax a) LanczosDiag slaterWeightMin = Ok (es0, psis0) :: others /\
    low_energy es0 psis0 (a_energy_cut a * (k_B * a_T a)) = Ok (es, psis).

(* Every file has the mean over these states at temperature T: of -Im <psi|T+ (w + i delta + e - h)^-1 T|psi> for XAS and NIXS, of
   Im <psi|T+ (-w - i delta + e - h)^-1 T|psi> for XPS, and for PS of the sum for the removal and the addition of an electron. *)
Definition text_spec (a : @args F) (ms : @meshes F) (radial : list (F * F)) (su : @setup F) (es : list F) (psis : list (psi_t F)) (f : string) (cols : list (list F)) : Prop :=
  let nb := nbaths_of (su_nBaths su) in
  let table h w d := green_table (n_orb nb) (su_hOp su) (Some (su_rs su)) h w d 150 (1 / fofZ 10000000) in
  let file := mean_file fexp (k_B * a_T a) in
  let hamiltonian := restricted_op (n_orb nb) (su_hOp su) (Some (su_rs su)) in
  let minus := map fopp in
  (f = "PS.dat"%string /\ exists ips ps gI gP, getInversePhotoEmissionOperators nb 2 = Ok ips /\ getPhotoEmissionOperators nb 2 = Ok ps /\
    (forall h, hamiltonian h -> table h (m_w ms) (a_delta a) ips psis es gI /\ table h (minus (m_w ms)) (- a_delta a) ps psis es gP) /\
    file (m_w ms) es (length ps) (fun i t k => im (nth k (gP i t) c0) - im (nth k (gI i t) c0)) cols) \/
  (f = "XPS.dat"%string /\ exists ps g, getPhotoEmissionOperators nb 1 = Ok ps /\
    (forall h, hamiltonian h -> table h (minus (m_w ms)) (- a_delta a) ps psis es g) /\
    file (m_w ms) es (length ps) (fun i t k => im (nth k (g i t) c0)) cols) \/
  (f = "NIXS.dat"%string /\ exists ops g,
    getNIXSOperators fsqrt arccos fsin pi gaunt spherical_jn sph_harm nb (m_qsNIXS ms) 2 2 (map (fun rR => (fst rR, (creal (snd rR), creal (snd rR)))) radial) = Ok ops /\
    (forall h, hamiltonian h -> table h (m_wLoss ms) (a_deltaNIXS a) ops psis es g) /\
    file (m_wLoss ms) es (length ops) (fun i t k => - im (nth k (g i t) c0)) cols) \/
  (f = "XAS.dat"%string /\ exists ops g, getDipoleOperators fsqrt pi gaunt nb (m_epsilons ms) = Ok ops /\
    (forall h, hamiltonian h -> table h (m_w ms) (a_delta a) ops psis es g) /\
    file (m_w ms) es (length ops) (fun i t k => - im (nth k (g i t) c0)) cols).
End Files.
