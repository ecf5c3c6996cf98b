(* Another unit of energy: the spectra for two Hamiltonians that are the same in the two units. *)
From Coq Require Import Permutation Ring Field.
From Verif Require Import M_Prelude M_Scalar M_PSR M_State M_Mpi M_Hamiltonian M_Basis M_Expect M_Operators M_Lanczos M_Average M_Spectra M_Simulate M_RIXS M_Program S_Fock S_Ops S_Ham S_Green S_Spectra S_Basis S_Expect S_Operators S_TimeReversal S_Thermal S_RIXS S_Units.
From Verif Require Import L_Scalar L_Units L_Units2 L_Units3.
From Verif Require S_Dict.
Local Open Scope Z_scope.

Section S.
Context {F : ofield}.
Lemma eigen_unit n (x : F) (op op' : op_t F) e v : same_hamiltonian x n op op' -> eigenvector n op e v -> eigenvector n op' (x * e)%F v.
Proof. intros (_ & _ & _ & _ & _ & _ & H). apply eig_unit. exact H. Qed.
Section C.
Variables (fsqrt fexp : F -> F).
Hypothesis HS : sqrt_laws fsqrt.
Hypothesis HE : exp_laws fexp.
Variables (n : nat) (x : F) (op op' : op_t F) (rs : option restrictions_t) (fuel : nat) (ks : Z) (swm : F) (es : list F) (psis : list (psi_t F)).
Hypothesis Hx : x <> 0%F.
Hypothesis HH : same_hamiltonian x n op op'.
Hypothesis Hr : wf_restr rs.
Hypothesis Hf : (2 ^ n < fuel)%nat.
Hypothesis Hk : Z.of_nat (2 ^ n) <= ks.
Hypothesis Hs : (swm <= 0)%F.
Hypothesis HV : Forall (valid_psi n) psis.
Hypothesis HL : length psis = length es.
Lemma spectra_unit ord ord' R R' d tOps wl g rest g' rest' :
  (forall t i q l, Permutation (ord t i q l) l) -> (forall t i q l, Permutation (ord' t i q l) l) -> (1 <= R)%nat -> (1 <= R')%nat -> d <> 0%F -> Forall (wf_op n) tOps ->
  getSpectra fsqrt fuel (Z.of_nat n) op wl d rs ks swm ord R tOps psis es SHBuild = Ok g :: rest ->
  getSpectra fsqrt fuel (Z.of_nat n) op' (energies_in x wl) (x * d)%F rs ks swm ord' R' tOps psis (energies_in x es) SHBuild = Ok g' :: rest' ->
  forall i t, (i < length es)%nat -> (t < length tOps)%nat -> g' i t = map (fun v => v / creal x)%C (g i t).
Proof.
  intros Ho Ho' HR HR' Hd Ht E E'. destruct HH as (H1 & H2 & H3 & H4 & H5 & H6 & H7).
  exact (spec_unit n x op op' rs Hx H7 H1 H2 H3 H4 H5 H6 Hr fsqrt HS fuel ks swm Hf Hk Hs es psis HV HL ord ord' Ho Ho' R R' HR HR' d tOps wl g rest g' rest' Hd Ht E E').
Qed.
Lemma RIXS_units bicgstab delta1 delta2 tOpsIn op0 ops wIn wLoss (od od' : nat -> nat -> nat -> set_order) hg hg' pm pm' r r' gs gs' :
  exact_solver bicgstab -> Forall (wf_op n) (op0 :: tOpsIn) -> delta1 <> 0%F -> delta2 <> 0%F ->
  (forall t i q l, Permutation (od t i q l) l) -> (forall t i q l, Permutation (od' t i q l) l) ->
  Forall (hdict_exact n op rs) hg -> hg <> [] -> Forall (hdict_exact n op' rs) hg' -> hg' <> [] -> pm <> ROther -> pm' <> ROther ->
  (pm = RHBuild -> r = 0%nat /\ NoDup (flat_map dkeys hg)) -> (pm' = RHBuild -> r' = 0%nat /\ NoDup (flat_map dkeys hg')) ->
  nth_error (getRIXSmap fsqrt bicgstab fuel (Z.of_nat n) op wIn wLoss delta1 delta2 rs ks swm tOpsIn (op0 :: ops) psis es od hg pm) r = Some (Ok gs) ->
  nth_error (getRIXSmap fsqrt bicgstab fuel (Z.of_nat n) op' (energies_in x wIn) (energies_in x wLoss) (x * delta1)%F (x * delta2)%F rs ks swm tOpsIn (op0 :: ops) psis (energies_in x es) od' hg' pm') r' = Some (Ok gs') ->
  forall i t o k, (i < length es)%nat -> (t < length tOpsIn)%nat -> (o < S (length ops))%nat -> (k < length wIn)%nat -> gs' i t o k = map (fun v => v / (creal x * creal x * creal x))%C (gs i t o k).
Proof.
  intros. destruct HH as (H1' & H2' & H3' & H4' & H5' & H6' & H7').
  eapply (RIXS_unit n x op op' rs Hx H7' H1' H2' H3' H4' H5' H6' Hr fsqrt HS fuel ks swm Hf Hk Hs es psis HV HL 1%nat 1%nat (le_n _) (le_n _)) with (od := od) (od' := od') (pm := pm) (pm' := pm') (hg := hg) (hg' := hg') (r := r) (r' := r') (delta1 := delta1) (delta2 := delta2) (op0 := op0) (tOpsIn := tOpsIn); eauto.
Qed.
Variables k_B T k_B' T' : F.
Hypothesis HkT : (k_B * T)%F <> 0%F.
Hypothesis HkT' : (k_B' * T')%F = (x * (k_B * T))%F.
Variables (ord ord' : nat -> nat -> nat -> set_order) (R R' : nat).
Hypothesis Ho : forall t i q l, Permutation (ord t i q l) l.
Hypothesis Ho' : forall t i q l, Permutation (ord' t i q l) l.
Hypothesis HR : (1 <= R)%nat.
Hypothesis HR' : (1 <= R')%nat.
Lemma absorption_units d tOps wl cols rest cols' rest' : d <> 0%F -> Forall (wf_op n) tOps ->
  absorption fsqrt fexp k_B fuel (Z.of_nat n) op rs ks swm ord R psis es T wl d tOps = Ok cols :: rest ->
  absorption fsqrt fexp k_B' fuel (Z.of_nat n) op' rs ks swm ord' R' psis (energies_in x es) T' (energies_in x wl) (x * d)%F tOps = Ok cols' :: rest' ->
  exists data, cols = wl :: data /\ cols' = energies_in x wl :: map (map (fun v => v / x)%F) data.
Proof.
  destruct HH as (H1 & H2 & H3 & H4 & H5 & H6 & H7).
  exact (absorption_unit n x op op' rs Hx H7 H1 H2 H3 H4 H5 H6 Hr fsqrt fexp HS HE k_B T k_B' T' fuel ks swm Hf Hk Hs es psis HV HL ord ord' Ho Ho' R R' HR HR' HkT HkT' d tOps wl cols rest cols' rest').
Qed.
Lemma emission_units d tOps wl cols rest cols' rest' : d <> 0%F -> Forall (wf_op n) tOps ->
  emission fsqrt fexp k_B fuel (Z.of_nat n) op rs ks swm ord R psis es T wl d tOps = Ok cols :: rest ->
  emission fsqrt fexp k_B' fuel (Z.of_nat n) op' rs ks swm ord' R' psis (energies_in x es) T' (energies_in x wl) (x * d)%F tOps = Ok cols' :: rest' ->
  exists data, cols = wl :: data /\ cols' = energies_in x wl :: map (map (fun v => v / x)%F) data.
Proof.
  destruct HH as (H1 & H2 & H3 & H4 & H5 & H6 & H7).
  exact (emission_unit n x op op' rs Hx H7 H1 H2 H3 H4 H5 H6 Hr fsqrt fexp HS HE k_B T k_B' T' fuel ks swm Hf Hk Hs es psis HV HL ord ord' Ho Ho' R R' HR HR' HkT HkT' d tOps wl cols rest cols' rest').
Qed.
Lemma photoemission_units d ps ips wl cols rest cols' rest' : d <> 0%F -> Forall (wf_op n) ps -> Forall (wf_op n) ips ->
  photoemission fsqrt fexp k_B fuel (Z.of_nat n) op rs ks swm ord R psis es T wl d ps ips = Ok cols :: rest ->
  photoemission fsqrt fexp k_B' fuel (Z.of_nat n) op' rs ks swm ord' R' psis (energies_in x es) T' (energies_in x wl) (x * d)%F ps ips = Ok cols' :: rest' ->
  exists data, cols = wl :: data /\ cols' = energies_in x wl :: map (map (fun v => v / x)%F) data.
Proof.
  destruct HH as (H1 & H2 & H3 & H4 & H5 & H6 & H7).
  exact (photoemission_unit n x op op' rs Hx H7 H1 H2 H3 H4 H5 H6 Hr fsqrt fexp HS HE k_B T k_B' T' fuel ks swm Hf Hk Hs es psis HV HL ord ord' Ho Ho' R R' HR HR' HkT HkT' d ps ips wl cols rest cols' rest').
Qed.
End C.
End S.
