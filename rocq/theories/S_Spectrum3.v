(* Specification of RIXS.bin. *)
From Coq Require Import Permutation String.
From Verif Require Import M_Prelude M_Scalar M_PSR M_State M_Mpi M_Hamiltonian M_Basis M_Expect M_Operators M_Main M_Program S_Fock S_Basis S_Expect S_Green S_Ham S_Thermal S_Program S_RIXS S_Spectrum S_RIXS2.

Section Map.
Context {F : ofield}.
Local Open Scope of_scope.
(* The number of incoming energies and their values, then for every energy loss a row of it and, for every incoming energy, the sum over the
   nIn incoming and nOut outgoing operators of the mean of the intensities; I i a b w j is the intensity for eigenstate i, incoming operator
   a, outgoing operator b, incoming energy w and energy loss j.  f32 rounds to single precision. *)
Definition mean_map (fexp f32 : F -> F) (kT : F) (wIn wLoss es : list F) (nIn nOut : nat) (I : nat -> nat -> nat -> nat -> nat -> F) (data : list F) : Prop :=
  exists rows, length rows = length wLoss /\
    data = concat ((f32 (fofZ (Z.of_nat (length wIn))) :: map f32 wIn) :: map (fun xr => f32 (fst xr) :: snd xr) (combine wLoss rows)) /\
    forall j, (j < length wLoss)%nat -> length (nth j rows []) = length wIn /\
      forall w, (w < length wIn)%nat -> nth w (nth j rows []) 0 =
        f32 (ftotal (map (fun a => ftotal (map (fun b => boltzmann_mean fexp kT es (fun i => I i a b w j)) (seq 0 nOut))) (seq 0 nIn))).

Variables fsqrt fexp f32 : F -> F.
Variables k_B pi : F.
Variable gaunt : Z -> Z -> Z -> Z -> Z -> Z -> F.
(* The intensities are -Im of the rows g of the map, with the first outgoing operator for all of them. *)
Definition bin_spec (a : @args F) (ms : @meshes F) (su : @setup F) (es : list F) (psis : list (psi_t F)) (f : string) (data : list F) : Prop :=
  let nb := nbaths_of (su_nBaths su) in
  let n := n_orb nb in
  f = "RIXS.bin"%string /\ exists tIn tOut g, getDipoleOperators fsqrt pi gaunt nb (m_epsilonsRIXSin ms) = Ok tIn /\
    getDaggeredDipoleOperators fsqrt pi gaunt nb (m_epsilonsRIXSout ms) = Ok tOut /\
    (forall h, restricted_op n (su_hOp su) (Some (su_rs su)) h -> forall i ti to w e tI tO wi,
       nth_error es i = Some e -> nth_error tIn ti = Some tI -> hd_error tOut = Some tO -> (to < length tOut)%nat -> nth_error (m_wIn ms) w = Some wi ->
       exists psi, nth_error psis i = Some psi /\
         rixs_row n (su_hOp su) (Some (su_rs su)) h (m_wLoss ms) (a_delta a) (a_deltaRIXS a) 150 (1 / fofZ 10000000) tI tO psi e wi (g i ti to w)) /\
    mean_map fexp f32 (k_B * a_T a) (m_wIn ms) (m_wLoss ms) es (length tIn) (length tOut) (fun i ti to w j => - im (nth j (g i ti to w) c0)) data.
End Map.
