(* Specification of the quantities printed by the program and of the meshes it uses. *)
From Coq Require Import String.
From Verif Require Import M_Prelude M_Scalar M_PSR M_State M_Basis M_Main M_Program S_Fock S_Basis S_Expect S_Thermal S_Print S_Program.

Section Printed.
Context {F : ofield}.
Local Open Scope of_scope.
Variables fsqrt fexp : F -> F.
Variables k_B : F.
Variable nb : nbaths_t.
Variable u : list (list (cx F)).     (* spherical to cubic harmonics *)

(* the elements <c+_(sj,j) c_(si,i)> of the density matrix in cubic harmonics that are larger than tol in absolute value *)
Definition density_elements (tol : F) (psi : psi_t F) (l : list (((Z * Z) * (Z * Z)) * cx F)) : Prop :=
  let element si i sj j v := (0 <= si < 2 /\ 0 <= sj < 2 /\ 0 <= i < 5 /\ 0 <= j < 5)%Z /\
    v = ev (n_orb nb) (one_body nb (cub_hop 2 u sj (Z.to_nat j) si (Z.to_nat i))) psi /\ (tol < 0 \/ tol * tol < cabs2 v) in
  NoDup (map fst l) /\
  (forall si i sj j v, In (((si, i), (sj, j)), v) l -> element si i sj j v) /\
  (forall si i sj j v, element si i sj j v -> v <> c0 -> In (((si, i), (sj, j)), v) l).

(* The twelve outputs before the spectra: averages at 300 K over the states less than 10 k_B 300 K above the lowest one, one row of
   expectation values per state, the largest weights, the density matrices, the energies and the meshes,
   the momentum transfers and the radial function, which is the same for both shells. *)
Definition printed (a : @args F) (ms : @meshes F) (radial : list (F * F)) (e0 : F) (es : list F) (psis : list (psi_t F)) (os : list (output F)) : Prop :=
  exists ws ds,
    os = [ PThermal (map (boltz_mean fexp (k_B * fofZ 300) (selected e0 (fofZ 10 * k_B * fofZ 300) es psis)) (observables fsqrt nb u e0));
           PExpValues (map (fun ep => map (fun f => f ep) (observables fsqrt nb u e0)) (combine es psis));
           PWeights ws; PDensity ds;
           H5 "E" [length es] es; H5 "w" [length (m_w ms)] (m_w ms); H5 "wIn" [length (m_wIn ms)] (m_wIn ms); H5 "wLoss" [length (m_wLoss ms)] (m_wLoss ms);
           H5 "qsNIXS" [length (m_qsNIXS ms); 3%nat] (concat (map (fun q => [fst (fst q); snd (fst q); snd q]) (m_qsNIXS ms)));
           H5 "r" [length radial] (map fst radial); H5 "RiNIXS" [length radial] (map snd radial); H5 "RjNIXS" [length radial] (map snd radial) ] /\
    Forall2 (fun psi p => largest_weights (Z.to_nat (a_nPrintSlaterWeights a)) psi (fst p) (snd p)) psis ws /\
    Forall2 (density_elements (a_tolPrintOccupation a)) psis ds.
End Printed.

Section Meshes.
Context {F : ofield}.
Local Open Scope of_scope.
(* k points from a to b with equal distances *)
Definition even_mesh (a b : F) (k : nat) (l : list F) : Prop :=
  length l = k /\ hd_error l = Some a /\ nth_error l (k - 1) = Some b /\
  forall i x y, nth_error l i = Some x -> nth_error l (S i) = Some y -> (y - x) * fofZ (Z.of_nat (k - 1)) = b - a.
(* a vector along (1,1,1) of length q *)
Definition diagonal_vector (q : F) (v : F * F * F) : Prop :=
  let '(x, y, z) := v in x = y /\ y = z /\ 0 <= x /\ x * x + y * y + z * z = q * q.
(* energies in eV and momentum transfers in inverse a.u.; the polarisations are the unit vectors *)
Definition program_meshes (ms : @meshes F) : Prop :=
  even_mesh (fofZ (-25)) (fofZ 25) 3000 (m_w ms) /\
  even_mesh (fofZ (-2)) (fofZ 12) 4000 (m_wLoss ms) /\
  even_mesh (fofZ (-10)) (fofZ 20) 50 (m_wIn ms) /\
  m_epsilons ms = [[1; 0; 0]; [0; 1; 0]; [0; 0; 1]] /\ m_epsilonsRIXSin ms = m_epsilons ms /\ m_epsilonsRIXSout ms = m_epsilons ms /\
  Forall2 diagonal_vector [fofZ 2; fofZ 7] (m_qsNIXS ms).

(* ---- the accepted command lines ---- *)
Definition accepted (a : @args F) : Prop :=
  length (a_nBaths a) = length (a_ls a) /\ length (a_nValBaths a) = length (a_ls a) /\
  (forall i nB nV, nth_error (a_nBaths a) i = Some nB -> nth_error (a_nValBaths a) i = Some nV -> nV <= nB)%Z /\
  (forall i l n0, nth_error (a_ls a) i = Some l -> nth_error (a_n0imps a) i = Some n0 -> 0 <= n0 <= 2 * (2 * l + 1))%Z /\
  length (a_Fdd a) = 5%nat /\ length (a_Fpp a) = 3%nat /\ length (a_Fpd a) = 3%nat /\ length (a_Gpd a) = 4%nat /\ length (a_hField a) = 3%nat.
Definition accepted_CF (a : @args F) : Prop :=
  accepted a /\ exists rest nB0 nB restB nV0 restV, a_ls a = 1%Z :: 2%Z :: rest /\ a_nBaths a = nB0 :: nB :: restB /\ a_nValBaths a = nV0 :: 10%Z :: restV /\ (nB = 10 \/ nB = 20)%Z.
End Meshes.
