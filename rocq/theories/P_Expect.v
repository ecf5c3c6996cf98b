(* Properties of the expectation values: C42 - C46, C61. *)
From Coq Require Import QArith Qcanon Reals.
From Verif Require Import M_Prelude M_Scalar M_PSR M_State M_Basis M_Expect.
From Verif Require Import S_Fock S_Basis S_Green S_Expect.
From Verif Require Import L_Scalar L_Expect3 L_Cubic L_Expect5 L_Expect6 L_Expect7 X_Util X_Reals.
Local Open Scope Z_scope.

(* ---- C42: two ways to compute Lz, Sz and the occupation ---- *)
Theorem C42_Lz : forall (F : ofield) nb (psi : psi_t F), has_shell nb 2 -> valid_psi (n_orb nb) psi ->
  exists v psi', getLz3d nb psi = Ok v /\ applyLz3d nb psi = Ok psi' /\
    is_op (n_orb nb) (one_body nb (Lz_terms 2)) psi psi' /\ inner psi psi' = creal v.
Proof. exact (@Lz_agree). Qed.
Theorem C42_Sz : forall (F : ofield) nb (psi : psi_t F), has_shell nb 2 -> valid_psi (n_orb nb) psi ->
  exists v psi', getSz3d nb psi = Ok v /\ applySz3d nb psi = Ok psi' /\
    is_op (n_orb nb) (one_body nb (Sz_terms 2)) psi psi' /\ inner psi psi' = creal v.
Proof. exact (@Sz_agree). Qed.
Theorem C42_trace : forall (F : ofield) nb (psi : psi_t F) l, has_shell nb l -> valid_psi (n_orb nb) psi ->
  exists v, getTraceDensityMatrix nb psi l = Ok v /\ creal v = ev (n_orb nb) (one_body nb (N_terms l)) psi /\
    creal v = csum (fun sm => rho nb psi (orb l sm) (orb l sm)) (sites l).
Proof. exact (@trace_agree). Qed.
(* a tuple of angular momenta as key is not supported by these functions *)
Theorem C42_tuple_key : forall (F : ofield) nb (fsqrt : F -> F) (psi : psi_t F) l, ~ int_keys nb ->
  getLz3d nb psi = Err TypeError /\ getSz3d nb psi = Err TypeError /\ getTraceDensityMatrix nb psi l = Err TypeError /\
  getDensityMatrix nb psi l = Err TypeError /\ getEgT2gOccupation fsqrt nb psi = Err TypeError /\ getDensityMatrixCubic fsqrt nb psi = Err TypeError /\
  getLsqr3d fsqrt nb psi = Err TypeError /\ getSsqr3d nb psi = Err TypeError.
Proof. exact (@tuple_keys). Qed.
(* without a 3d shell the operators raise, but Lz and Sz are silently 0 *)
Theorem C42_no_shell : forall (F : ofield) nb (fsqrt : F -> F) (psi : psi_t F), int_keys nb -> ~ In 2 (angs nb) ->
  applyLz3d nb psi = Err GenericException /\ applySz3d nb psi = Err GenericException /\
  applyLplus3d fsqrt nb psi = Err GenericException /\ applyLminus3d fsqrt nb psi = Err GenericException /\
  applySplus3d nb psi = Err GenericException /\ applySminus3d nb psi = Err GenericException /\
  getDensityMatrix nb psi 2 = Err GenericException /\ getEgT2gOccupation fsqrt nb psi = Err GenericException.
Proof. exact (@no_shell). Qed.
Theorem C42_no_shell_zero : forall (F : ofield) nb (psi : psi_t F), wf_nbaths nb -> int_keys nb -> ~ In 2 (angs nb) -> valid_psi (n_orb nb) psi ->
  getLz3d nb psi = Ok 0%F /\ getSz3d nb psi = Ok 0%F.
Proof. exact (@no_shell_Lz). Qed.
Print Assumptions C42_Lz. Print Assumptions C42_Sz. Print Assumptions C42_trace.
Print Assumptions C42_tuple_key. Print Assumptions C42_no_shell. Print Assumptions C42_no_shell_zero.

(* a 3d shell with two bath states *)
Definition ex_3d : nbaths_t := [(KInt 2, 2)].
Example ex_3d_shell : has_shell ex_3d 2 /\ n_orb ex_3d = 12%nat.
Proof.
  split; [|reflexivity]. split; [|split].
  - split; [|split]; repeat constructor; cbn; try lia; intros [].
  - repeat constructor. exists 2. reflexivity.
  - left. reflexivity.
Qed.
Definition ex_cfg (l : list nat) : config := map (fun k => inb k l) (seq 0 12).
(* 3/5 |down -2, down -1, up 2> + 4i/5 |down 0, up 2, bath 1> *)
Definition ex_psi3d : psi_t QcF := [(key (ex_cfg [0; 1; 9]%nat), qr 3 5); (key (ex_cfg [2; 9; 11]%nat), qi 0 1 4 5)].
Lemma ex_psi3d_gen (F : ofield) (a b : cx F) : valid_psi 12 [(key (ex_cfg [0; 1; 9]%nat), a); (key (ex_cfg [2; 9; 11]%nat), b)].
Proof.
  split.
  - apply nodupb_ok. reflexivity.
  - intros k [<-|[<-|[]]]; eexists; (split; [|reflexivity]); reflexivity.
Qed.
Example ex_psi3d_valid : valid_psi (n_orb ex_3d) ex_psi3d.
Proof. apply ex_psi3d_gen. Qed.
Definition res_is (r : res QcF) (a : Z) (b : positive) : bool := match r with Ok x => feqb x (q a b) | Err _ => false end.
Example C42_ex : has_shell ex_3d 2 /\ valid_psi (n_orb ex_3d) ex_psi3d /\
  res_is (getLz3d ex_3d ex_psi3d) 23 25 && res_is (getSz3d ex_3d ex_psi3d) (-9) 50 && res_is (getTraceDensityMatrix ex_3d ex_psi3d 2) 59 25 = true.
Proof. split; [apply ex_3d_shell|]. split; [apply ex_psi3d_valid|]. vm_compute. reflexivity. Qed.
Example C42_tuple_ex : ~ int_keys [(KTup [1; 2], 0)].
Proof. intros H. inversion H as [|? ? [l E] _]. discriminate. Qed.
Example C42_no_shell_ex : wf_nbaths [(KInt 1, 0)] /\ int_keys [(KInt 1, 0)] /\ ~ In 2 (angs [(KInt 1, 0)]).
Proof.
  split; [split; [|split]; repeat constructor; cbn; try lia; intros []|]. split; [repeat constructor; exists 1; reflexivity|].
  intros [E|[]]. discriminate.
Qed.

(* ---- C43: L+- and S+- ---- *)
Theorem C43_Lplus : forall (F : ofield) (fsqrt : F -> F) nb (psi : psi_t F), has_shell nb 2 -> valid_psi (n_orb nb) psi ->
  exists psi', applyLplus3d fsqrt nb psi = Ok psi' /\ is_op (n_orb nb) (one_body nb (Lp_terms fsqrt 2)) psi psi'.
Proof. exact (fun F fsqrt nb psi H => acts_is_op nb H _ _ psi (ok_Lp fsqrt nb H) (acts_Lp fsqrt nb H)). Qed.
Theorem C43_Lminus : forall (F : ofield) (fsqrt : F -> F) nb (psi : psi_t F), has_shell nb 2 -> valid_psi (n_orb nb) psi ->
  exists psi', applyLminus3d fsqrt nb psi = Ok psi' /\ is_op (n_orb nb) (one_body nb (Lm_terms fsqrt 2)) psi psi'.
Proof. exact (fun F fsqrt nb psi H => acts_is_op nb H _ _ psi (ok_Lm fsqrt nb H) (acts_Lm fsqrt nb H)). Qed.
Theorem C43_Splus : forall (F : ofield) nb (psi : psi_t F), has_shell nb 2 -> valid_psi (n_orb nb) psi ->
  exists psi', applySplus3d nb psi = Ok psi' /\ is_op (n_orb nb) (one_body nb (Sp_terms 2)) psi psi'.
Proof. exact (fun F nb psi H => acts_is_op nb H _ _ psi (ok_Sp nb H) (acts_Sp nb H)). Qed.
Theorem C43_Sminus : forall (F : ofield) nb (psi : psi_t F), has_shell nb 2 -> valid_psi (n_orb nb) psi ->
  exists psi', applySminus3d nb psi = Ok psi' /\ is_op (n_orb nb) (one_body nb (Sm_terms 2)) psi psi'.
Proof. exact (fun F nb psi H => acts_is_op nb H _ _ psi (ok_Sm nb H) (acts_Sm nb H)). Qed.
Theorem C43_adjoint_L : forall (F : ofield) (fsqrt : F -> F) nb (phi psi : psi_t F), has_shell nb 2 ->
  valid_psi (n_orb nb) phi -> valid_psi (n_orb nb) psi ->
  exists psi' phi', applyLplus3d fsqrt nb psi = Ok psi' /\ applyLminus3d fsqrt nb phi = Ok phi' /\ inner phi psi' = inner phi' psi.
Proof. exact (fun F fsqrt nb phi psi H => acts_adjoint nb _ _ _ _ phi psi (acts_Lp fsqrt nb H) (acts_Lm fsqrt nb H) (dag_L fsqrt nb)). Qed.
Theorem C43_adjoint_S : forall (F : ofield) nb (phi psi : psi_t F), has_shell nb 2 ->
  valid_psi (n_orb nb) phi -> valid_psi (n_orb nb) psi ->
  exists psi' phi', applySplus3d nb psi = Ok psi' /\ applySminus3d nb phi = Ok phi' /\ inner phi psi' = inner phi' psi.
Proof. exact (fun F nb phi psi H => acts_adjoint nb _ _ _ _ phi psi (acts_Sp nb H) (acts_Sm nb H) (dag_S nb)). Qed.
(* L^2 = Lz^2 + (L-L+ + L+L-)/2, no law of the square root is needed *)
Theorem C43_Lsqr : forall (F : ofield) (fsqrt : F -> F) nb (psi : psi_t F), has_shell nb 2 -> valid_psi (n_orb nb) psi ->
  exists v z zz p mp m pm, getLsqr3d fsqrt nb psi = Ok v /\
    applyLz3d nb psi = Ok z /\ applyLz3d nb z = Ok zz /\ applyLplus3d fsqrt nb psi = Ok p /\ applyLminus3d fsqrt nb p = Ok mp /\
    applyLminus3d fsqrt nb psi = Ok m /\ applyLplus3d fsqrt nb m = Ok pm /\
    creal v = (inner psi zz + creal fhalf * (inner psi mp + inner psi pm))%C /\ (0 <= v)%F.
Proof. exact (fun F fsqrt nb psi H => square_sum nb _ _ _ _ _ _ psi (acts_Lz nb H) (acts_Lp fsqrt nb H) (acts_Lm fsqrt nb H) dag_Lz (dag_L fsqrt nb) (dag_L' fsqrt nb)). Qed.
Theorem C43_Ssqr : forall (F : ofield) nb (psi : psi_t F), has_shell nb 2 -> valid_psi (n_orb nb) psi ->
  exists v z zz p mp m pm, getSsqr3d nb psi = Ok v /\
    applySz3d nb psi = Ok z /\ applySz3d nb z = Ok zz /\ applySplus3d nb psi = Ok p /\ applySminus3d nb p = Ok mp /\
    applySminus3d nb psi = Ok m /\ applySplus3d nb m = Ok pm /\
    creal v = (inner psi zz + creal fhalf * (inner psi mp + inner psi pm))%C /\ (0 <= v)%F.
Proof. exact (fun F nb psi H => square_sum nb _ _ _ _ _ _ psi (acts_Sz nb H) (acts_Sp nb H) (acts_Sm nb H) dag_Sz (dag_S nb) (dag_S' nb)). Qed.
Print Assumptions C43_Lplus. Print Assumptions C43_Lminus. Print Assumptions C43_Splus. Print Assumptions C43_Sminus.
Print Assumptions C43_adjoint_L. Print Assumptions C43_adjoint_S. Print Assumptions C43_Lsqr. Print Assumptions C43_Ssqr.
(* one electron with spin up: S^2 = 1/2 * 3/2 *)
Definition ex_one : psi_t QcF := [(key (ex_cfg [9]%nat), qr 1 1)].
Example C43_ex : has_shell ex_3d 2 /\ valid_psi (n_orb ex_3d) ex_psi3d /\ valid_psi (n_orb ex_3d) ex_one /\
  res_is (getSsqr3d ex_3d ex_one) 3 4 = true.
Proof.
  split; [apply ex_3d_shell|]. split; [apply ex_psi3d_valid|]. split; [|vm_compute; reflexivity].
  split; [repeat constructor; intros []|]. intros k [<-|[]]; eexists; (split; [|reflexivity]); reflexivity.
Qed.

(* ---- C61: the algebra ---- *)
Theorem C61_commutators : forall (F : ofield) nb (fsqrt : F -> F), sqrt_laws fsqrt -> has_shell nb 2 -> forall psi, valid_psi (n_orb nb) psi ->
  commutes_to (n_orb nb) (applyLplus3d fsqrt nb) (applyLminus3d fsqrt nb) (applyLz3d nb) (cofZ 2) psi /\
  commutes_to (n_orb nb) (applyLz3d nb) (applyLplus3d fsqrt nb) (applyLplus3d fsqrt nb) c1 psi /\
  commutes_to (n_orb nb) (applyLz3d nb) (applyLminus3d fsqrt nb) (applyLminus3d fsqrt nb) (- c1)%C psi /\
  commutes_to (n_orb nb) (applySplus3d nb) (applySminus3d nb) (applySz3d nb) (cofZ 2) psi /\
  commutes_to (n_orb nb) (applySz3d nb) (applySplus3d nb) (applySplus3d nb) c1 psi /\
  commutes_to (n_orb nb) (applySz3d nb) (applySminus3d nb) (applySminus3d nb) (- c1)%C psi.
Proof. exact (@commutators). Qed.
Theorem C61_L_S_commute : forall (F : ofield) nb (fsqrt : F -> F), has_shell nb 2 -> forall psi f g, valid_psi (n_orb nb) psi ->
  In f [applyLz3d nb; applyLplus3d fsqrt nb; applyLminus3d fsqrt nb] -> In g [applySz3d nb; applySplus3d nb; applySminus3d nb] ->
  exists q qp p pq, g psi = Ok q /\ f q = Ok qp /\ f psi = Ok p /\ g p = Ok pq /\ forall t, length t = n_orb nb -> amp qp t = amp pq t.
Proof. exact (@commutators_LS). Qed.
Print Assumptions C61_commutators. Print Assumptions C61_L_S_commute.
Example C61_ex : sqrt_laws (F := RF) R_sqrt.sqrt /\ has_shell ex_3d 2 /\
  valid_psi (F := RF) (n_orb ex_3d) [(key (ex_cfg [0; 1; 9]%nat), c1); (key (ex_cfg [2; 9; 11]%nat), cI)].
Proof. split; [apply sqrt_laws_R|]. split; [apply ex_3d_shell|]. apply ex_psi3d_gen. Qed.

(* ---- C44: the density matrix ---- *)
Theorem C44_entries : forall (F : ofield) nb l, has_shell nb l -> forall psi : psi_t F, valid_psi (n_orb nb) psi ->
  exists d, getDensityMatrix nb psi l = Ok d /\
    forall x y v, dget d (x, y) = Some v <-> in_shell l x /\ in_shell l y /\ v = rho nb psi x y /\ v <> c0.
Proof. exact (@density_entries). Qed.
Theorem C44_hermitian : forall (F : ofield) nb l, has_shell nb l -> forall (psi : psi_t F) d, getDensityMatrix nb psi l = Ok d -> valid_psi (n_orb nb) psi ->
  forall x y v, dget d (x, y) = Some v -> dget d (y, x) = Some (cconj v).
Proof. exact (@density_hermitian). Qed.
(* 0 <= rho <= <psi|psi> as matrices; L = [x] gives the diagonal *)
Theorem C44_positive : forall (F : ofield) nb l, has_shell nb l -> forall (psi : psi_t F) d (z : spinorb -> cx F) L,
  getDensityMatrix nb psi l = Ok d -> valid_psi (n_orb nb) psi -> Forall (in_shell l) L -> NoDup L ->
  exists r, csum (fun x => csum (fun y => z x * cconj (z y) * dval d (x, y))%C L) L = creal r /\
    (0 <= r)%F /\ (r <= fsum (fun x => cabs2 (z x)) L * norm2 psi)%F.
Proof. exact (@density_positive). Qed.
Theorem C44_trace : forall (F : ofield) nb l, has_shell nb l -> forall (psi : psi_t F) d v,
  getDensityMatrix nb psi l = Ok d -> getTraceDensityMatrix nb psi l = Ok v -> valid_psi (n_orb nb) psi ->
  csum (fun sm => dval d (orb l sm, orb l sm)) (sites l) = creal v.
Proof. exact (@density_trace). Qed.
Print Assumptions C44_entries. Print Assumptions C44_hermitian. Print Assumptions C44_positive. Print Assumptions C44_trace.
(* a state with an off-diagonal element: 3/5 |down -2> + 4i/5 |up 0> *)
Definition ex_two : psi_t QcF := [(key (ex_cfg [0]%nat), qr 3 5); (key (ex_cfg [7]%nat), qi 0 1 4 5)].
Example C44_ex : has_shell ex_3d 2 /\ valid_psi (n_orb ex_3d) ex_two /\
  match getDensityMatrix ex_3d ex_two 2 with
  | Ok d => Nat.eqb (length d) 4 && ceqb (dval d (SImp 2 0 (-2), SImp 2 1 0)) (qi 0 1 (-12) 25) && ceqb (dval d (SImp 2 1 0, SImp 2 1 0)) (qr 16 25)
  | Err _ => false
  end = true.
Proof.
  split; [apply ex_3d_shell|]. split; [|vm_compute; reflexivity].
  split; [apply nodupb_ok; reflexivity|]. intros k [<-|[<-|[]]]; eexists; (split; [|reflexivity]); reflexivity.
Qed.

(* ---- C45: spherical to cubic harmonics ---- *)
Theorem C45_unitary : forall (F : ofield) (fsqrt : F -> F), sqrt_laws fsqrt -> forall sp l, (l = 1 \/ l = 2) ->
  exists u, get_spherical_2_cubic_matrix fsqrt sp l = Ok u /\ unitary (Z.to_nat ((if sp then 2 else 1) * (2 * l + 1))) u.
Proof. exact (@sph2cub_any). Qed.
(* the columns are real functions *)
Theorem C45_real_p : forall (F : ofield) (fsqrt : F -> F), sqrt_laws fsqrt ->
  exists u, get_spherical_2_cubic_matrix fsqrt false 1 = Ok u /\ real_harmonics 1 u.
Proof. exact (fun F fsqrt H => ex_intro _ _ (conj (sph2cub_1 fsqrt) (u3_real fsqrt H))). Qed.
Theorem C45_real_d : forall (F : ofield) (fsqrt : F -> F), sqrt_laws fsqrt ->
  exists u, get_spherical_2_cubic_matrix fsqrt false 2 = Ok u /\ real_harmonics 2 u.
Proof. exact (fun F fsqrt H => ex_intro _ _ (conj (sph2cub_2 fsqrt) (u5_real fsqrt H))). Qed.
Theorem C45_other_l : forall (F : ofield) (fsqrt : F -> F) sp l, l <> 1 -> l <> 2 -> get_spherical_2_cubic_matrix fsqrt sp l = Err UnboundLocalError.
Proof. exact (@sph2cub_err). Qed.
Print Assumptions C45_unitary. Print Assumptions C45_real_p. Print Assumptions C45_real_d. Print Assumptions C45_other_l.
Example C45_ex : sqrt_laws (F := RF) R_sqrt.sqrt /\ 3 <> 1 /\ 3 <> 2.
Proof. split; [apply sqrt_laws_R|]. lia. Qed.

(* ---- C46: cubic density matrix and occupations ---- *)
Theorem C46_occupations : forall (F : ofield) (fsqrt : F -> F) nb, has_shell nb 2 -> sqrt_laws fsqrt -> forall psi, valid_psi (n_orb nb) psi ->
  forall u, get_spherical_2_cubic_matrix fsqrt false 2 = Ok u ->
  exists eg_dn eg_up t2g_dn t2g_up : F, getEgT2gOccupation fsqrt nb psi = Ok [inl eg_dn; inl eg_up; inl t2g_dn; inl t2g_up] /\
    creal eg_dn = csum (fun i => ev (n_orb nb) (one_body nb (cub_terms 2 u 0 i)) psi) [0; 1]%nat /\
    creal eg_up = csum (fun i => ev (n_orb nb) (one_body nb (cub_terms 2 u 1 i)) psi) [0; 1]%nat /\
    creal t2g_dn = csum (fun i => ev (n_orb nb) (one_body nb (cub_terms 2 u 0 i)) psi) [2; 3; 4]%nat /\
    creal t2g_up = csum (fun i => ev (n_orb nb) (one_body nb (cub_terms 2 u 1 i)) psi) [2; 3; 4]%nat /\
    (0 <= eg_dn)%F /\ (eg_dn <= fofZ 2 * norm2 psi)%F /\ (0 <= eg_up)%F /\ (eg_up <= fofZ 2 * norm2 psi)%F /\
    (0 <= t2g_dn)%F /\ (t2g_dn <= fofZ 3 * norm2 psi)%F /\ (0 <= t2g_up)%F /\ (t2g_up <= fofZ 3 * norm2 psi)%F /\
    getTraceDensityMatrix nb psi 2 = Ok (eg_dn + eg_up + t2g_dn + t2g_up)%F.
Proof. exact occ_u. Qed.
Theorem C46_cubic_entries : forall (F : ofield) (fsqrt : F -> F) nb, has_shell nb 2 -> forall psi, valid_psi (n_orb nb) psi ->
  forall u, get_spherical_2_cubic_matrix fsqrt false 2 = Ok u ->
  exists d, getDensityMatrixCubic fsqrt nb psi = Ok d /\
    forall si sj i j, (si = 0 \/ si = 1) -> (sj = 0 \/ sj = 1) -> (i < 5)%nat -> (j < 5)%nat ->
      dval d ((si, Z.of_nat i), (sj, Z.of_nat j)) = ev (n_orb nb) (one_body nb (cub_hop 2 u sj j si i)) psi.
Proof. exact cubic_u. Qed.
Theorem C46_cubic_hermitian : forall (F : ofield) (fsqrt : F -> F) nb, has_shell nb 2 -> forall (psi : psi_t F) d,
  getDensityMatrixCubic fsqrt nb psi = Ok d -> valid_psi (n_orb nb) psi ->
  forall si sj i j, (si = 0 \/ si = 1) -> (sj = 0 \/ sj = 1) -> (i < 5)%nat -> (j < 5)%nat ->
  dval d ((sj, Z.of_nat j), (si, Z.of_nat i)) = cconj (dval d ((si, Z.of_nat i), (sj, Z.of_nat j))).
Proof. exact (@cubic_hermitian). Qed.
Theorem C46_cubic_trace : forall (F : ofield) (fsqrt : F -> F) nb, has_shell nb 2 -> sqrt_laws fsqrt -> forall (psi : psi_t F) d v,
  getDensityMatrixCubic fsqrt nb psi = Ok d -> getTraceDensityMatrix nb psi 2 = Ok v -> valid_psi (n_orb nb) psi ->
  csum (fun s => csum (fun i => dval d ((s, Z.of_nat i), (s, Z.of_nat i))) (seq 0 5)) [0; 1] = creal v.
Proof. exact (@cubic_trace). Qed.
Print Assumptions C46_occupations. Print Assumptions C46_cubic_entries. Print Assumptions C46_cubic_hermitian. Print Assumptions C46_cubic_trace.
Example C46_ex : sqrt_laws (F := RF) R_sqrt.sqrt /\ has_shell ex_3d 2 /\
  valid_psi (F := RF) (n_orb ex_3d) [(key (ex_cfg [0; 1; 9]%nat), c1); (key (ex_cfg [2; 9; 11]%nat), cI)] /\
  exists u, get_spherical_2_cubic_matrix (F := RF) R_sqrt.sqrt false 2 = Ok u.
Proof. split; [apply sqrt_laws_R|]. split; [apply ex_3d_shell|]. split; [apply ex_psi3d_gen|]. eexists. apply sph2cub_2. Qed.
