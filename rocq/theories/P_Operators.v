(* Properties of the operators: C47 - C52, C56, C58. *)
From Coq Require Import QArith Qcanon Reals.
From Verif Require Import M_Prelude M_Scalar M_PSR M_State M_Basis M_Expect M_Operators M_Program.
From Verif Require Import S_Fock S_Ops S_Basis S_Green S_Expect S_Operators S_NIXS.
From Verif Require Import L_Scalar L_Fock L_Operators L_Operators2 L_Operators3 L_Operators4 L_Operators5 L_Operators6 L_Operators7 L_Operators8 L_NIXS L_NIXS2 L_Operators9 L_Operators10 L_Angles X_Util X_Reals X_Ops.
Local Open Scope Z_scope.

(* the two symmetries of the Gaunt coefficients that are used:
   exchange of the first and third pair, and reversal of all projections *)
Definition gaunt_laws {F : ofield} (gaunt : Z -> Z -> Z -> Z -> Z -> Z -> F) : Prop :=
  (forall l1 l2 l3 m1 m2 m3, gaunt l1 l2 l3 m1 m2 m3 = gaunt l3 l2 l1 m3 m2 m1) /\
  (forall l1 l2 l3 m1 m2 m3, gaunt l1 l2 l3 (- m1) (- m2) (- m3) = gaunt l1 l2 l3 m1 m2 m3).
Example toy_gaunt_laws : forall F : ofield, gaunt_laws (@toy_gaunt F).
Proof. intros F. split; intros; [apply toy_swap|apply toy_neg]. Qed.

(* ---- C47: spin-orbit coupling and magnetic field ---- *)
Theorem C47_SOC_hermitian : forall (F : ofield) (fsqrt : F -> F) xi l, assert_hermitian (getSOCop fsqrt xi l) = Ok tt.
Proof. exact (@soc_hermitian). Qed.
Theorem C47_SOC_conserves : forall (F : ofield) (fsqrt : F -> F) xi l,
  conserves q_N (getSOCop fsqrt xi l) /\ conserves q_2Jz (getSOCop fsqrt xi l).
Proof. exact (@soc_conserves). Qed.
Theorem C47_SOC_is_LS : forall (F : ofield) (fsqrt : F -> F) xi l,
  one_body_op l (getSOCop fsqrt xi l) (fun x y => (creal xi * LS fsqrt l x y)%C).
Proof. exact (@soc_matrix). Qed.
Theorem C47_field_hermitian : forall (F : ofield) (hx hy hz : F) l, assert_hermitian (gethHfieldop hx hy hz l) = Ok tt.
Proof. exact (@fld_hermitian). Qed.
Theorem C47_field_conserves : forall (F : ofield) (hx hy hz : F) l,
  conserves q_N (gethHfieldop hx hy hz l) /\ conserves q_Lz (gethHfieldop hx hy hz l).
Proof. exact (@fld_conserves). Qed.
Theorem C47_field_is_hS : forall (F : ofield) (hx hy hz : F) l, one_body_op l (gethHfieldop hx hy hz l) (hS hx hy hz).
Proof. exact (@fld_matrix). Qed.
Print Assumptions C47_SOC_hermitian. Print Assumptions C47_SOC_conserves. Print Assumptions C47_SOC_is_LS.
Print Assumptions C47_field_hermitian. Print Assumptions C47_field_conserves. Print Assumptions C47_field_is_hS.
(* xi = 2, l = 2: <up 1|xi L.S|down 2> = sqrt 4, <up 2|..|up 2> = 2; field (1,2,3): <up|h.S|down> = (1 - 2i)/2 *)
Example C47_ex : res_op_val (Ok (getSOCop qsqrt (q 2 1) 2)) (hop2 (SImp 2 1 1) (SImp 2 0 2)) (qr 2 1) &&
  res_op_val (Ok (getSOCop qsqrt (q 2 1) 2)) (hop2 (SImp 2 1 2) (SImp 2 1 2)) (qr 2 1) &&
  res_op_val (Ok (getSOCop qsqrt (q 2 1) 2)) (hop2 (SImp 2 0 2) (SImp 2 0 2)) (qr (-2) 1) &&
  res_op_val (Ok (gethHfieldop (q 1 1) (q 2 1) (q 3 1) 2)) (hop2 (SImp 2 1 0) (SImp 2 0 0)) (qi 1 2 (-1) 1) &&
  res_op_val (Ok (gethHfieldop (q 1 1) (q 2 1) (q 3 1) 2)) (hop2 (SImp 2 0 0) (SImp 2 0 0)) (qr (-3) 2) = true.
Proof. vm_compute. reflexivity. Qed.

(* ---- C48: Coulomb interaction ---- *)
Theorem C48_elements : forall (F : ofield) (fsqrt : F -> F) pi gaunt l1 l2 l3 l4 R p v,
  dget (getUop fsqrt pi gaunt l1 l2 l3 l4 R) p = Some v <->
  exists m1 m2 m3 m4 s sp, let x := SImp l1 s m1 in let y := SImp l2 sp m2 in let z := SImp l3 sp m3 in let t := SImp l4 s m4 in
    let u := slater (gauntC fsqrt pi gaunt) R (l1, m1) (l2, m2) (l3, m3) (l4, m4) in
    in_shell l1 x /\ in_shell l2 y /\ in_shell l3 z /\ in_shell l4 t /\ x <> y /\ z <> t /\ u <> 0%F /\
    p = hop4 x y z t /\ v = creal (u / fofZ 2)%F.
Proof. exact (@u_elements). Qed.
Theorem C48_conserves : forall (F : ofield) (fsqrt : F -> F) pi gaunt l1 l2 l3 l4 R,
  let op := getUop fsqrt pi gaunt l1 l2 l3 l4 R in conserves q_N op /\ conserves q_Lz op /\ conserves q_2Sz op.
Proof. exact (@u_conserves). Qed.
Theorem C48_no_double : forall (F : ofield) (fsqrt : F -> F) pi gaunt l1 l2 l3 l4 R p,
  In p (dkeys (getUop fsqrt pi gaunt l1 l2 l3 l4 R)) ->
  exists x y z t, p = hop4 x y z t /\ x <> y /\ z <> t /\ in_shell l1 x /\ in_shell l2 y /\ in_shell l3 z /\ in_shell l4 t.
Proof. exact (@u_no_double). Qed.
Theorem C48_adjoint : forall (F : ofield) (fsqrt : F -> F) pi gaunt, gaunt_laws gaunt -> forall l1 l2 l3 l4 R p v,
  dget (getUop fsqrt pi gaunt l1 l2 l3 l4 R) p = Some v -> dget (getUop fsqrt pi gaunt l4 l3 l2 l1 R) (dag p) = Some (cconj v).
Proof. exact (fun F fsqrt pi gaunt H => u_dag fsqrt pi gaunt (proj1 H) (proj2 H)). Qed.
Theorem C48_2p3d_sum : forall (F : ofield) (fsqrt : F -> F) pi gaunt Fdd Fpp Fpd Gpd p,
  let U := getUop fsqrt pi gaunt in
  val (get2p3dSlaterCondonUop fsqrt pi gaunt Fdd Fpp Fpd Gpd) p =
  (val (U 2 2 2 2 Fdd) p + val (U 1 1 1 1 Fpp) p + (val (U 1 2 2 1 Fpd) p + val (U 2 1 1 2 Fpd) p) +
   (val (U 1 2 1 2 Gpd) p + val (U 2 1 2 1 Gpd) p))%C.
Proof. exact (@pd_sum). Qed.
Theorem C48_2p3d_hermitian : forall (F : ofield) (fsqrt : F -> F) pi gaunt, gaunt_laws gaunt -> forall Fdd Fpp Fpd Gpd,
  assert_hermitian (get2p3dSlaterCondonUop fsqrt pi gaunt Fdd Fpp Fpd Gpd) = Ok tt.
Proof. exact (fun F fsqrt pi gaunt H => pd_hermitian fsqrt pi gaunt (proj1 H) (proj2 H)). Qed.
Theorem C48_2p3d_conserves : forall (F : ofield) (fsqrt : F -> F) pi gaunt Fdd Fpp Fpd Gpd,
  let op := get2p3dSlaterCondonUop fsqrt pi gaunt Fdd Fpp Fpd Gpd in conserves q_N op /\ conserves q_Lz op /\ conserves q_2Sz op.
Proof. exact (@pd_conserves). Qed.
(* what a conserving operator does to a state: it stays in its sector *)
Theorem C48_sector : forall (F : ofield) n w (op : op_t F) psi psi', wf_op n op -> conserves w op -> valid_psi n psi -> is_op n op psi psi' ->
  forall q, (forall s, length s = n -> amp psi s <> c0 -> charge w s = q) ->
  forall t, length t = n -> amp psi' t <> c0 -> charge w t = q.
Proof. exact (@applyOp_charge). Qed.
Print Assumptions C48_elements. Print Assumptions C48_conserves. Print Assumptions C48_no_double. Print Assumptions C48_adjoint.
Print Assumptions C48_2p3d_sum. Print Assumptions C48_2p3d_hermitian. Print Assumptions C48_2p3d_conserves. Print Assumptions C48_sector.
(* coefficients with the required symmetries; a process with a non-zero element *)
Example C48_ex : gaunt_laws (@toy_gaunt QcF) /\
  existsb (fun pv => eqb (fst pv) (hop4 (SImp 1 0 1) (SImp 1 1 0) (SImp 1 1 1) (SImp 1 0 0)) && negb (ceqb (snd pv) c0))
    (getUop qsqrt (q 3 1) toy_gaunt 1 1 1 1 [q 1 1; q 0 1; q 2 1]) = true.
Proof. split; [apply toy_gaunt_laws|vm_compute; reflexivity]. Qed.
(* an operator moving an electron between equal charges, and a state of charge 1 *)
Example C48_sector_ex : wf_op 3 [([(0, "c"%char); (2, "a"%char)], qr 1 1)] /\
  conserves (fun i => if i =? 1 then 2 else 1) [([(0, "c"%char); (2, "a"%char)], qr 1 1)] /\
  valid_psi 3 [(key [false; false; true], qr 1 1)] /\ charge (fun i => if i =? 1 then 2 else 1) [false; false; true] = 1.
Proof.
  split; [apply wf_opb_ok; reflexivity|]. split; [intros p [<-|[]]; reflexivity|]. split; [apply valid_psib_ok; reflexivity|reflexivity].
Qed.

(* ---- C49: dipole operators ---- *)
Theorem C49_dipole : forall (F : ofield) (fsqrt : F -> F) pi gaunt nb, wf_nbaths nb -> forall l1 l2, dkeys nb = [KInt l1; KInt l2] ->
  forall n0 n1 n2 rest, fsqrt (fofZ 2) <> 0%F ->
  exists op, getDipoleOperator fsqrt pi gaunt nb (n0 :: n1 :: n2 :: rest) = Ok op /\
    is_one_body nb op l2 l1 (n_dot_r fsqrt (gauntC fsqrt pi gaunt) n0 n1 n2).
Proof. exact (@dip_ok). Qed.
Theorem C49_selection : forall (F : ofield) (fsqrt : F -> F) pi gaunt nb, wf_nbaths nb -> forall l1 l2, dkeys nb = [KInt l1; KInt l2] ->
  forall n0 n1 n2 rest op p, getDipoleOperator fsqrt pi gaunt nb (n0 :: n1 :: n2 :: rest) = Ok op -> In p (dkeys op) ->
  exists s m m', p = pidx nb (hop2 (SImp l2 s m) (SImp l1 s m')) /\ in_shell l2 (SImp l2 s m) /\ in_shell l1 (SImp l1 s m') /\ Z.abs (m - m') <= 1.
Proof. exact (@dip_selection). Qed.
Theorem C49_linear : forall (F : ofield) (fsqrt : F -> F) pi gaunt nb, wf_nbaths nb -> forall l1 l2, dkeys nb = [KInt l1; KInt l2] ->
  fsqrt (fofZ 2) <> 0%F -> forall a b x0 x1 x2 y0 y1 y2, exists ox oy oz,
  getDipoleOperator fsqrt pi gaunt nb [x0; x1; x2] = Ok ox /\ getDipoleOperator fsqrt pi gaunt nb [y0; y1; y2] = Ok oy /\
  getDipoleOperator fsqrt pi gaunt nb [a * x0 + b * y0; a * x1 + b * y1; a * x2 + b * y2]%F = Ok oz /\
  forall p, val oz p = (creal a * val ox p + creal b * val oy p)%C.
Proof. exact (@dip_linear). Qed.
Theorem C49_all : forall (F : ofield) (fsqrt : F -> F) pi gaunt nb, wf_nbaths nb -> forall l1 l2, dkeys nb = [KInt l1; KInt l2] ->
  fsqrt (fofZ 2) <> 0%F -> forall ns, exists ops, getDipoleOperators fsqrt pi gaunt nb (map vec3 ns) = Ok ops /\
  Forall2 (fun n op => is_one_body nb op l2 l1 (let '(n0, n1, n2) := n in n_dot_r fsqrt (gauntC fsqrt pi gaunt) n0 n1 n2)) ns ops.
Proof. exact (@dip_all). Qed.
Theorem C49_daggered : forall (F : ofield) (fsqrt : F -> F) pi gaunt nb, wf_nbaths nb -> forall l1 l2, dkeys nb = [KInt l1; KInt l2] ->
  fsqrt (fofZ 2) <> 0%F -> forall ns, exists ds, getDaggeredDipoleOperators fsqrt pi gaunt nb (map vec3 ns) = Ok ds /\
  Forall2 (fun n d => is_one_body nb d l1 l2 (fun y x => cconj ((let '(n0, n1, n2) := n in n_dot_r fsqrt (gauntC fsqrt pi gaunt) n0 n1 n2) x y)) /\
    exists op, getDipoleOperator fsqrt pi gaunt nb (vec3 n) = Ok op /\ daggerOp op = Ok d) ns ds.
Proof. exact (@dip_dag_all). Qed.
Theorem C49_well_formed : forall (F : ofield) nb, wf_nbaths nb -> forall (op : op_t F) l l' h, In l (angs nb) -> In l' (angs nb) ->
  is_one_body nb op l l' h -> wf_op (n_orb nb) op.
Proof. exact (@one_body_wf). Qed.
Theorem C49_short_polarisation : forall (F : ofield) (fsqrt : F -> F) pi gaunt nb n, (length n < 3)%nat ->
  getDipoleOperator fsqrt pi gaunt nb n = Err IndexError.
Proof. exact (@dip_short). Qed.
Theorem C49_not_two_shells : forall (F : ofield) (fsqrt : F -> F) pi gaunt nb, wf_nbaths nb -> forall n, (3 <= length n)%nat -> length nb <> 2%nat ->
  getDipoleOperator fsqrt pi gaunt nb n = Err ValueError.
Proof. exact (@dip_keys). Qed.
Print Assumptions C49_dipole. Print Assumptions C49_selection. Print Assumptions C49_linear. Print Assumptions C49_all.
Print Assumptions C49_daggered. Print Assumptions C49_well_formed. Print Assumptions C49_short_polarisation. Print Assumptions C49_not_two_shells.
(* sqrt replaced by a non-zero constant; x polarisation: <up 1|T|up 0> = - ck / sqrt 2 *)
Example C49_ex : wf_nbaths (pd_baths 10) /\ dkeys (pd_baths 10) = [KInt 1; KInt 2] /\ (fun _ : QcF => q 2 1) (fofZ 2) <> 0%F /\
  res_op_val (getDipoleOperator (fun _ => q 2 1) (q 3 1) toy_gaunt (pd_baths 10) [q 1 1; q 0 1; q 0 1])
    (pidx (pd_baths 10) (hop2 (SImp 2 1 1) (SImp 1 1 0))) (qr 3 1) = true.
Proof.
  split; [apply pd_wf; lia|]. split; [reflexivity|]. split; [|vm_compute; reflexivity].
  intros C. apply (f_equal (fun x => feqb x 0%F)) in C. vm_compute in C. discriminate.
Qed.

(* ---- C50: NIXS ---- *)
Theorem C50_matrix_elements : forall (F : ofield) (fsqrt : F -> F) pi gaunt arccos fsin spherical_jn sph_harm nb, wf_nbaths nb ->
  forall li lj, In li (angs nb) -> In lj (angs nb) -> forall q0 q1 q2 mesh kmin, exists op,
  getNIXSOperator fsqrt pi gaunt arccos fsin spherical_jn sph_harm nb q0 q1 q2 li lj mesh kmin = Ok op /\
  is_one_body nb op li lj
    (plane_wave fsqrt (gauntC fsqrt pi gaunt) (radial_int spherical_jn (fsqrt (q0 * q0 + q1 * q1 + q2 * q2)%F) mesh)
       (fun k m => sph_harm m k (nixs_phi fsqrt arccos fsin q0 q1 q2) (nixs_theta fsqrt arccos q0 q1 q2)) i_power
       (zrange2 kmin (Z.abs (li + lj) + 1))).
Proof. exact (@nixs_elements). Qed.
(* The program leaves the monopole k = 0 out, whatever the scattering vectors. *)
Theorem C50_program_operators : forall (F : ofield) (fsqrt : F -> F) pi gaunt arccos fsin spherical_jn sph_harm nb, wf_nbaths nb ->
  forall li lj, In li (angs nb) -> In lj (angs nb) -> forall qs mesh, exists ops,
  getNIXSOperators fsqrt arccos fsin pi gaunt spherical_jn sph_harm nb qs li lj mesh = Ok ops /\
  Forall2 (fun q op => let '(q0, q1, q2) := q in is_one_body nb op li lj
    (plane_wave fsqrt (gauntC fsqrt pi gaunt) (radial_int spherical_jn (fsqrt (q0 * q0 + q1 * q1 + q2 * q2)%F) mesh)
       (fun k m => sph_harm m k (nixs_phi fsqrt arccos fsin q0 q1 q2) (nixs_theta fsqrt arccos q0 q1 q2)) i_power
       (zrange2 1 (Z.abs (li + lj) + 1)))) qs ops.
Proof. exact (@nixs_all). Qed.
(* full statement: for every (q0, q1, q2) not parallel to z,
   q0 = |q| sin th cos ph, q1 = |q| sin th sin ph and q2 = |q| cos th.
   True only with |q1| in place of q1: *)
Theorem C50_angles_partial : forall q0 q1 q2 : R, (q0 <> 0 \/ q1 <> 0)%R ->
  let th := @nixs_theta RF sqrt acos q0 q1 q2 in let ph := @nixs_phi RF sqrt acos sin q0 q1 q2 in
  let n := sqrt (q0 * q0 + q1 * q1 + q2 * q2) in
  (n * sin th * cos ph = q0 /\ n * sin th * sin ph = Rabs q1 /\ n * cos th = q2)%R.
Proof. exact angles_abs. Qed.
Theorem C50_angles_refuted : exists q0 q1 q2 : R, (q0 <> 0 \/ q1 <> 0)%R /\
  let th := @nixs_theta RF sqrt acos q0 q1 q2 in let ph := @nixs_phi RF sqrt acos sin q0 q1 q2 in
  let n := sqrt (q0 * q0 + q1 * q1 + q2 * q2) in (n * sin th * sin ph <> q1)%R.
Proof. exact angles_wrong. Qed.
(* q and its mirror image in the x-z plane give the same operator *)
Theorem C50_mirror : forall (F : ofield) (fsqrt : F -> F) pi gaunt arccos fsin spherical_jn sph_harm nb li lj q0 q1 q2 mesh kmin,
  getNIXSOperator fsqrt pi gaunt arccos fsin spherical_jn sph_harm nb q0 (- q1)%F q2 li lj mesh kmin =
  getNIXSOperator fsqrt pi gaunt arccos fsin spherical_jn sph_harm nb q0 q1 q2 li lj mesh kmin.
Proof. exact (@nixs_mirror). Qed.
Print Assumptions C50_matrix_elements. Print Assumptions C50_program_operators. Print Assumptions C50_angles_partial. Print Assumptions C50_angles_refuted. Print Assumptions C50_mirror.
Example C50_ex : wf_nbaths (pd_baths 10) /\ In 2 (angs (pd_baths 10)) /\ In 1 (angs (pd_baths 10)).
Proof. split; [apply pd_wf; lia|]. cbn. auto. Qed.
(* the mesh 0, 1, 3 with R = 1 and j = 1: 1 (0 + 1)/2 + 2 (1 + 9)/2 *)
Example C50_radial_ex : ceqb (radial_int (F := QcF) (fun _ _ => q 1 1) (q 5 1) (map (fun r => (q r 1, (qr 1 1, qr 1 1))) [0; 1; 3]) 2) (qr 21 2) && ceqb (i_power (F := QcF) 3) (qi 0 1 (-1) 1) = true.
Proof. vm_compute. reflexivity. Qed.
Example C50_angles_ex : (1 <> 0 \/ -1 <> 0)%R.
Proof. left. apply R1_neq_R0. Qed.

(* ---- C51: crystal field ---- *)
Theorem C51_CF_hamiltonian : forall (F : ofield) (fsqrt : F -> F), sqrt_laws fsqrt -> forall nb nv p b nB nV,
  b <> OtherBasis -> dget nb (KInt 2) = Some nB -> dget nv (KInt 2) = Some nV ->
  exists op u, get_CF_hamiltonian fsqrt nb nv p b = Ok op /\ NoDup (dkeys op) /\ assert_hermitian op = Ok tt /\
    conserves q_N op /\ conserves q_2Sz_bath op /\
    get_spherical_2_cubic_matrix fsqrt false 2 = Ok u /\ unitary 5 u /\ real_harmonics 2 u /\
    cf_spec u (match b with Spherical => u | _ => ident 5 end) (nB - nV =? 10)
      (e_imp p + fofZ 3 / fofZ 5 * e_deltaO_imp p) (e_imp p - fofZ 2 / fofZ 5 * e_deltaO_imp p)
      (v_val_eg p) (v_val_t2g p) (e_val_eg p) (e_val_t2g p) (v_con_eg p) (v_con_t2g p) (e_con_eg p) (e_con_t2g p) op.
Proof. exact (@CF_spec). Qed.
Theorem C51_in_system : forall (F : ofield) (fsqrt : F -> F) nb nv p b op nB nV,
  b <> OtherBasis -> wf_nbaths nb -> dget nb (KInt 2) = Some nB -> dget nv (KInt 2) = Some nV -> nV = 10 -> nB = 10 \/ nB = 20 ->
  get_CF_hamiltonian fsqrt nb nv p b = Ok op -> op_in nb op /\
  forall q xa k bi, In q (dkeys op) -> In xa q -> fst xa = SBath k bi -> k = KInt 2 /\ 0 <= bi < nB.
Proof. exact (@CF_in_system). Qed.
Theorem C51_other_basis : forall (F : ofield) (fsqrt : F -> F) p nb nv, get_CF_hamiltonian fsqrt nb nv p OtherBasis = Err GenericException.
Proof. exact (@CF_other). Qed.
Theorem C51_no_3d : forall (F : ofield) (fsqrt : F -> F) p nb nv b, b <> OtherBasis -> (dget nb (KInt 2) = None \/ dget nv (KInt 2) = None) ->
  get_CF_hamiltonian fsqrt nb nv p b = Err KeyError.
Proof. exact (@CF_key). Qed.
Print Assumptions C51_CF_hamiltonian. Print Assumptions C51_in_system. Print Assumptions C51_other_basis. Print Assumptions C51_no_3d.
Example C51_ex : @sqrt_laws RF sqrt /\ Spherical <> OtherBasis /\ wf_nbaths (pd_baths 20) /\ dget (pd_baths 20) (KInt 2) = Some 20 /\
  dget (pd_baths 10) (KInt 2) = Some 10 /\ dget (pd_baths 10) (KInt 3) = None.
Proof. split; [apply sqrt_laws_R|]. split; [discriminate|]. split; [apply pd_wf; lia|]. repeat split. Qed.

(* ---- C52: total Hamiltonian ---- *)
Theorem C52_total : forall (F : ofield) fint, (forall z, fint (fofZ z) = z) -> forall (fsqrt : F -> F) pi gaunt, gaunt_laws gaunt ->
  forall nb, wf_nbaths nb -> In 1 (angs nb) -> In 2 (angs nb) -> forall hp n3d,
  dget (hp_n0imps hp) 2 = Some n3d -> dget (hp_n0imps hp) 1 = Some 6 ->
  (5 <= length (hp_Fdd hp))%nat -> (1 <= length (hp_Fpd hp))%nat -> (4 <= length (hp_Gpd hp))%nat ->
  forall h0, NoDup (dkeys h0) -> assert_hermitian h0 = Ok tt -> op_in nb h0 ->
  exists hOp, get_hamiltonian_operator fsqrt pi gaunt fint nb hp h0 = Ok hOp /\ wf_op (n_orb nb) hOp /\ assert_hermitian hOp = Ok tt /\
    (forall q, In q (dkeys hOp) -> exists p, q = pidx nb p /\ Forall (fun xa => coord_ok nb (fst xa)) p) /\
    forall p, Forall (fun xa => coord_ok nb (fst xa)) p ->
      val hOp (pidx nb p) = (val (get2p3dSlaterCondonUop fsqrt pi gaunt (hp_Fdd hp) (hp_Fpp hp) (hp_Fpd hp) (hp_Gpd hp)) p +
        val (gethHfieldop (hp_hx hp) (hp_hy hp) (hp_hz hp) 2) p +
        (val (getSOCop fsqrt (hp_xi_2p hp) 1) p + val (getSOCop fsqrt (hp_xi_3d hp) 2) p) +
        level_shift (- (U_pd (hp_Fpd hp) (hp_Gpd hp) * fofZ (n3d + 1) - hp_ctc hp))
          (- (U_dd (hp_Fdd hp) * fofZ n3d + U_pd (hp_Fpd hp) (hp_Gpd hp) * fofZ 6 - hp_ctc hp)) p +
        val h0 p)%C.
Proof. exact (fun F fint Hf fsqrt pi gaunt H => total_spec fint Hf fsqrt pi gaunt (proj1 H) (proj2 H)). Qed.
Theorem C52_total_CF : forall (F : ofield) fint (fsqrt : F -> F) pi gaunt nb hp, wf_nbaths nb -> forall nv params b nB nV,
  b <> OtherBasis -> dget nb (KInt 2) = Some nB -> dget nv (KInt 2) = Some nV -> nV = 10 -> nB = 10 \/ nB = 20 ->
  exists h0, get_CF_hamiltonian fsqrt nb nv (read_h0_CF_file params) b = Ok h0 /\ NoDup (dkeys h0) /\ assert_hermitian h0 = Ok tt /\ op_in nb h0 /\
    conserves q_N h0 /\
    get_hamiltonian_operator_using_CF fsqrt pi gaunt fint nb nv hp params b = get_hamiltonian_operator fsqrt pi gaunt fint nb hp h0.
Proof. exact (@total_CF). Qed.
Theorem C52_conserves_N : forall (F : ofield) fint, (forall z, fint (fofZ z) = z) -> forall (fsqrt : F -> F) pi gaunt nb hp n3d,
  dget (hp_n0imps hp) 2 = Some n3d -> (5 <= length (hp_Fdd hp))%nat -> wf_nbaths nb -> In 1 (angs nb) -> In 2 (angs nb) ->
  dget (hp_n0imps hp) 1 = Some 6 -> (1 <= length (hp_Fpd hp))%nat -> (4 <= length (hp_Gpd hp))%nat ->
  forall h0 hOp, NoDup (dkeys h0) -> op_in nb h0 -> conserves q_N h0 ->
  get_hamiltonian_operator fsqrt pi gaunt fint nb hp h0 = Ok hOp -> conserves (fun _ => 1) hOp.
Proof. exact (@total_conserves). Qed.
Theorem C52_nonhermitian_rejected : forall (F : ofield) fint, (forall z, fint (fofZ z) = z) -> forall (fsqrt : F -> F) pi gaunt, gaunt_laws gaunt ->
  forall nb, wf_nbaths nb -> In 1 (angs nb) -> In 2 (angs nb) -> forall hp n3d,
  dget (hp_n0imps hp) 2 = Some n3d -> dget (hp_n0imps hp) 1 = Some 6 ->
  (5 <= length (hp_Fdd hp))%nat -> (1 <= length (hp_Fpd hp))%nat -> (4 <= length (hp_Gpd hp))%nat ->
  forall h0 p, NoDup (dkeys h0) -> good_labels h0 -> op_in nb h0 -> Forall good_label p -> Forall (fun xa => coord_ok nb (fst xa)) p ->
  val h0 (dag p) <> cconj (val h0 p) -> get_hamiltonian_operator fsqrt pi gaunt fint nb hp h0 = Err AssertionError.
Proof. exact (fun F fint Hf fsqrt pi gaunt H => total_nonhermitian fint Hf fsqrt pi gaunt (proj1 H) (proj2 H)). Qed.
Theorem C52_outside_rejected : forall (F : ofield) fint, (forall z, fint (fofZ z) = z) -> forall (fsqrt : F -> F) pi gaunt nb hp n3d,
  dget (hp_n0imps hp) 2 = Some n3d -> (5 <= length (hp_Fdd hp))%nat -> wf_nbaths nb ->
  dget (hp_n0imps hp) 1 = Some 6 -> (1 <= length (hp_Fpd hp))%nat -> (4 <= length (hp_Gpd hp))%nat ->
  forall h0 p v xa, NoDup (dkeys h0) -> dget h0 p = Some v -> v <> c0 -> In xa p -> ~ coord_ok nb (fst xa) ->
  get_hamiltonian_operator fsqrt pi gaunt fint nb hp h0 = Err GenericException.
Proof. exact (@total_outside). Qed.
(* both Hamiltonians need a full 2p shell *)
Theorem C52_2p_not_full : forall (F : ofield) fint, (forall z, fint (fofZ z) = z) -> forall (fsqrt : F -> F) pi gaunt nb hp n3d,
  dget (hp_n0imps hp) 2 = Some n3d -> (5 <= length (hp_Fdd hp))%nat -> forall n2p g, dget (hp_n0imps hp) 1 = Some n2p -> n2p <> 6 ->
  total_hamiltonian fsqrt pi gaunt fint nb hp g = Err ValueError.
Proof. exact (@total_2p). Qed.
Print Assumptions C52_total. Print Assumptions C52_total_CF. Print Assumptions C52_conserves_N. Print Assumptions C52_nonhermitian_rejected.
Print Assumptions C52_outside_rejected. Print Assumptions C52_2p_not_full.
Definition ex_h0 (a b : cx QcF) : sop_t QcF :=
  [(hop2 (SImp 2 0 1) (SBath (KInt 2) 3), a); (hop2 (SBath (KInt 2) 3) (SImp 2 0 1), b)].
Definition ex_hp (n2p : Z) : @ham_params QcF :=
  mkHP [q 7 1; q 0 1; q 10 1; q 0 1; q 6 1] [q 0 1; q 0 1; q 0 1] [q 8 1; q 0 1; q 6 1] [q 0 1; q 5 1; q 0 1; q 3 1]
       (q 11 1) (q 1 10) [(1, n2p); (2, 8)] (q 3 2) (q 0 1) (q 0 1) (q 1 100).
Example C52_ex : (forall z, qint (fofZ z) = z) /\ gaunt_laws (@toy_gaunt QcF) /\ wf_nbaths (pd_baths 10) /\ In 1 (angs (pd_baths 10)) /\ In 2 (angs (pd_baths 10)) /\
  dget (hp_n0imps (ex_hp 6)) 2 = Some 8 /\ dget (hp_n0imps (ex_hp 6)) 1 = Some 6 /\ length (hp_Fdd (ex_hp 6)) = 5%nat /\
  length (hp_Fpd (ex_hp 6)) = 3%nat /\ length (hp_Gpd (ex_hp 6)) = 4%nat /\
  NoDup (dkeys (ex_h0 (qi 1 2 1 3) (qi 1 2 (-1) 3))) /\ assert_hermitian (ex_h0 (qi 1 2 1 3) (qi 1 2 (-1) 3)) = Ok tt /\
  op_in (pd_baths 10) (ex_h0 (qi 1 2 1 3) (qi 1 2 (-1) 3)) /\ conserves q_N (ex_h0 (qi 1 2 1 3) (qi 1 2 (-1) 3)).
Proof.
  split; [apply qint_ofZ|]. split; [apply toy_gaunt_laws|]. split; [apply pd_wf; lia|]. split; [cbn; auto|]. split; [cbn; auto|].
  do 5 (split; [reflexivity|]). split; [apply nodupb_ok; reflexivity|]. split; [vm_compute; reflexivity|]. split.
  - repeat (apply Forall_cons || apply Forall_nil); cbn; try (repeat split; auto; lia); exists 10; (split; [auto|lia]).
  - intros p [<-|[<-|[]]]; reflexivity.
Qed.
Example C52_bad_ex : let h0 := ex_h0 (qi 1 2 1 3) (qi 1 2 1 3) in good_labels h0 /\ op_in (pd_baths 10) h0 /\
  val h0 (dag (hop2 (SImp 2 0 1) (SBath (KInt 2) 3))) <> cconj (val h0 (hop2 (SImp 2 0 1) (SBath (KInt 2) 3))) /\
  ~ coord_ok (pd_baths 3) (SBath (KInt 2) 3).
Proof.
  cbv zeta. split; [|split; [|split]].
  - repeat (apply Forall_cons || apply Forall_nil); (left; reflexivity) || (right; reflexivity).
  - repeat (apply Forall_cons || apply Forall_nil); cbn; try (repeat split; auto; lia); exists 10; (split; [auto|lia]).
  - intros C. apply (f_equal (fun x => ceqb x (qi 1 2 (-1) 3))) in C. vm_compute in C. discriminate.
  - intros (n & [E|[E|[]]] & H); inversion E; subst. lia.
Qed.

(* ---- C56: double counting ---- *)
Theorem C56_not_integer : forall (F : ofield) fint (n3d c : F) Fdd n2p Fpd Gpd, (forall z, n3d <> fofZ z) ->
  dc_MLFT fint n3d c Fdd n2p Fpd Gpd = Err ValueError.
Proof. exact (@dc_not_integer). Qed.
Theorem C56_2p_incomplete : forall (F : ofield) fint (n3d c : F) Fdd n2p Fpd Gpd, (5 <= length Fdd)%nat ->
  ~ (n2p = None /\ Fpd = None /\ Gpd = None) -> n2p <> Some (fofZ 6) \/ Fpd = None \/ Gpd = None ->
  dc_MLFT fint n3d c Fdd n2p Fpd Gpd = Err ValueError.
Proof. exact (@dc_2p_incomplete). Qed.
Theorem C56_3d : forall (F : ofield) fint, (forall z, fint (fofZ z) = z) -> forall z (c : F) Fdd, (5 <= length Fdd)%nat ->
  dc_MLFT fint (fofZ z) c Fdd None None None = Ok (DC1 (U_dd Fdd * fofZ z - c)).
Proof. exact (@dc_3d). Qed.
Theorem C56_2p3d : forall (F : ofield) fint, (forall z, fint (fofZ z) = z) -> forall z (c : F) Fdd Fpd Gpd,
  (5 <= length Fdd)%nat -> (1 <= length Fpd)%nat -> (4 <= length Gpd)%nat ->
  dc_MLFT fint (fofZ z) c Fdd (Some (fofZ 6)) (Some Fpd) (Some Gpd) =
  Ok (DC2 (U_dd Fdd * fofZ z + U_pd Fpd Gpd * fofZ 6 - c) (U_pd Fpd Gpd * fofZ (z + 1) - c)).
Proof. exact (@dc_2p3d). Qed.
Print Assumptions C56_not_integer. Print Assumptions C56_2p_incomplete. Print Assumptions C56_3d. Print Assumptions C56_2p3d.
Example C56_ex : (forall z, qint (fofZ z) = z) /\ (forall z, q 1 2 <> fofZ z) /\ (q 7 1 : QcF) <> fofZ 6.
Proof.
  split; [apply qint_ofZ|]. split.
  - intros z C. rewrite qofZ in C. apply (f_equal (fun x : Qc => Qden (this x))) in C. cbn [this Q2Qc] in C. unfold inject_Z in C.
    rewrite (Qred_identity (z # 1)) in C by (apply Z.gcd_1_r). discriminate.
  - intros C. apply (f_equal (fun x : QcF => feqb x (q 7 1))) in C. vm_compute in C. discriminate.
Qed.

(* ---- C58: the photoemission operators are the single ladder operators of the shell ---- *)
Theorem C58_operators : forall (F : ofield) nb, wf_nbaths nb -> forall lab l, In l (angs nb) ->
  getPESOperators lab nb l = Ok (map (fun x => [([(coord_index nb x, lab)], @c1 F)]) (shell_list l)).
Proof. exact (@pes_ok). Qed.
Theorem C58_no_shell : forall (F : ofield) nb lab l, 0 <= l -> ~ In l (angs nb) -> @getPESOperators F lab nb l = Err GenericException.
Proof. exact (fun F => @pes_err F (fun x => x) 0%F (fun _ _ _ _ _ _ => 0%F)). Qed.
Print Assumptions C58_operators. Print Assumptions C58_no_shell.
Example C58_operators_ex : wf_nbaths (pd_baths 10) /\ In 2 (angs (pd_baths 10)) /\ ~ In 3 (angs (pd_baths 10)) /\ length (shell_list 2) = 10%nat.
Proof. split; [apply pd_wf; lia|]. split; [cbn; auto|]. split; [cbn; lia|reflexivity]. Qed.
