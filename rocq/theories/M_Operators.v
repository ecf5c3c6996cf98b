(* Model of the operators of impurityModel/ed/finite.py: Coulomb interaction, spin-orbit coupling,
   magnetic field, double counting; of the total Hamiltonian (get_spectra.py, get_spectra_using_CF.py)
   and of the transition operators (spectra.py). *)
From Coq Require Import String.
From Verif Require Import M_Prelude M_Scalar M_PSR M_State M_Basis M_Hamiltonian M_Expect.
Local Open Scope Z_scope.

(* Operators over spin-orbital tuples: ((l,s,m),"c"), ((l,b),"a"), ... *)
Definition sladder := (spinorb * ascii)%type.
Definition sprocess := list sladder.
Definition sop_t (F : ofield) := gop spinorb F.
Definition cre_ (x : spinorb) : sladder := (x, lab_c).
Definition ann_ (x : spinorb) : sladder := (x, lab_a).

#[export] Instance EqB_string : EqB string := { eqb := String.eqb; eqb_spec := String.eqb_spec }.

Section Operators.
Context {F : ofield}.
(* math.sqrt, math.pi *)
Variable fsqrt : F -> F.
Variable pi : F.
(* sympy.physics.wigner.gaunt(l1, l2, l3, m1, m2, m3, prec), converted to float *)
Variable gaunt : Z -> Z -> Z -> Z -> Z -> Z -> F.
Local Open Scope of_scope.

(* (-1) ** m *)
Definition minus1pow (m : Z) : F := if Z.even m then 1 else - (1).

(* finite.py:476-482 *)
Definition gauntC (k l m lp mp : Z) : F :=
  fsqrt (fofZ 4 * pi / fofZ (2 * k + 1)) * minus1pow m * gaunt l k lp (- m)%Z (m - mp)%Z mp.

(* finite.py:485-534 *)
Definition getU (l1 m1 l2 m2 l3 m3 l4 m4 : Z) (R : list F) : F :=
  if (m1 + m2 =? m3 + m4)%Z then
    fold_left (fun u kRk =>
      let k := Z.of_nat (fst kRk) in
      u + snd kRk * gauntC k l1 m1 l4 m4 * gauntC k l3 m3 l2 m2) (enumerate R) 0
  else 0.

Definition zz_eqb (a b : Z * Z) : bool := (fst a =? fst b)%Z && (snd a =? snd b)%Z.

(* finite.py:562-583 *)
Definition lm := (Z * Z)%type.
Definition getNoSpinUop (l1 l2 l3 l4 : Z) (R : list F) : dict (lm * lm * lm * lm) (cx F) :=
  fold_left (fun d m1 => fold_left (fun d m2 => fold_left (fun d m3 => fold_left (fun d m4 =>
    let u := getU l1 m1 l2 m2 l3 m3 l4 m4 R in
    if negb (feqb u 0) then
      dset d ((l1, m1), (l2, m2), (l3, m3), (l4, m4)) (creal (u / fofZ 2))
    else d) (mrange l4) d) (mrange l3) d) (mrange l2) d) (mrange l1) [].

(* finite.py:586-626 *)
Definition getUop (l1 l2 l3 l4 : Z) (R : list F) : sop_t F :=
  fold_left (fun uDict m1 => fold_left (fun uDict m2 => fold_left (fun uDict m3 => fold_left (fun uDict m4 =>
    let u := getU l1 m1 l2 m2 l3 m3 l4 m4 R in
    if negb (feqb u 0) then
      fold_left (fun uDict s => fold_left (fun uDict sp =>
        let proccess := [cre_ (SImp l1 s m1); cre_ (SImp l2 sp m2); ann_ (SImp l3 sp m3); ann_ (SImp l4 s m4)] in
        if negb ((s =? sp)%Z && (zz_eqb (l1, m1) (l2, m2) || zz_eqb (l3, m3) (l4, m4))) then
          dset uDict proccess (creal (u / fofZ 2))
        else uDict) (zrange 2) uDict) (zrange 2) uDict
    else uDict) (mrange l4) uDict) (mrange l3) uDict) (mrange l2) uDict) (mrange l1) [].

(* finite.py:654-681 *)
Definition get2p3dSlaterCondonUop (Fdd Fpp Fpd Gpd : list F) : sop_t F :=
  let FddOp := getUop 2 2 2 2 Fdd in
  let FppOp := getUop 1 1 1 1 Fpp in
  let FpdOp1 := getUop 1 2 2 1 Fpd in
  let FpdOp2 := getUop 2 1 1 2 Fpd in
  let FpdOp := addOps [FpdOp1; FpdOp2] in
  let GpdOp1 := getUop 1 2 1 2 Gpd in
  let GpdOp2 := getUop 2 1 2 1 Gpd in
  let GpdOp := addOps [GpdOp1; GpdOp2] in
  addOps [FddOp; FppOp; FpdOp; GpdOp].

(* finite.py:684-705 *)
Definition getSOCop (xi : F) (l : Z) : sop_t F :=
  let opDict := fold_left (fun opDict m => fold_left (fun opDict s =>
    let value := xi * fofZ m * (if (s =? 1)%Z then 1 / fofZ 2 else - (1) / fofZ 2) in
    dset opDict [cre_ (SImp l s m); ann_ (SImp l s m)] (creal value)) (zrange 2) opDict) (mrange l) [] in
  fold_left (fun opDict m =>
    let value := xi / fofZ 2 * fsqrt (fofZ ((l - m) * (l + m + 1))%Z) in
    let opDict := dset opDict [cre_ (SImp l 1 m); ann_ (SImp l 0 (m + 1)%Z)] (creal value) in
    dset opDict [cre_ (SImp l 0 (m + 1)%Z); ann_ (SImp l 1 m)] (creal value)) (zrange2 (- l) l) opDict.

(* finite.py:708-728.  "+=" on a key just written. *)
Definition gethHfieldop (hx hy hz : F) (l : Z) : sop_t F :=
  fold_left (fun op m =>
    let up := [cre_ (SImp l 1 m); ann_ (SImp l 0 m)] in
    let dn := [cre_ (SImp l 0 m); ann_ (SImp l 1 m)] in
    let op := dset op up (creal (hx / fofZ 2)) in
    let op := dset op dn (creal (hx / fofZ 2)) in
    let op := dadd op up (creal (- hy) * cI / cofZ 2)%C in
    let op := dadd op dn (creal hy * cI / cofZ 2)%C in
    fold_left (fun op s =>
      dset op [cre_ (SImp l s m); ann_ (SImp l s m)]
        (creal (if (s =? 1)%Z then hz / fofZ 2 else - hz / fofZ 2))) (zrange 2) op) (mrange l) [].

(* ---- double counting ---- *)
(* int(x) *)
Variable fint : F -> Z.
Definition is_int (x : F) : bool := feqb (fofZ (fint x)) x.
(* the returned value: a number or a list of two numbers *)
Inductive dc_value := DC1 (d : F) | DC2 (d p : F).

(* finite.py:177-217.  "n2p_i == 6" on None is False. *)
Definition dc_MLFT (n3d_i c : F) (Fdd : list F) (n2p_i : option F) (Fpd Gpd : option (list F)) : res dc_value :=
  if negb (is_int n3d_i) then Err ValueError else
  if match n2p_i with Some n => negb (is_int n) | None => false end then Err ValueError else
  do F0 <- py_nth Fdd 0;
  do F2 <- py_nth Fdd 2;
  do F4 <- py_nth Fdd 4;
  let Udd := F0 - fofZ 14 / fofZ 441 * (F2 + F4) in
  match n2p_i, Fpd, Gpd with
  | None, None, None => Ok (DC1 (Udd * n3d_i - c))
  | Some n2p, Some fpd, Some gpd =>
      if feqb n2p (fofZ 6) then
        do P0 <- py_nth fpd 0;
        do G1 <- py_nth gpd 1;
        do G3 <- py_nth gpd 3;
        let Upd := P0 - 1 / fofZ 15 * G1 - fofZ 3 / fofZ 70 * G3 in
        Ok (DC2 (Udd * n3d_i + Upd * n2p - c) (Upd * (n3d_i + 1) - c))
      else Err ValueError
  | _, _, _ => Err ValueError
  end.

(* ---- crystal-field Hamiltonian ---- *)
Record cf_params := mkCF {
  e_imp : F; e_deltaO_imp : F; e_val_eg : F; e_val_t2g : F; e_con_eg : F; e_con_t2g : F;
  v_val_eg : F; v_val_t2g : F; v_con_eg : F; v_con_t2g : F }.
Definition dec (num den : Z) : F := fofZ num / fofZ den.

(* get_spectra_using_CF.py:566-627, after json.loads: a dictionary of numbers *)
Definition read_h0_CF_file (parameters : dict string F) : cf_params :=
  let get k d := match dget parameters k with Some v => v | None => d end in
  mkCF (get "e_imp"%string (dec (-131796) 100000)) (get "e_deltaO_imp"%string (dec 60422 100000))
       (get "e_val_eg"%string (dec (-44) 10)) (get "e_val_t2g"%string (dec (-65) 10))
       (get "e_con_eg"%string (fofZ 3)) (get "e_con_t2g"%string (fofZ 2))
       (get "v_val_eg"%string (dec 1883 1000)) (get "v_val_t2g"%string (dec 1395 1000))
       (get "v_con_eg"%string (dec 6 10)) (get "v_con_t2g"%string (dec 4 10)).

(* np.fill_diagonal(np.zeros((n, n)), d) *)
Definition diag (d : list F) : mat :=
  map (fun ix => map (fun j => if Nat.eqb j (fst ix) then creal (snd ix) else c0) (seq 0 (length d))) (enumerate d).
(* np.conj(u.T) of an n x n matrix *)
Definition entry (u : mat) (i j : nat) : cx F := nth j (nth i u []) c0.
Definition ctrans (u : mat) : mat :=
  let n := length u in map (fun i => map (fun j => cconj (entry u j i)) (seq 0 n)) (seq 0 n).
(* np.dot of two n x n matrices *)
Definition dot (a b : mat) : mat :=
  let n := length a in
  map (fun i => map (fun j => fold_left (fun s k => s + entry a i k * entry b k j)%C (seq 0 n) c0) (seq 0 n)) (seq 0 n).
(* np.eye(n) *)
Definition eye (n : nat) : mat := diag (repeat 1 n).

Inductive bath_basis := Spherical | Cubic | OtherBasis.

(* the five-fold diagonal (eg, eg, t2g, t2g, t2g) *)
Definition eg_t2g (x y : F) : list F := [x; x; y; y; y].

(* get_spectra_using_CF.py:433-563 after reading the file.
   nBaths[l], nValBaths[l] raise KeyError inside the loops (simplified: looked up once before them;
   the loops are never empty). *)
Definition get_CF_hamiltonian (nBaths : nbaths_t) (nValBaths : nbaths_t) (p : cf_params) (basis : bath_basis) : res (sop_t F) :=
  let e_imp_eg := e_imp p + fofZ 3 / fofZ 5 * e_deltaO_imp p in
  let e_imp_t2g := e_imp p - fofZ 2 / fofZ 5 * e_deltaO_imp p in
  do u <- get_spherical_2_cubic_matrix fsqrt false 2;
  let h_imp_3d := dot u (dot (diag (eg_t2g e_imp_eg e_imp_t2g)) (ctrans u)) in
  do h_imp_3d_operator <-
    fold_res (fun op imi => fold_res (fun op jmj =>
      do h <- mget h_imp_3d (Z.of_nat (fst imi)) (Z.of_nat (fst jmj));
      Ok (if negb (ceqb h c0) then
            fold_left (fun op s => dset op [cre_ (SImp 2 s (snd imi)); ann_ (SImp 2 s (snd jmj))] h) (zrange 2) op
          else op)) (enumerate (mrange 2)) op) (enumerate (mrange 2)) [];
  do u_bath <- match basis with
               | Spherical => Ok u
               | Cubic => Ok (eye (length u))
               | OtherBasis => Err GenericException
               end;
  let vVal3d := dot u_bath (dot (diag (eg_t2g (v_val_eg p) (v_val_t2g p))) (ctrans u)) in
  let vCon3d := dot u_bath (dot (diag (eg_t2g (v_con_eg p) (v_con_t2g p))) (ctrans u)) in
  let eBathVal3d := dot u_bath (dot (diag (eg_t2g (e_val_eg p) (e_val_t2g p))) (ctrans u_bath)) in
  let eBathCon3d := dot u_bath (dot (diag (eg_t2g (e_con_eg p) (e_con_t2g p))) (ctrans u_bath)) in
  do nB <- dgetitem nBaths (KInt 2);
  do nV <- dgetitem nValBaths (KInt 2);
  let bath b := SBath (KInt 2) b in
  let add_bath (v e : cx F) (s mj bi bj : Z) (ops : sop_t F * sop_t F) :=
    let '(h_hopp, e_bath) := ops in
    let h_hopp := if negb (ceqb v c0) then
        dset (dset h_hopp [cre_ (bath bi); ann_ (SImp 2 s mj)] v) [cre_ (SImp 2 s mj); ann_ (bath bi)] (cconj v)
      else h_hopp in
    let e_bath := if negb (ceqb e c0) then dset e_bath [cre_ (bath bi); ann_ (bath bj)] e else e_bath in
    (h_hopp, e_bath) in
  do ops <-
    fold_res (fun ops s => fold_res (fun ops imi => fold_res (fun ops jmj =>
      let i := Z.of_nat (fst imi) in let j := Z.of_nat (fst jmj) in let mj := snd jmj in
      let bi_val := (s * (2 * 2 + 1) + i)%Z in
      let bi_con := (2 * (2 * 2 + 1) + bi_val)%Z in
      let bj_val := (s * (2 * 2 + 1) + j)%Z in
      let bj_con := (2 * (2 * 2 + 1) + bj_val)%Z in
      do vHopp <- mget vVal3d i j;
      do eBath <- mget eBathVal3d i j;
      let ops := add_bath vHopp eBath s mj bi_val bj_val ops in
      if (nB - nV =? 10)%Z then
        do vHopp <- mget vCon3d i j;
        do eBath <- mget eBathCon3d i j;
        Ok (add_bath vHopp eBath s mj bi_con bj_con ops)
      else Ok ops) (enumerate (mrange 2)) ops) (enumerate (mrange 2)) ops) (zrange 2) ([], []);
  Ok (addOps [h_imp_3d_operator; fst ops; snd ops]).

(* ---- total Hamiltonian ---- *)
(* get_spectra.py:389-393 *)
Definition eDCop (dc : list F) : res (sop_t F) :=
  fold_res (fun op ill => fold_res (fun op s => fold_res (fun op m =>
    do d <- nth_res dc (fst ill);
    Ok (dset op [cre_ (SImp (snd ill) s m); ann_ (SImp (snd ill) s m)] (creal (- d))))
    (mrange (snd ill)) op) (zrange 2) op) (enumerate [2; 1]%Z) [].

(* get_spectra.py:411-413: single index notation *)
Definition to_index (nBaths : nbaths_t) (op : sop_t F) : res (op_t F) :=
  fold_res (fun hOp pv =>
    do p <- map_res (fun sa : sladder => do i <- c2i nBaths (fst sa); Ok (i, snd sa)) (fst pv);
    Ok (dset hOp p (snd pv))) op [].

Record ham_params := mkHP {
  hp_Fdd : list F; hp_Fpp : list F; hp_Fpd : list F; hp_Gpd : list F;
  hp_xi_2p : F; hp_xi_3d : F; hp_n0imps : dict Z Z; hp_ctc : F; hp_hx : F; hp_hy : F; hp_hz : F }.

(* get_spectra.py:366-418 and get_spectra_using_CF.py:377-430, from the operator h0 on.  A single
   number instead of a list for dc cannot be indexed; it does not occur since n2p_i is given. *)
Definition total_hamiltonian (nBaths : nbaths_t) (hp : ham_params) (get_h0 : res (sop_t F)) : res (op_t F) :=
  let uOperator := get2p3dSlaterCondonUop (hp_Fdd hp) (hp_Fpp hp) (hp_Fpd hp) (hp_Gpd hp) in
  let SOC2pOperator := getSOCop (hp_xi_2p hp) 1 in
  let SOC3dOperator := getSOCop (hp_xi_3d hp) 2 in
  do n3d <- dgetitem (hp_n0imps hp) 2%Z;
  do n2p <- dgetitem (hp_n0imps hp) 1%Z;
  do dcv <- dc_MLFT (fofZ n3d) (hp_ctc hp) (hp_Fdd hp) (Some (fofZ n2p)) (Some (hp_Fpd hp)) (Some (hp_Gpd hp));
  do dc <- match dcv with DC2 d p => Ok [d; p] | DC1 _ => Err TypeError end;
  do eDCOperator <- eDCop dc;
  let hHfieldOperator := gethHfieldop (hp_hx hp) (hp_hy hp) (hp_hz hp) 2 in
  do h0_operator <- get_h0;
  let hOperator := addOps [uOperator; hHfieldOperator; SOC2pOperator; SOC3dOperator; eDCOperator; h0_operator] in
  do hOp <- to_index nBaths hOperator;
  do _ <- assert_hermitian hOp;
  Ok hOp.
(* get_spectra.py:335-418; h0 is the unpickled operator *)
Definition get_hamiltonian_operator (nBaths : nbaths_t) (hp : ham_params) (h0 : sop_t F) : res (op_t F) :=
  total_hamiltonian nBaths hp (Ok h0).
(* get_spectra_using_CF.py:335-430 *)
Definition get_hamiltonian_operator_using_CF (nBaths nValBaths : nbaths_t) (hp : ham_params)
    (parameters : dict string F) (basis : bath_basis) : res (op_t F) :=
  total_hamiltonian nBaths hp (get_CF_hamiltonian nBaths nValBaths (read_h0_CF_file parameters) basis).

(* ---- transition operators ---- *)
(* nDict[m - mp] of spectra.py:358-362; called with -1, 0, 1 only *)
Definition pol (n0 n1 n2 : F) (d : Z) : res (cx F) :=
  if (d =? -1)%Z then Ok ((creal n0 + cI * creal n1) / creal (fsqrt (fofZ 2)))%C
  else if (d =? 0)%Z then Ok (creal n2)
  else if (d =? 1)%Z then Ok ((creal (- n0) + cI * creal n1) / creal (fsqrt (fofZ 2)))%C
  else Err KeyError.

(* spectra.py:341-382 *)
Definition getDipoleOperator (nBaths : nbaths_t) (n : list F) : res (op_t F) :=
  do n0 <- py_nth n 0;
  do n1 <- py_nth n 1;
  do n2 <- py_nth n 2;
  match dkeys nBaths with
  | [k1; k2] =>
    match k2, k1 with
    | KInt l2, KInt l1 =>
      fold_res (fun tOp m => fold_res (fun tOp mp => fold_res (fun tOp s =>
        if (Z.abs (m - mp) <=? 1)%Z then
          do nd <- pol n0 n1 n2 (m - mp);
          let tij := (creal (gauntC 1 l2 m l1 mp) * nd)%C in
          if negb (ceqb tij c0) then
            do i <- c2i nBaths (SImp l2 s m);
            do j <- c2i nBaths (SImp l1 s mp);
            Ok (dset tOp [(i, lab_c); (j, lab_a)] tij)
          else Ok tOp
        else Ok tOp) (zrange 2) tOp) (mrange l1) tOp) (mrange l2) []
    | _, _ => Err TypeError
    end
  | _ => Err ValueError
  end.
(* spectra.py:302-320 *)
Definition getDipoleOperators (nBaths : nbaths_t) (ns : list (list F)) : res (list (op_t F)) :=
  map_res (getDipoleOperator nBaths) ns.
(* spectra.py:323-338 *)
Definition getDaggeredDipoleOperators (nBaths : nbaths_t) (ns : list (list F)) : res (list (op_t F)) :=
  map_res (fun n => do op <- getDipoleOperator nBaths n; daggerOp op) ns.

(* spectra.py:511-548 *)
Definition getPESOperators (label : ascii) (nBaths : nbaths_t) (l : Z) : res (list (op_t F)) :=
  map_res (fun sm => do i <- c2i nBaths (SImp l (fst sm) (snd sm)); Ok [([(i, label)], c1)])
    (list_prod (zrange 2) (mrange l)).
Definition getInversePhotoEmissionOperators := getPESOperators lab_c.
Definition getPhotoEmissionOperators := getPESOperators lab_a.

(* ---- NIXS ---- *)
(* np.arccos, np.sin, scipy.special.spherical_jn, scipy.special.sph_harm(m, k, phi, theta) *)
Variable arccos fsin : F -> F.
Variable spherical_jn : Z -> F -> F.
Variable sph_harm : Z -> Z -> F -> F -> cx F.

(* np.trapz(y, x) *)
Fixpoint trapz (xy : list (F * cx F)) : cx F :=
  match xy with
  | (x1, y1) :: (((x2, y2) :: _) as rest) => (creal (x2 - x1) * (y1 + y2) / cofZ 2 + trapz rest)%C
  | _ => c0
  end.
(* 1j ** k *)
Definition ipow (k : Z) : cx F :=
  match (k mod 4)%Z with 0%Z => c1 | 1%Z => cI | 2%Z => (- c1)%C | _ => (- cI)%C end.
(* np.linalg.norm(q) of three components *)
Definition norm3 (q0 q1 q2 : F) : F := fsqrt (q0 * q0 + q1 * q1 + q2 * q2).
(* spectra.py:478-483 *)
Definition nixs_theta (q0 q1 q2 : F) : F := arccos (q2 / norm3 q0 q1 q2).
Definition nixs_phi (q0 q1 q2 : F) : F := arccos (q0 / (norm3 q0 q1 q2 * fsin (nixs_theta q0 q1 q2))).
(* np.trapz(np.conj(Ri) * spherical_jn(k, qNorm * r) * Rj * r**2, r) on mesh points (r, (Ri, Rj)) *)
Definition rintegral (k : Z) (qNorm : F) (mesh : list (F * (cx F * cx F))) : cx F :=
  trapz (map (fun p => let r := fst p in
    (r, cconj (fst (snd p)) * creal (spherical_jn k (qNorm * r)) * snd (snd p) * creal (r * r))%C) mesh).

(* spectra.py:437-508.  Simplified: q has three components; r, Ri, Rj have equal lengths. *)
Definition getNIXSOperator (nBaths : nbaths_t) (q0 q1 q2 : F) (li lj : Z) (mesh : list (F * (cx F * cx F)))
    (kmin : Z) : res (op_t F) :=
  let qNorm := norm3 q0 q1 q2 in
  let theta := nixs_theta q0 q1 q2 in
  let phi := nixs_phi q0 q1 q2 in
  fold_res (fun tOp k =>
    if ((li + lj + k) mod 2 =? 0)%Z then
      let Rintegral := rintegral k qNorm mesh in
      fold_res (fun tOp mi => fold_res (fun tOp mj =>
        let m := (mi - mj)%Z in
        if (Z.abs m <=? k)%Z then
          let tij := (Rintegral * (ipow k * creal (fsqrt (fofZ (2 * k + 1)))) * cconj (sph_harm m k phi theta)
                      * creal (gauntC k li mi lj mj))%C in
          if negb (ceqb tij c0) then
            fold_res (fun tOp s =>
              do i <- c2i nBaths (SImp li s mi);
              do j <- c2i nBaths (SImp lj s mj);
              Ok (dadd tOp [(i, lab_c); (j, lab_a)] tij)) (zrange 2) tOp
          else Ok tOp
        else Ok tOp) (mrange lj) tOp) (mrange li) tOp
    else Ok tOp) (zrange2 kmin (Z.abs (li + lj) + 1)) [].
End Operators.
