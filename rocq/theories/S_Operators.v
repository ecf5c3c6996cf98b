(* Specification of the operators: conserved quantum numbers, one-particle matrix elements of
   spin-orbit coupling and magnetic field, Coulomb matrix elements. *)
From Verif Require Import M_Prelude M_Scalar M_PSR M_State M_Basis S_Fock S_Ops S_Basis S_Expect M_Expect.
Local Open Scope Z_scope.

(* quantum number added by a process, for orbitals carrying w *)
Definition pcharge {A} (w : A -> Z) (p : list (A * ascii)) : Z :=
  zsum (map (fun xa => if Ascii.eqb (snd xa) "c"%char then w (fst xa) else - w (fst xa)) p).
Definition conserves {F : ofield} {A} (w : A -> Z) (op : gop A F) : Prop := forall p, In p (dkeys op) -> pcharge w p = 0.
(* electron number, orbital projection, twice the spin projection, twice the total projection *)
Definition q_N (x : spinorb) : Z := 1.
Definition q_Lz (x : spinorb) : Z := match x with SImp _ _ m => m | SBath _ _ => 0 end.
Definition q_2Sz (x : spinorb) : Z := match x with SImp _ s _ => 2 * s - 1 | SBath _ _ => 0 end.
Definition q_2Jz (x : spinorb) : Z := 2 * q_Lz x + q_2Sz x.
(* quantum number of a configuration whose orbital number i carries w i *)
Fixpoint charge_from (w : Z -> Z) (i : Z) (c : config) : Z :=
  match c with [] => 0 | b :: c' => (if b then w i else 0) + charge_from w (i + 1) c' end.
Definition charge (w : Z -> Z) (c : config) : Z := charge_from w 0 c.
(* the quantum number carried by orbital number i of the system *)
Definition at_index (nb : nbaths_t) (w : spinorb -> Z) (i : Z) : Z := match i2c nb i with Ok x => w x | Err _ => 0 end.

(* the processes c_x^+ c_y and c_x^+ c_y^+ c_z c_t *)
Definition hop2 (x y : spinorb) : list (spinorb * ascii) := [(x, "c"%char); (y, "a"%char)].
Definition hop4 (x y z t : spinorb) : list (spinorb * ascii) :=
  [(x, "c"%char); (y, "c"%char); (z, "a"%char); (t, "a"%char)].

Section O.
Context {F : ofield}.
Variable fsqrt : F -> F.
(* one-particle matrix elements <x| . |y> *)
Definition onem (f : Z -> Z -> Z -> Z -> cx F) (x y : spinorb) : cx F :=
  match x, y with SImp _ s m, SImp _ s' m' => f s m s' m' | _, _ => c0 end.
Definition when (b : bool) (v : cx F) : cx F := if b then v else c0.
Definition m_Lz := onem (fun s m s' m' => when ((s =? s') && (m =? m')) (cofZ m)).
Definition m_Lp (l : Z) := onem (fun s m s' m' => when ((s =? s') && (m =? m' + 1)) (creal (fsqrt (fofZ (l * (l + 1) - m' * (m' + 1)))))).
Definition m_Lm (l : Z) := onem (fun s m s' m' => when ((s =? s') && (m =? m' - 1)) (creal (fsqrt (fofZ (l * (l + 1) - m' * (m' - 1)))))).
Definition m_Sz := onem (fun s m s' m' => when ((s =? s') && (m =? m')) (if s =? 1 then creal fhalf else - creal fhalf)%C).
Definition m_Sp := onem (fun s m s' m' => when ((s =? 1) && (s' =? 0) && (m =? m')) c1).
Definition m_Sm := onem (fun s m s' m' => when ((s =? 0) && (s' =? 1) && (m =? m')) c1).
(* product of matrices on a shell *)
Definition mm (l : Z) (a b : spinorb -> spinorb -> cx F) (x y : spinorb) : cx F :=
  csum (fun sm => a x (orb l sm) * b (orb l sm) y)%C (sites l).
(* L.S = Lz Sz + (L+ S- + L- S+) / 2 *)
Definition LS (l : Z) (x y : spinorb) : cx F :=
  (mm l m_Lz m_Sz x y + creal fhalf * (mm l (m_Lp l) m_Sm x y + mm l (m_Lm l) m_Sp x y))%C.
(* h.S with Sx = (S+ + S-)/2, Sy = (S+ - S-)/(2i) *)
Definition hS (hx hy hz : F) (x y : spinorb) : cx F :=
  (creal hx * ((m_Sp x y + m_Sm x y) / cofZ 2) + creal hy * ((m_Sp x y - m_Sm x y) / (cofZ 2 * cI)) + creal hz * m_Sz x y)%C.
(* an operator with exactly the processes c_x^+ c_y, x and y in shell l, and the given matrix elements *)
Definition one_body_op (l : Z) (op : gop spinorb F) (h : spinorb -> spinorb -> cx F) : Prop :=
  (forall p, In p (dkeys op) -> exists x y, p = hop2 x y /\ in_shell l x /\ in_shell l y) /\
  (forall x y, in_shell l x -> in_shell l y -> val op (hop2 x y) = h x y).

(* Slater-Condon matrix element of the Coulomb interaction, from coefficients ck k l m l' m' *)
Definition slater (ck : Z -> Z -> Z -> Z -> Z -> F) (R : list F) (x y z t : Z * Z) : F :=
  if snd x + snd y =? snd z + snd t then
    fsum (fun k => nth k R 0 * (ck (Z.of_nat k) (fst x) (snd x) (fst t) (snd t) * ck (Z.of_nat k) (fst z) (snd z) (fst y) (snd y)))%F
      (seq 0 (length R))
  else 0%F.
End O.

(* ---- total Hamiltonian ---- *)
(* all spin-orbitals of the operator belong to the system *)
Definition op_in {F : ofield} (nb : nbaths_t) (op : gop spinorb F) : Prop :=
  Forall (fun pv => Forall (fun xa => coord_ok nb (fst xa)) (fst pv)) op.
(* a process in terms of orbital numbers *)
Definition pidx (nb : nbaths_t) (p : list (spinorb * ascii)) : list (Z * ascii) :=
  map (fun xa => (coord_index nb (fst xa), snd xa)) p.
Section H.
Context {F : ofield}.
(* average Coulomb interactions between two d electrons, and between a p and a d electron *)
Definition U_dd (Fdd : list F) : F := (nth 0 Fdd 0 - fofZ 2 / fofZ 63 * (nth 2 Fdd 0 + nth 4 Fdd 0))%F.
Definition U_pd (Fpd Gpd : list F) : F := (nth 0 Fpd 0 - nth 1 Gpd 0 / fofZ 15 - fofZ 3 * nth 3 Gpd 0 / fofZ 70)%F.
(* potential e1 on shell 1 and e2 on shell 2 *)
Definition level_shift (e1 e2 : F) (p : list (spinorb * ascii)) : cx F :=
  match p with
  | [(SImp l s m, a); (y, b)] =>
      if (l =? 1) && eqb p (hop2 (SImp l s m) (SImp l s m)) then creal e1
      else if (l =? 2) && eqb p (hop2 (SImp l s m) (SImp l s m)) then creal e2 else c0
  | _ => c0
  end.
End H.

(* ---- crystal field ---- *)
Section CF.
Context {F : ofield}.
(* (a d b^+)_ij of 5 x 5 matrices, d diagonal: x on the first two (eg), y on the last three (t2g) *)
Definition rotm (a b : list (list (cx F))) (x y : F) (i j : nat) : cx F :=
  csum (fun k => at_m a i k * creal (if Nat.ltb k 2 then x else y) * cconj (at_m b j k))%C (seq 0 5).
Definition d_orb (s : Z) (i : nat) : spinorb := SImp 2 s (Z.of_nat i - 2).
(* bath state of spin s and orbital i: valence states first, then (from 10) conduction states *)
Definition bath_orb (off s : Z) (i : nat) : spinorb := SBath (KInt 2) (off + 5 * s + Z.of_nat i).
(* twice the spin projection when bath states 0-4, 10-14 are spin 0 and 5-9, 15-19 spin 1 *)
Definition q_2Sz_bath (x : spinorb) : Z :=
  match x with SImp _ s _ => 2 * s - 1 | SBath _ b => 2 * ((b / 5) mod 2) - 1 end.
End CF.

(* ---- transition operators ---- *)
Section T.
Context {F : ofield}.
Variable fsqrt : F -> F.
(* ck k l m l' m' = <l m| C^k_(m-m') |l' m'>;  the Cartesian components of the unit vector r:
   x = (C_-1 - C_1)/sqrt 2, y = i (C_-1 + C_1)/sqrt 2, z = C_0 *)
Variable ck : Z -> Z -> Z -> Z -> Z -> F.
Definition c1q (q : Z) := fun (x y : spinorb) => match x, y with
  | SImp l s m, SImp l' s' m' => when ((s =? s') && (m - m' =? q)) (creal (ck 1 l m l' m')) | _, _ => c0 end.
Definition r_x x y := ((c1q (-1) x y - c1q 1 x y) / creal (fsqrt (fofZ 2)))%C.
Definition r_y x y := (cI * (c1q (-1) x y + c1q 1 x y) / creal (fsqrt (fofZ 2)))%C.
Definition r_z x y := c1q 0 x y.
(* <x| n.r |y> *)
Definition n_dot_r (n0 n1 n2 : F) (x y : spinorb) : cx F := (creal n0 * r_x x y + creal n1 * r_y x y + creal n2 * r_z x y)%C.

(* plane wave between the shells li and lj: sum over k, up to the constant factor sqrt(4 pi) *)
Definition plane_wave (R : Z -> cx F) (Y : Z -> Z -> cx F) (ik : Z -> cx F) (ks : list Z) (x y : spinorb) : cx F :=
  match x, y with
  | SImp l s m, SImp l' s' m' => when (s =? s')
      (csum (fun k => when (Z.even (l + l' + k) && (Z.abs (m - m') <=? k))
         (ik k * creal (fsqrt (fofZ (2 * k + 1))) * R k * cconj (Y k (m - m')%Z) * creal (ck k l m l' m'))) ks)%C
  | _, _ => c0
  end.
End T.
(* op is sum_xy h_xy c_x^+ c_y with x in shell l and y in shell l' *)
Definition is_one_body {F : ofield} (nb : nbaths_t) (op : op_t F) (l l' : Z) (h : spinorb -> spinorb -> cx F) : Prop :=
  NoDup (dkeys op) /\
  (forall p, In p (dkeys op) -> exists x y, p = pidx nb (hop2 x y) /\ in_shell l x /\ in_shell l' y) /\
  (forall x y, in_shell l x -> in_shell l' y -> val op (pidx nb (hop2 x y)) = h x y).

(* unit matrix, and the matrix whose columns are the bath states *)
Definition ident {F : ofield} (n : nat) : list (list (cx F)) :=
  map (fun i => map (fun j => if Nat.eqb j i then c1 else c0) (seq 0 n)) (seq 0 n).
(* a one-particle operator on the d shell and its bath: nv valence bath states (10), perhaps
   followed by conduction states;  eg orbitals are the columns 0, 1 of u, t2g the columns 2, 3, 4 of u;
   the bath states are the columns of ub *)
Record cf_spec {F : ofield} (u ub : list (list (cx F))) (con : bool) (eg t2g ve vt ev_eg ev_t2g vce vct ec_eg ec_t2g : F)
    (op : gop spinorb F) : Prop := {
  cf_imp : forall s s' i j, (s = 0 \/ s = 1) -> (i < 5)%nat -> (j < 5)%nat ->
    val op (hop2 (d_orb s i) (d_orb s' j)) = when (s =? s') (rotm u u eg t2g i j);
  cf_val : forall s s' i j, (s = 0 \/ s = 1) -> (i < 5)%nat -> (j < 5)%nat ->
    val op (hop2 (bath_orb 0 s i) (d_orb s' j)) = when (s =? s') (rotm ub u ve vt i j);
  cf_eval : forall s s' i j, (s = 0 \/ s = 1) -> (s' = 0 \/ s' = 1) -> (i < 5)%nat -> (j < 5)%nat ->
    val op (hop2 (bath_orb 0 s i) (bath_orb 0 s' j)) = when (s =? s') (rotm ub ub ev_eg ev_t2g i j);
  cf_con : con = true -> forall s s' i j, (s = 0 \/ s = 1) -> (i < 5)%nat -> (j < 5)%nat ->
    val op (hop2 (bath_orb 10 s i) (d_orb s' j)) = when (s =? s') (rotm ub u vce vct i j);
  cf_econ : con = true -> forall s s' i j, (s = 0 \/ s = 1) -> (s' = 0 \/ s' = 1) -> (i < 5)%nat -> (j < 5)%nat ->
    val op (hop2 (bath_orb 10 s i) (bath_orb 10 s' j)) = when (s =? s') (rotm ub ub ec_eg ec_t2g i j);
  cf_valcon : con = true -> forall s s' i j, (s = 0 \/ s = 1) -> (s' = 0 \/ s' = 1) -> (i < 5)%nat -> (j < 5)%nat ->
    val op (hop2 (bath_orb 0 s i) (bath_orb 10 s' j)) = c0;
  cf_hops : forall p, In p (dkeys op) -> exists x y, p = hop2 x y /\
    forall z, z = x \/ z = y -> (exists s i, z = d_orb s i /\ (s = 0 \/ s = 1) /\ (i < 5)%nat) \/
      (exists o s i, z = bath_orb o s i /\ (o = 0 \/ (con = true /\ o = 10)) /\ (s = 0 \/ s = 1) /\ (i < 5)%nat) }.

(* the spin-orbitals of a shell: spin down first, then by m *)
Definition shell_list (l : Z) : list spinorb := flat_map (fun s => map (SImp l s) (mrange l)) [0; 1].
(* a vector as the list handed to the code *)
Definition vec3 {F : ofield} (n : F * F * F) : list F := let '(n0, n1, n2) := n in [n0; n1; n2].
