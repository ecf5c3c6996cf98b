(* Properties of the spinless Coulomb operator and of the table of Gaunt coefficients: C81. *)
From Coq Require Import QArith Qcanon.
From Verif Require Import M_Prelude M_Scalar M_State M_Basis M_Expect M_Operators M_Gaunt S_Expect S_Operators S_Gaunt L_Gaunt X_Util X_Ops.
Local Open Scope Z_scope.

(* ---- C81: the Coulomb interaction without spin ---- *)
Theorem C81_elements : forall (F : ofield) (fsqrt : F -> F) pi gaunt l1 l2 l3 l4 R p v,
  dget (getNoSpinUop fsqrt pi gaunt l1 l2 l3 l4 R) p = Some v <-> exists m1 m2 m3 m4,
  let u := slater (gauntC fsqrt pi gaunt) R (l1, m1) (l2, m2) (l3, m3) (l4, m4) in
  (- l1 <= m1 <= l1 /\ - l2 <= m2 <= l2 /\ - l3 <= m3 <= l3 /\ - l4 <= m4 <= l4) /\ u <> 0%F /\
  p = ((l1, m1), (l2, m2), (l3, m3), (l4, m4)) /\ v = creal (u / fofZ 2)%F.
Proof. exact (@n_elements). Qed.
Theorem C81_spin : forall (F : ofield) (fsqrt : F -> F) pi gaunt l1 l2 l3 l4 R m1 m2 m3 m4 s sp,
  let x := SImp l1 s m1 in let y := SImp l2 sp m2 in let z := SImp l3 sp m3 in let t := SImp l4 s m4 in
  (s = 0 \/ s = 1) -> (sp = 0 \/ sp = 1) -> x <> y -> z <> t ->
  dget (getUop fsqrt pi gaunt l1 l2 l3 l4 R) (hop4 x y z t) = dget (getNoSpinUop fsqrt pi gaunt l1 l2 l3 l4 R) ((l1, m1), (l2, m2), (l3, m3), (l4, m4)).
Proof. exact (@n_spin). Qed.
Theorem C81_exchange : forall (F : ofield) (fsqrt : F -> F) pi gaunt,
  (forall l1 l2 l3 m1 m2 m3, gaunt l1 l2 l3 m1 m2 m3 = gaunt l3 l2 l1 m3 m2 m1) ->
  (forall l1 l2 l3 m1 m2 m3, gaunt l1 l2 l3 (- m1) (- m2) (- m3) = gaunt l1 l2 l3 m1 m2 m3) -> forall l1 l2 l3 l4 R x y z t,
  dget (getNoSpinUop fsqrt pi gaunt l2 l1 l4 l3 R) (y, x, t, z) = dget (getNoSpinUop fsqrt pi gaunt l1 l2 l3 l4 R) (x, y, z, t).
Proof. exact (@n_exchange). Qed.
Theorem C81_table : forall (F : ofield) (fsqrt : F -> F) pi gaunt l lp, 0 <= l -> 0 <= lp ->
  gaunt_table (gauntC fsqrt pi gaunt) l lp (printGaunt fsqrt pi gaunt 0 l lp).
Proof. exact (@print_table). Qed.
Theorem C81_other_ranks : forall (F : ofield) (fsqrt : F -> F) pi gaunt rank l lp, rank <> 0 -> printGaunt fsqrt pi gaunt rank l lp = [].
Proof. exact (@print_other). Qed.
Print Assumptions C81_elements. Print Assumptions C81_spin. Print Assumptions C81_exchange. Print Assumptions C81_table. Print Assumptions C81_other_ranks.

(* coefficients with the symmetries; an element with and without spin that is not zero; the table has 5 blocks of 7 lines *)
Example C81_ex : (forall l1 l2 l3 m1 m2 m3, @toy_gaunt QcF l1 l2 l3 m1 m2 m3 = toy_gaunt l3 l2 l1 m3 m2 m1) /\
  (forall l1 l2 l3 m1 m2 m3, @toy_gaunt QcF l1 l2 l3 (- m1) (- m2) (- m3) = toy_gaunt l1 l2 l3 m1 m2 m3) /\
  (match dget (getNoSpinUop qsqrt (q 3 1) toy_gaunt 1 1 1 1 [q 1 1; q 0 1; q 2 1]) ((1, 1), (1, 0), (1, 1), (1, 0)),
         dget (getUop qsqrt (q 3 1) toy_gaunt 1 1 1 1 [q 1 1; q 0 1; q 2 1]) (hop4 (SImp 1 0 1) (SImp 1 1 0) (SImp 1 1 1) (SImp 1 0 0)) with
   | Some v, Some w => ceqb v w && negb (ceqb v c0) | _, _ => false end) = true /\
  length (printGaunt qsqrt (q 3 1) toy_gaunt 0 2 2) = 35%nat.
Proof. split; [exact toy_swap|]. split; [exact toy_neg|]. split; vm_compute; reflexivity. Qed.
