(* Specification of continuous symmetries: operators that commute on Fock space, generators of rotations. *)
From Verif Require Import M_Prelude M_Scalar M_PSR M_State M_Basis M_Expect S_Fock S_Basis S_Expect S_Operators.
Local Open Scope Z_scope.

(* the component z of an angular momentum, and the raising and lowering components *)
Inductive component := Cz | Cplus | Cminus.

Section S.
Context {F : ofield}.
(* op acting on a state vector *)
Definition opv (n : nat) (op : op_t F) (v : config -> cx F) (t : config) : cx F := csum (fun s => opelem op t s * v s)%C (allcfg n).
(* A B = B A on all state vectors of n orbitals *)
Definition commute (n : nat) (A B : op_t F) : Prop :=
  forall v t, length t = n -> opv n A (opv n B v) t = opv n B (opv n A v) t.
(* an operator in terms of orbital numbers *)
Definition indexed (nb : nbaths_t) (op : gop spinorb F) : op_t F := map (fun pv => (pidx nb (fst pv), snd pv)) op.
(* sum_xy M_xy c_x^+ c_y over the orbitals O *)
Definition generator (nb : nbaths_t) (O : list spinorb) (M : spinorb -> spinorb -> cx F) : op_t F :=
  one_body nb (flat_map (fun x => map (fun y => ((x, y), M x y)) O) O).
(* the shell l belongs to O and M acts in it as f on (spin, m), without matrix elements to other orbitals *)
Definition acts_in (O : list spinorb) (M : spinorb -> spinorb -> cx F) (l : Z) (f : Z * Z -> Z * Z -> cx F) : Prop :=
  (forall x, in_shell l x -> In x O) /\
  forall x y, In x O -> In y O -> in_shell l x \/ in_shell l y ->
    M x y = match x, y with SImp l1 s m, SImp l2 s' m' => if (l1 =? l) && (l2 =? l) then f (s, m) (s', m') else c0 | _, _ => c0 end.
(* matrices that act only on the spin, or only on m *)
Definition on_spin (a : Z -> Z -> cx F) (x y : Z * Z) : cx F := if snd x =? snd y then a (fst x) (fst y) else c0.
Definition on_m (b : Z -> Z -> cx F) (x y : Z * Z) : cx F := if fst x =? fst y then b (snd x) (snd y) else c0.

Variable fsqrt : F -> F.
(* sqrt(l(l+1) - m(m+1)) and sqrt(l(l+1) - m(m-1)) *)
Definition up_coef (l m : Z) : F := fsqrt (fofZ (l * (l + 1) - m * (m + 1))).
Definition down_coef (l m : Z) : F := fsqrt (fofZ (l * (l + 1) - m * (m - 1))).
(* <l m| L |l m'> *)
Definition ang (l : Z) (c : component) (m m' : Z) : cx F :=
  match c with
  | Cz => if m =? m' then cofZ m else c0
  | Cplus => if m =? m' + 1 then creal (up_coef l m') else c0
  | Cminus => if m =? m' - 1 then creal (down_coef l m') else c0
  end.
(* <s| S |s'>, 1 is spin up *)
Definition half_spin (c : component) (s s' : Z) : cx F :=
  match c with
  | Cz => if s =? s' then (if s =? 1 then creal fhalf else - creal fhalf)%C else c0
  | Cplus => if (s =? 1) && (s' =? 0) then c1 else c0
  | Cminus => if (s =? 0) && (s' =? 1) then c1 else c0
  end.
(* h.S *)
Definition field_spin (hx hy hz : F) (s s' : Z) : cx F :=
  (creal hx * ((half_spin Cplus s s' + half_spin Cminus s s') / cofZ 2) + creal hy * ((half_spin Cplus s s' - half_spin Cminus s s') / (cofZ 2 * cI)) +
   creal hz * half_spin Cz s s')%C.
(* products of 2 x 2 matrices, and those that commute *)
Definition spin_mul (a b : Z -> Z -> cx F) (s s' : Z) : cx F := (a s 0 * b 0 s' + a s 1 * b 1 s')%C.
Definition spin_commute (a b : Z -> Z -> cx F) : Prop :=
  forall s s', (s = 0 \/ s = 1) -> (s' = 0 \/ s' = 1) -> spin_mul a b s s' = spin_mul b a s s'.
(* J = L + S *)
Definition total_ang (l : Z) (c : component) (x y : Z * Z) : cx F := (on_m (ang l c) x y + on_spin (half_spin c) x y)%C.

(* C^k_q with q = m - m' is a tensor operator of rank k between the shells l and l':
   [L+-, C^k_q] = sqrt(k(k+1) - q(q+-1)) C^k_(q+-1); ck k l m l' m' = <l m| C^k_(m-m') |l' m'> *)
Definition tensor_law (ck : Z -> Z -> Z -> Z -> Z -> F) (k l l' : Z) : Prop :=
  forall m m', - l <= m <= l -> - l' <= m' <= l' ->
  (up_coef l (m - 1)%Z * ck k l (m - 1)%Z l' m' - ck k l m l' (m' + 1)%Z * up_coef l' m')%F = (up_coef k (m - m' - 1)%Z * ck k l m l' m')%F /\
  (down_coef l (m + 1)%Z * ck k l (m + 1)%Z l' m' - ck k l m l' (m' - 1)%Z * down_coef l' m')%F = (down_coef k (m - m' + 1)%Z * ck k l m l' m')%F.
(* ... for the multipoles with a non-zero radial integral *)
Definition tensor_laws (ck : Z -> Z -> Z -> Z -> Z -> F) (R : list F) (l l' : Z) : Prop :=
  forall k, (k < length R)%nat -> nth k R 0%F <> 0%F -> tensor_law ck (Z.of_nat k) l l'.
End S.
