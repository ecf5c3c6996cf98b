(* Specification of time reversal: an antiunitary map of state vectors that reverses spins and orbital momenta. *)
From Verif Require Import M_Prelude M_Scalar M_PSR M_State M_Basis M_Expect M_Operators S_Fock S_Basis S_Expect S_Operators S_Symmetry.
Local Open Scope Z_scope.

(* (-1)^m *)
Definition parity (m : Z) : Z := if Z.even m then 1 else -1.
(* the occupied orbitals of a configuration *)
Definition occupied (c : config) : list nat := filter (fun i => nth i c false) (seq 0 (length c)).
Definition zprod (l : list Z) : Z := fold_right Z.mul 1 l.

Section T.
(* time reversal of the bath orbitals: orbital b of the bath k goes to bs k b times the orbital bp k b *)
Variable bp bs : bkey -> Z -> Z.
(* |l m up> -> (-1)^m |l -m down>, |l m down> -> -(-1)^m |l -m up> *)
Definition reverse (x : spinorb) : spinorb :=
  match x with SImp l s m => SImp l (1 - s) (- m) | SBath k b => SBath k (bp k b) end.
Definition reverse_sign (x : spinorb) : Z :=
  match x with SImp l s m => if s =? 1 then parity m else - parity m | SBath k b => bs k b end.
(* the bath orbitals come in pairs, and reversing twice changes the sign *)
Definition pairs (nb : nbaths_t) : Prop := forall k n b, In (k, n) nb -> 0 <= b < n ->
  0 <= bp k b < n /\ bp k (bp k b) = b /\ (bs k b = 1 \/ bs k b = -1) /\ bs k (bp k b) = - bs k b.

Variable nb : nbaths_t.
Definition reverse_at (i : nat) : Z := match i2c nb (Z.of_nat i) with Ok x => coord_index nb (reverse x) | Err _ => 0 end.
Definition sign_at (i : nat) : Z := match i2c nb (Z.of_nat i) with Ok x => reverse_sign x | Err _ => 1 end.
Context {F : ofield}.
(* T |c_1^+ c_2^+ ... 0> = (T c_1^+ T^-1)(T c_2^+ T^-1) ... |0>, and T takes complex conjugates of the amplitudes *)
Definition timerev (v : config -> cx F) (t : config) : cx F :=
  csum (fun s => cofZ (zprod (map sign_at (occupied s)) *
                       pelem (map (fun i => (reverse_at i, lab_c)) (occupied s)) t (repeat false (n_orb nb))) * cconj (v s))%C
    (allcfg (n_orb nb)).
(* T A = B T on all state vectors *)
Definition reverses (A B : op_t F) : Prop :=
  forall v t, length t = n_orb nb -> timerev (opv (n_orb nb) A v) t = opv (n_orb nb) B (timerev v) t.
End T.
(* the parameters of the Hamiltonian with the opposite magnetic field *)
Definition opposite_field {F : ofield} (hp : @ham_params F) : @ham_params F :=
  mkHP (hp_Fdd hp) (hp_Fpp hp) (hp_Fpd hp) (hp_Gpd hp) (hp_xi_2p hp) (hp_xi_3d hp) (hp_n0imps hp) (hp_ctc hp)
    (- hp_hx hp)%F (- hp_hy hp)%F (- hp_hz hp)%F.
(* the bath of the crystal-field program: five orbitals of spin 0, five of spin 1, and so on; in the spherical basis orbital i has m = i - 2,
   in the cubic basis the orbitals are real *)
Definition cf_partner (bb : bath_basis) (k : bkey) (b : Z) : Z :=
  match bb with Spherical => 10 * (b / 10) + 9 - b mod 10 | _ => 10 * (b / 10) + (b + 5) mod 10 end.
Definition cf_sign (bb : bath_basis) (k : bkey) (b : Z) : Z :=
  let z := match bb with Spherical => parity (b mod 5) | _ => 1 end in if b mod 10 <? 5 then - z else z.
(* what the Hamiltonian needs of its parameters (C52) *)
Definition ham_set {F : ofield} (fint : F -> Z) (nb : nbaths_t) (hp : @ham_params F) : Prop :=
  (forall z, fint (fofZ z) = z) /\ (exists n3d, dget (hp_n0imps hp) 2 = Some n3d) /\ dget (hp_n0imps hp) 1 = Some 6 /\
  (5 <= length (hp_Fdd hp))%nat /\ (1 <= length (hp_Fpd hp))%nat /\ (4 <= length (hp_Gpd hp))%nat /\ In 1 (angs nb) /\ In 2 (angs nb).
Definition no_field {F : ofield} (hp : @ham_params F) : Prop := hp_hx hp = 0%F /\ hp_hy hp = 0%F /\ hp_hz hp = 0%F.
Definition vdot {F : ofield} (n : nat) (u v : config -> cx F) : cx F := csum (fun t => cconj (u t) * v t)%C (allcfg n).
(* an amplitude only where the number of electrons is odd *)
Definition odd_electrons {F : ofield} (n : nat) (v : config -> cx F) : Prop := forall t, length t = n -> v t <> c0 -> Nat.even (nelec t) = false.
Definition eigenvector {F : ofield} (n : nat) (A : op_t F) (e : F) (v : config -> cx F) : Prop :=
  forall t, length t = n -> opv n A v t = (creal e * v t)%C.
(* the bath of the crystal-field program: ten or twenty states of the shell 2, ten of which are valence states *)
Definition cf_system (nb : nbaths_t) (nv : dict bkey Z) : Prop :=
  wf_nbaths nb /\ NoDup (angs nb) /\ (dget nb (KInt 2) = Some 10 \/ dget nb (KInt 2) = Some 20) /\ dget nv (KInt 2) = Some 10 /\
  Forall (fun kn => snd kn mod 10 = 0) nb.
