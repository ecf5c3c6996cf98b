(* Properties of single values in the files: C99. *)
From Coq Require Import QArith Qcanon Permutation.
From Verif Require Import M_Prelude M_Scalar M_PSR M_Ladder M_State M_Mpi M_Hamiltonian M_Lanczos M_Average M_Spectra M_Simulate.
From Verif Require Import S_Fock S_Ops S_Ham S_Green S_Thermal S_Spectra S_Levels.
From Verif Require Import L_Scalar L_Fock L_Column X_Util P_Fock P_Green P_Spectra P_Levels.
Local Open Scope Z_scope.

(* ---- C99: a value in a file depends on its own operator and its own point of the mesh only ---- *)
(* XAS.dat and NIXS.dat: two runs with other operators, other meshes, other numbers of ranks and other orders of the sets *)
Theorem C99_absorption : forall (F : ofield) (fsqrt fexp : F -> F), sqrt_laws fsqrt -> exp_laws fexp -> forall k_B T n fuel op rs ks swm,
  wf_op n op -> assert_hermitian op = Ok tt -> wf_restr rs -> (2 ^ n < fuel)%nat -> Z.of_nat (2 ^ n) <= ks -> (swm <= 0)%F -> (k_B * T)%F <> 0%F ->
  forall es psis, Forall (valid_psi n) psis -> length psis = length es ->
  forall ord ord' : nat -> nat -> nat -> set_order, (forall t i q l, Permutation (ord t i q l) l) -> (forall t i q l, Permutation (ord' t i q l) l) ->
  forall R R', (1 <= R)%nat -> (1 <= R')%nat ->
  forall w w' delta t t' k k', delta <> 0%F -> (k < length w)%nat -> (k' < length w')%nat -> nth k w 0%F = nth k' w' 0%F ->
  forall tOps tOps' cols rest cols' rest', Forall (wf_op n) tOps -> Forall (wf_op n) tOps' -> (t < length tOps)%nat -> (t' < length tOps')%nat -> nth t tOps [] = nth t' tOps' [] ->
  absorption fsqrt fexp k_B fuel (Z.of_nat n) op rs ks swm ord R psis es T w delta tOps = Ok cols :: rest ->
  absorption fsqrt fexp k_B fuel (Z.of_nat n) op rs ks swm ord' R' psis es T w' delta tOps' = Ok cols' :: rest' ->
  nth k (nth (2 + t) cols []) 0%F = nth k' (nth (2 + t') cols' []) 0%F.
Proof. exact (@column_absorption). Qed.
(* XPS.dat *)
Theorem C99_emission : forall (F : ofield) (fsqrt fexp : F -> F), sqrt_laws fsqrt -> exp_laws fexp -> forall k_B T n fuel op rs ks swm,
  wf_op n op -> assert_hermitian op = Ok tt -> wf_restr rs -> (2 ^ n < fuel)%nat -> Z.of_nat (2 ^ n) <= ks -> (swm <= 0)%F -> (k_B * T)%F <> 0%F ->
  forall es psis, Forall (valid_psi n) psis -> length psis = length es ->
  forall ord ord' : nat -> nat -> nat -> set_order, (forall t i q l, Permutation (ord t i q l) l) -> (forall t i q l, Permutation (ord' t i q l) l) ->
  forall R R', (1 <= R)%nat -> (1 <= R')%nat ->
  forall w w' delta t t' k k', delta <> 0%F -> (k < length w)%nat -> (k' < length w')%nat -> nth k w 0%F = nth k' w' 0%F ->
  forall tOps tOps' cols rest cols' rest', Forall (wf_op n) tOps -> Forall (wf_op n) tOps' -> (t < length tOps)%nat -> (t' < length tOps')%nat -> nth t tOps [] = nth t' tOps' [] ->
  emission fsqrt fexp k_B fuel (Z.of_nat n) op rs ks swm ord R psis es T w delta tOps = Ok cols :: rest ->
  emission fsqrt fexp k_B fuel (Z.of_nat n) op rs ks swm ord' R' psis es T w' delta tOps' = Ok cols' :: rest' ->
  nth k (nth (2 + t) cols []) 0%F = nth k' (nth (2 + t') cols' []) 0%F.
Proof. exact (@column_emission). Qed.
(* PS.dat: the operators of both parts *)
Theorem C99_photoemission : forall (F : ofield) (fsqrt fexp : F -> F), sqrt_laws fsqrt -> exp_laws fexp -> forall k_B T n fuel op rs ks swm,
  wf_op n op -> assert_hermitian op = Ok tt -> wf_restr rs -> (2 ^ n < fuel)%nat -> Z.of_nat (2 ^ n) <= ks -> (swm <= 0)%F -> (k_B * T)%F <> 0%F ->
  forall es psis, Forall (valid_psi n) psis -> length psis = length es ->
  forall ord ord' : nat -> nat -> nat -> set_order, (forall t i q l, Permutation (ord t i q l) l) -> (forall t i q l, Permutation (ord' t i q l) l) ->
  forall R R', (1 <= R)%nat -> (1 <= R')%nat ->
  forall w w' delta t t' k k', delta <> 0%F -> (k < length w)%nat -> (k' < length w')%nat -> nth k w 0%F = nth k' w' 0%F ->
  forall ps ips ps' ips' cols rest cols' rest', Forall (wf_op n) ps -> Forall (wf_op n) ips -> Forall (wf_op n) ps' -> Forall (wf_op n) ips' -> (t < length ps)%nat -> (t' < length ps')%nat ->
  nth t ps [] = nth t' ps' [] -> nth t ips [] = nth t' ips' [] ->
  photoemission fsqrt fexp k_B fuel (Z.of_nat n) op rs ks swm ord R psis es T w delta ps ips = Ok cols :: rest ->
  photoemission fsqrt fexp k_B fuel (Z.of_nat n) op rs ks swm ord' R' psis es T w' delta ps' ips' = Ok cols' :: rest' ->
  nth k (nth (2 + t) cols []) 0%F = nth k' (nth (2 + t') cols' []) 0%F.
Proof. exact (@column_photoemission). Qed.
Print Assumptions C99_absorption.
Print Assumptions C99_emission.
Print Assumptions C99_photoemission.

(* the Hamiltonian and the states of C88_hypotheses; the operator of column 2 is that of column 3 in the other run, the points 0 and 1 have moved *)
Definition rm (i : Z) : op_t QcF := [([(i, A_)], qr 1 1)].
Definition ad (i : Z) : op_t QcF := [([(i, C_)], qr 1 1)].
Example C99_hypotheses : wf_op 2 num_op /\ assert_hermitian num_op = Ok tt /\ Forall (valid_psi 2) on_sites /\ length on_sites = length two_es /\
  Forall (wf_op 2) [rm 0] /\ Forall (wf_op 2) [rm 1; rm 0] /\ Forall (wf_op 2) [ad 0] /\ Forall (wf_op 2) [ad 1; ad 0] /\
  nth 0 [rm 0] [] = nth 1 [rm 1; rm 0] [] /\ nth 0 [q 0 1; q 1 1] 0%F = nth 2 [q 3 1; q 1 1; q 0 1] 0%F.
Proof.
  destruct C88_hypotheses as (_ & _ & H & _ & W & A). split; [exact W|]. split; [exact A|]. split; [exact H|]. split; [reflexivity|].
  split; [apply Forall_cons; [wf_op_ex|apply Forall_nil]|]. split; [do 2 (apply Forall_cons; [wf_op_ex|]); apply Forall_nil|].
  split; [apply Forall_cons; [wf_op_ex|apply Forall_nil]|]. split; [do 2 (apply Forall_cons; [wf_op_ex|]); apply Forall_nil|]. split; reflexivity.
Qed.
Definition at_pt (r : res (list (list QcF))) (c k : nat) (x : QcF) : bool := match r with Ok cols => if Qc_eq_dec (nth k (nth c cols []) 0%F) x then true else false | Err _ => false end.
(* the values 1/4 and 1/10 of C88_run, on two ranks and on three *)
Example C99_run :
  let one := absorption qsqrt one_exp (q 1 1) 5 2 num_op None 4 (q 0 1) (fun _ _ _ l => l) 2 on_sites two_es (q 1 1) [q 0 1; q 1 1] (q 1 1) [rm 0] in
  let two := absorption qsqrt one_exp (q 1 1) 5 2 num_op None 4 (q 0 1) (fun _ _ _ l => rev l) 3 on_sites two_es (q 1 1) [q 3 1; q 1 1; q 0 1] (q 1 1) [rm 1; rm 0] in
  at_pt (nth 0 one (Err OutOfFuel)) 2 0 (q 1 4) = true /\ at_pt (nth 0 two (Err OutOfFuel)) 3 2 (q 1 4) = true /\
  at_pt (nth 0 one (Err OutOfFuel)) 2 1 (q 1 10) = true /\ at_pt (nth 0 two (Err OutOfFuel)) 3 1 (q 1 10) = true.
Proof. vm_compute. auto. Qed.
