(* Properties of the spectrum summed over three perpendicular polarisations: C83. *)
From Coq Require Import QArith Qcanon Reals Permutation.
From Verif Require Import M_Prelude M_Scalar M_PSR M_State M_Mpi M_Hamiltonian M_Lanczos M_Spectra M_Basis M_Expect M_Operators.
From Verif Require Import S_Fock S_Ops S_Basis S_Expect S_Ham S_Green S_Spectra S_Operators S_Symmetry S_TimeReversal S_Dichroism S_Isotropic.
From Verif Require Import L_Scalar L_Operators7 L_Isotropic X_Util X_Reals X_Ops X_Symmetry.
Local Open Scope Z_scope.

(* ---- C83: the sum over three perpendicular polarisations does not depend on the axes ---- *)
Theorem C83_response : forall (F : ofield) (fsqrt : F -> F) pi gaunt nb, wf_nbaths nb -> fsqrt (fofZ 2) <> 0%F ->
  forall e f De Df, triad e -> triad f -> getDipoleOperators fsqrt pi gaunt nb e = Ok De -> getDipoleOperators fsqrt pi gaunt nb f = Ok Df ->
  forall A z v g g', (forall i, (i < 3)%nat -> response (n_orb nb) A z (transition (n_orb nb) (nth i De [])) v (g i)) ->
  (forall i, (i < 3)%nat -> response (n_orb nb) A z (transition (n_orb nb) (nth i Df [])) v (g' i)) ->
  (g 0%nat + g 1%nat + g 2%nat = g' 0%nat + g' 1%nat + g' 2%nat)%C.
Proof. exact (@iso_response). Qed.
(* The values of getSpectra with a full Krylov space and without cut-off, also with restrictions: all ranks in mode eigen_states, *)
Theorem C83_eigen_states : forall (F : ofield) (fsqrt : F -> F) pi gaunt nb e f De Df op rs psis w delta ks swm es ord ord' R R' fuel gs gs',
  wf_nbaths nb -> sqrt_laws fsqrt -> wf_op (n_orb nb) op -> assert_hermitian op = Ok tt -> wf_restr rs -> Forall (valid_psi (n_orb nb)) psis ->
  (2 ^ n_orb nb < fuel)%nat -> delta <> 0%F -> Z.of_nat (2 ^ n_orb nb) <= ks -> (swm <= 0)%F -> (1 <= R)%nat -> (1 <= R')%nat -> triad e -> triad f ->
  getDipoleOperators fsqrt pi gaunt nb e = Ok De -> getDipoleOperators fsqrt pi gaunt nb f = Ok Df ->
  In (Ok gs) (getSpectra fsqrt fuel (Z.of_nat (n_orb nb)) op w delta rs ks swm ord R De psis es EigenStates) ->
  In (Ok gs') (getSpectra fsqrt fuel (Z.of_nat (n_orb nb)) op w delta rs ks swm ord' R' Df psis es EigenStates) ->
  forall i k, (i < length psis)%nat -> (i < length es)%nat -> (k < length w)%nat -> sum3 (gs i) k = sum3 (gs' i) k.
Proof. exact (@iso_eigen_states). Qed.
(* and rank 0 in mode H_build, which the program uses. *)
Theorem C83_H_build : forall (F : ofield) (fsqrt : F -> F) pi gaunt nb e f De Df op rs psis w delta ks swm es (ord ord' : nat -> nat -> nat -> set_order) R R' fuel gs gs' rest rest',
  wf_nbaths nb -> sqrt_laws fsqrt -> wf_op (n_orb nb) op -> assert_hermitian op = Ok tt -> wf_restr rs -> Forall (valid_psi (n_orb nb)) psis ->
  (2 ^ n_orb nb < fuel)%nat -> delta <> 0%F -> Z.of_nat (2 ^ n_orb nb) <= ks -> (swm <= 0)%F -> (1 <= R)%nat -> (1 <= R')%nat -> triad e -> triad f ->
  (forall t i q l, Permutation (ord t i q l) l) -> (forall t i q l, Permutation (ord' t i q l) l) ->
  getDipoleOperators fsqrt pi gaunt nb e = Ok De -> getDipoleOperators fsqrt pi gaunt nb f = Ok Df ->
  getSpectra fsqrt fuel (Z.of_nat (n_orb nb)) op w delta rs ks swm ord R De psis es SHBuild = map Ok (gs :: rest) ->
  getSpectra fsqrt fuel (Z.of_nat (n_orb nb)) op w delta rs ks swm ord' R' Df psis es SHBuild = map Ok (gs' :: rest') ->
  forall i k, (i < length psis)%nat -> (i < length es)%nat -> (k < length w)%nat -> sum3 (gs i) k = sum3 (gs' i) k.
Proof. exact (@iso_H_build). Qed.
Print Assumptions C83_response. Print Assumptions C83_eigen_states. Print Assumptions C83_H_build.

(* the real numbers, the shells 2p and 3d: the axes and a turned triad, whose operators exist *)
Definition axes3 {F : ofield} : list (list F) := [[1; 0; 0]; [0; 1; 0]; [0; 0; 1]]%F.
Definition turned3 {F : ofield} : list (list F) := let c := (fofZ 3 / fofZ 5)%F in let s := (fofZ 4 / fofZ 5)%F in [[c; s; 0]; [- s; c; 0]; [0; 0; 1]]%F.
Section Triads.
Context {F : ofield}.
Add Field Ff9 : (f_field F).
Lemma triads : triad (@axes3 F) /\ triad (@turned3 F).
Proof.
  assert (H5 : @fofZ F 5 <> 0%F) by (intros C; pose proof (L_Ham.fofZ_pos (F := F) 5 ltac:(lia)) as P; rewrite C, flt_irrefl in P; discriminate P).
  assert (HC : (fofZ 3 / fofZ 5 * (fofZ 3 / fofZ 5) + fofZ 4 / fofZ 5 * (fofZ 4 / fofZ 5) = 1 :> F)%F).
  { transitivity ((fofZ 3 * fofZ 3 + fofZ 4 * fofZ 4) / (fofZ 5 * fofZ 5) : F)%F; [field; auto|]. rewrite <- !fofZ_mul, <- fofZ_add.
    change (3 * 3 + 4 * 4) with (5 * 5). rewrite fofZ_mul. field. auto. }
  unfold axes3, turned3. revert HC. generalize (fofZ 3 / fofZ 5 : F)%F, (fofZ 4 / fofZ 5 : F)%F. intros c s HC.
  split; (split; [reflexivity|]; split; [repeat constructor|]); intros i j Hi Hj; destruct i as [|[|[|]]]; try lia; destruct j as [|[|[|]]]; try lia; cbn [Nat.eqb]; unfold dot3; cbn [nth]; try ring.
  all: rewrite <- HC; ring.
Qed.
End Triads.
Example C83_hypotheses : triad (F := RF) axes3 /\ triad (F := RF) turned3 /\ wf_nbaths (pd_baths 10) /\ sqrt_laws (F := RF) sqrt /\
  forall e : list (list RF), triad e -> exists De, getDipoleOperators (F := RF) sqrt PI gaunt_ex (pd_baths 10) e = Ok De.
Proof.
  split; [apply triads|]. split; [apply triads|]. split; [apply pd_wf; lia|]. split; [apply sqrt_laws_R|].
  pose proof (sqrt2_nz (F := RF) sqrt sqrt_laws_R) as H2.
  assert (K : forall e : list RF, length e = 3%nat -> exists D, getDipoleOperator (F := RF) sqrt PI gaunt_ex (pd_baths 10) e = Ok D).
  { intros [|a [|b [|c n]]] H; try discriminate H. destruct (@dip_ok RF sqrt PI gaunt_ex (pd_baths 10) (pd_wf 10 ltac:(lia)) 1 2 eq_refl a b c n H2) as (D & E & _). exists D. exact E. }
  intros e (L & A & _). destruct e as [|a [|b [|d [|]]]]; try discriminate L. inversion_clear A as [|? ? A1 A']. inversion_clear A' as [|? ? A2 A'']. inversion_clear A'' as [|? ? A3 _].
  destruct (K a A1) as [Da Ea]. destruct (K b A2) as [Db Eb]. destruct (K d A3) as [Dd Ed]. exists [Da; Db; Dd].
  unfold getDipoleOperators. cbn [map_res]. rewrite Ea. cbn [bind]. rewrite Eb. cbn [bind]. rewrite Ed. reflexivity.
Qed.
(* a run with rational numbers, in which all roots are exact: an s electron goes to the p shell with the Hamiltonian L_z; the
   sums for the two triads are equal and not zero, and the values for x and z differ *)
Definition sp_nb : nbaths_t := [(KInt 0, 0); (KInt 1, 0)].
Definition sp_gaunt (l1 l2 l3 m1 m2 m3 : Z) : QcF := if m2 =? 1 then q 3 1 else if m2 =? -1 then q 4 1 else q 5 1.
Definition sp_lz : op_t QcF := flat_map (fun sm => let i := coord_index sp_nb (SImp 1 (fst sm) (snd sm)) in
  if snd sm =? 0 then [] else [([(i, lab_c); (i, lab_a)], creal (fofZ (snd sm)))]) (list_prod [0; 1] [-1; 0; 1]).
Definition sp_state : psi_t QcF := [(key (true :: repeat false 7), c1)].
Definition sp_run (e : list (list QcF)) (md : smode) : list (res (garr QcF)) :=
  match getDipoleOperators qsqrt (q 3 4) sp_gaunt sp_nb e with
  | Ok De => getSpectra qsqrt 300 8 sp_lz [q 1 2; q 2 1] (q 1 1) None 256 (q 0 1) (fun _ _ _ l => l) 2 De [sp_state] [q 0 1] md
  | Err _ => [] end.
Example C83_run : forallb (fun md => match sp_run axes3 md, sp_run turned3 md with
  | Ok gs :: _, Ok gs' :: _ => forallb (fun k => ceqb (sum3 (gs 0%nat) k) (sum3 (gs' 0%nat) k) && negb (ceqb (sum3 (gs 0%nat) k) c0) && negb (ceqb (nth k (gs 0%nat 0%nat) c0) (nth k (gs 0%nat 2%nat) c0))) [0; 1]%nat
  | _, _ => false end) [EigenStates; SHBuild] = true.
Proof. vm_compute. reflexivity. Qed.
