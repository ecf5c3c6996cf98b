(* Properties of x-ray absorption as a function of the polarisation: C98. *)
From Coq Require Import QArith Qcanon Reals Permutation.
From Verif Require Import M_Prelude M_Scalar M_PSR M_State M_Mpi M_Hamiltonian M_Lanczos M_Average M_Spectra M_RIXS M_Simulate M_Basis M_Expect M_Operators.
From Verif Require Import S_Fock S_Ops S_Basis S_Expect S_Ham S_Green S_Spectra S_RIXS S_Operators S_Symmetry S_TimeReversal S_Dichroism S_Thermal S_Tensor.
From Verif Require Import L_Scalar L_Operators7 L_Isotropic L_Tensor L_Tensor2 L_Tensor3 X_Util X_Reals X_Gauss X_Ops X_Symmetry P_Fock P_Green P_Spectra P_RIXS P_Isotropic.
Local Open Scope Z_scope.

(* ---- C98: six spectra determine x-ray absorption for every linear polarisation ---- *)
Theorem C98_response : forall (F : ofield) (fsqrt : F -> F) pi gaunt nb, wf_nbaths nb -> fsqrt (fofZ 2) <> 0%F -> forall f D6 Df, Forall (fun v => length v = 3%nat) f ->
  getDipoleOperators fsqrt pi gaunt nb six_pols = Ok D6 -> getDipoleOperators fsqrt pi gaunt nb f = Ok Df ->
  forall A z v s g t, (t < length f)%nat -> (forall j, (j < 6)%nat -> response (n_orb nb) A z (transition (n_orb nb) (nth j D6 [])) v (s j)) ->
  response (n_orb nb) A z (transition (n_orb nb) (nth t Df [])) v g -> g = cquad (nth t f []) s.
Proof. exact (@quad_response). Qed.
(* The values of getSpectra in mode H_build, which the program uses: two runs with the same states, with any ranks and set orders. *)
Theorem C98_H_build : forall (F : ofield) (fsqrt : F -> F) pi gaunt nb f D6 Df op rs psis w delta ks swm es (ord ord' : nat -> nat -> nat -> set_order) R R' fuel gs gs' rest rest',
  wf_nbaths nb -> sqrt_laws fsqrt -> wf_op (n_orb nb) op -> assert_hermitian op = Ok tt -> wf_restr rs -> Forall (valid_psi (n_orb nb)) psis ->
  (2 ^ n_orb nb < fuel)%nat -> delta <> 0%F -> Z.of_nat (2 ^ n_orb nb) <= ks -> (swm <= 0)%F -> (1 <= R)%nat -> (1 <= R')%nat -> Forall (fun v => length v = 3%nat) f ->
  (forall t i q l, Permutation (ord t i q l) l) -> (forall t i q l, Permutation (ord' t i q l) l) ->
  getDipoleOperators fsqrt pi gaunt nb six_pols = Ok D6 -> getDipoleOperators fsqrt pi gaunt nb f = Ok Df ->
  getSpectra fsqrt fuel (Z.of_nat (n_orb nb)) op w delta rs ks swm ord R D6 psis es SHBuild = map Ok (gs :: rest) ->
  getSpectra fsqrt fuel (Z.of_nat (n_orb nb)) op w delta rs ks swm ord' R' Df psis es SHBuild = map Ok (gs' :: rest') ->
  forall i t k, (i < length psis)%nat -> (i < length es)%nat -> (t < length f)%nat -> (k < length w)%nat -> nth k (gs' i t) c0 = cquad (nth t f []) (fun j => nth k (gs i j) c0).
Proof. exact (@quad_H_build). Qed.
(* The columns of XAS.dat: column 2 + t belongs to the polarisation t. *)
Theorem C98_XAS : forall (F : ofield) (fsqrt fexp : F -> F) k_B T pi gaunt nb f D6 Df op rs psis w delta ks swm es (ord ord' : nat -> nat -> nat -> set_order) R R' fuel cols cols' rest rest',
  wf_nbaths nb -> sqrt_laws fsqrt -> exp_laws fexp -> (k_B * T)%F <> 0%F -> wf_op (n_orb nb) op -> assert_hermitian op = Ok tt -> wf_restr rs -> Forall (valid_psi (n_orb nb)) psis -> length psis = length es ->
  (2 ^ n_orb nb < fuel)%nat -> delta <> 0%F -> Z.of_nat (2 ^ n_orb nb) <= ks -> (swm <= 0)%F -> (1 <= R)%nat -> (1 <= R')%nat -> Forall (fun v => length v = 3%nat) f ->
  (forall t i q l, Permutation (ord t i q l) l) -> (forall t i q l, Permutation (ord' t i q l) l) ->
  getDipoleOperators fsqrt pi gaunt nb six_pols = Ok D6 -> getDipoleOperators fsqrt pi gaunt nb f = Ok Df ->
  absorption fsqrt fexp k_B fuel (Z.of_nat (n_orb nb)) op rs ks swm ord R psis es T w delta D6 = Ok cols :: rest ->
  absorption fsqrt fexp k_B fuel (Z.of_nat (n_orb nb)) op rs ks swm ord' R' psis es T w delta Df = Ok cols' :: rest' ->
  forall t k, (t < length f)%nat -> (k < length w)%nat -> nth k (nth (2 + t) cols' []) 0%F = quad (nth t f []) (fun j => nth k (nth (2 + j) cols []) 0%F).
Proof. exact (@xas_quad). Qed.
(* The RIXS map as a function of the incoming polarisation, for all four modes and any outgoing operators that begin with the same one (see C39). *)
Theorem C98_RIXS : forall (F : ofield) (fsqrt : F -> F) pi gaunt nb bicgstab op rs fuel wIns wLoss delta1 delta2 ks swm psis es op0 f D6 Df,
  wf_nbaths nb -> sqrt_laws fsqrt -> exact_solver bicgstab -> wf_op (n_orb nb) op -> wf_op (n_orb nb) op0 -> assert_hermitian op = Ok tt -> wf_restr rs -> Forall (valid_psi (n_orb nb)) psis ->
  (2 ^ n_orb nb < fuel)%nat -> delta1 <> 0%F -> delta2 <> 0%F -> Z.of_nat (2 ^ n_orb nb) <= ks -> (swm <= 0)%F -> Forall (fun v => length v = 3%nat) f ->
  getDipoleOperators fsqrt pi gaunt nb six_pols = Ok D6 -> getDipoleOperators fsqrt pi gaunt nb f = Ok Df ->
  forall ops ops' (ord ord' : nat -> nat -> nat -> set_order) hg hg' pm pm' r r' gs gs', (forall t i q l, Permutation (ord t i q l) l) -> (forall t i q l, Permutation (ord' t i q l) l) ->
  Forall (hdict_exact (n_orb nb) op rs) hg -> hg <> [] -> Forall (hdict_exact (n_orb nb) op rs) hg' -> hg' <> [] ->
  pm <> ROther -> (pm = RHBuild -> r = 0%nat /\ NoDup (flat_map dkeys hg)) -> pm' <> ROther -> (pm' = RHBuild -> r' = 0%nat /\ NoDup (flat_map dkeys hg')) ->
  nth_error (getRIXSmap fsqrt bicgstab fuel (Z.of_nat (n_orb nb)) op wIns wLoss delta1 delta2 rs ks swm D6 (op0 :: ops) psis es ord hg pm) r = Some (Ok gs) ->
  nth_error (getRIXSmap fsqrt bicgstab fuel (Z.of_nat (n_orb nb)) op wIns wLoss delta1 delta2 rs ks swm Df (op0 :: ops') psis es ord' hg' pm') r' = Some (Ok gs') ->
  forall iE t tOut iw k, (iE < length psis)%nat -> (iE < length es)%nat -> (t < length f)%nat -> (tOut < S (length ops))%nat -> (tOut < S (length ops'))%nat -> (iw < length wIns)%nat -> (k < length wLoss)%nat ->
  nth k (gs' iE t tOut iw) c0 = cquad (nth t f []) (fun j => nth k (gs iE j tOut iw) c0).
Proof. exact (@rixs_quad). Qed.
Print Assumptions C98_response.
Print Assumptions C98_H_build.
Print Assumptions C98_XAS.
Print Assumptions C98_RIXS.

(* the real numbers, the shells 2p and 3d: the operators exist for all polarisations *)
Example C98_hypotheses : wf_nbaths (pd_baths 10) /\ sqrt_laws (F := RF) sqrt /\ Forall (fun v => length v = 3%nat) (@six_pols RF) /\
  forall f : list (list RF), Forall (fun v => length v = 3%nat) f -> exists Df, getDipoleOperators (F := RF) sqrt PI gaunt_ex (pd_baths 10) f = Ok Df.
Proof.
  split; [apply pd_wf; lia|]. split; [apply sqrt_laws_R|]. split; [repeat constructor|]. pose proof (sqrt2_nz (F := RF) sqrt sqrt_laws_R) as H2.
  assert (K : forall e : list RF, length e = 3%nat -> exists D, getDipoleOperator (F := RF) sqrt PI gaunt_ex (pd_baths 10) e = Ok D).
  { intros [|a [|b [|c n]]] H; try discriminate H. destruct (@dip_ok RF sqrt PI gaunt_ex (pd_baths 10) (pd_wf 10 ltac:(lia)) 1 2 eq_refl a b c n H2) as (D & E & _). exists D. exact E. }
  intros f A. unfold getDipoleOperators. induction A as [|e f He _ [Df IH]]; [exists []; reflexivity|]. destruct (K e He) as [D E]. exists (D :: Df). cbn [map_res]. rewrite E. cbn [bind]. rewrite IH. reflexivity.
Qed.
(* the further hypotheses of C98_RIXS: an exact solver, an outgoing operator, empty dictionaries on two ranks *)
Example C98_RIXS_hypotheses : exact_solver (@gauss RF) /\ wf_op (n_orb (pd_baths 10)) (@t_out RF) /\ Forall (hdict_exact (n_orb (pd_baths 10)) (@hop_op RF) None) [[]; []] /\ wf_op (n_orb (pd_baths 10)) (@hop_op RF) /\ assert_hermitian (@hop_op RF) = Ok tt.
Proof.
  split; [apply gauss_exact|]. split; [wf_op_ex|]. split; [repeat (apply Forall_cons; [intros k col E; discriminate E|]); apply Forall_nil|]. split; [wf_op_ex|].
  destruct (@C36_spectra_input RF) as (_ & X & _). exact X.
Qed.
(* the form has terms of all six values; it is even and of second degree *)
Example C98_form : this (quad [q 2 1; q 3 1; q 5 1] (fun j => q (Z.of_nat j * Z.of_nat j) 1)) = (4 * 0 + 9 * 1 + 25 * 4 + 6 * (9 - 0 - 1) + 10 * (16 - 0 - 4) + 15 * (25 - 1 - 4))%Q /\
  this (quad [q (-4) 1; q (-6) 1; q (-10) 1] (fun j => q (Z.of_nat j * Z.of_nat j) 1)) = this (q 4 1 * quad [q 2 1; q 3 1; q 5 1] (fun j => q (Z.of_nat j * Z.of_nat j) 1))%F.
Proof. vm_compute. auto. Qed.
(* a run with rational numbers (see C83_run): the Hamiltonian is symmetric about z, so the mixed terms vanish; polarisations along 2 z, - z and 3 x + 4 y *)
Example C98_run : match sp_run axes3 SHBuild, sp_run [[q 0 1; q 0 1; q 2 1]; [q 0 1; q 0 1; q (-1) 1]; [q 3 1; q 4 1; q 0 1]] SHBuild with
  | Ok gs :: _, Ok gs' :: _ => forallb (fun k => let a j := nth k (gs 0%nat j) c0 in let s j := nth j [a 0%nat; a 1%nat; a 2%nat; a 0%nat + a 1%nat; a 0%nat + a 2%nat; a 1%nat + a 2%nat]%C c0 in
      ceqb (nth k (gs' 0%nat 0%nat) c0) (cquad [q 0 1; q 0 1; q 2 1] s) && ceqb (nth k (gs' 0%nat 1%nat) c0) (cquad [q 0 1; q 0 1; q (-1) 1] s) && ceqb (nth k (gs' 0%nat 2%nat) c0) (cquad [q 3 1; q 4 1; q 0 1] s) && negb (ceqb (a 0%nat) c0)) [0; 1]%nat
  | _, _ => false end = true.
Proof. vm_compute. reflexivity. Qed.
