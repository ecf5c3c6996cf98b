(* Sum rules of x-ray absorption: C87. *)
From Coq Require Import Reals.
From Verif Require Import M_Prelude M_Scalar M_PSR M_State M_Basis M_Expect M_Operators.
From Verif Require Import S_Fock S_Ops S_Basis S_Expect S_Green S_Operators S_Symmetry S_TimeReversal S_Dichroism S_Isotropic S_Sector S_SumRule.
From Verif Require Import L_Scalar L_Sum L_SumRule L_SumRule2 L_SumRule3 X_Reals X_Ops X_Symmetry X_SumRule.
Local Open Scope Z_scope.

(* ---- C87: sum rules, A = <2 2| C^1_1 |1 1> ---- *)
(* The sum over three perpendicular polarisations counts the holes in 3d, *)
Theorem C87_holes : forall (F : ofield) (fsqrt : F -> F) pi gaunt, sqrt_laws fsqrt -> tensor_law fsqrt (gauntC fsqrt pi gaunt) 1 2 1 ->
  forall nb, wf_nbaths nb -> dkeys nb = [KInt 1; KInt 2] -> forall v, full_shell nb 1 v -> forall e De, triad e -> getDipoleOperators fsqrt pi gaunt nb e = Ok De ->
  let n := n_orb nb in let A := gauntC fsqrt pi gaunt 1 2 2 1 1 in
  (weight n (transition n (nth 0 De [])) v + weight n (transition n (nth 1 De [])) v + weight n (transition n (nth 2 De [])) v =
   creal (A * A)%F * (cofZ 10 * vdot n v v - mean nb (N_terms 2) v))%C.
Proof. exact (@rule_iso). Qed.
(* the difference between the two circular polarisations is the orbital moment, *)
Theorem C87_dichroism : forall (F : ofield) (fsqrt : F -> F) pi gaunt, sqrt_laws fsqrt -> tensor_law fsqrt (gauntC fsqrt pi gaunt) 1 2 1 ->
  forall nb, wf_nbaths nb -> dkeys nb = [KInt 1; KInt 2] -> forall v, full_shell nb 1 v ->
  forall Dx Dy, getDipoleOperator fsqrt pi gaunt nb [1; 0; 0]%F = Ok Dx -> getDipoleOperator fsqrt pi gaunt nb [0; 1; 0]%F = Ok Dy ->
  let n := n_orb nb in let A := gauntC fsqrt pi gaunt 1 2 2 1 1 in
  (weight n (two_transitions n Dx Dy cI) v - weight n (two_transitions n Dx Dy (- cI)%C) v = - (creal (A * A)%F * mean nb (Lz_terms 2) v))%C.
Proof. exact (@rule_dichroism). Qed.
(* and linear polarisation along z measures the distribution of the holes over |m|. *)
Theorem C87_linear : forall (F : ofield) (fsqrt : F -> F) pi gaunt, sqrt_laws fsqrt -> tensor_law fsqrt (gauntC fsqrt pi gaunt) 1 2 1 ->
  forall nb, wf_nbaths nb -> dkeys nb = [KInt 1; KInt 2] -> forall v, full_shell nb 1 v ->
  forall Dz, getDipoleOperator fsqrt pi gaunt nb [0; 0; 1]%F = Ok Dz -> let n := n_orb nb in let A := gauntC fsqrt pi gaunt 1 2 2 1 1 in
  (cofZ 6 * weight n (transition n Dz) v = creal (A * A)%F * (cofZ 20 * vdot n v v - mean nb (Q_terms 2) v))%C.
Proof. exact (@rule_linear). Qed.
(* The dictionaries: the squared norms of the states that applyOp gives, and what getTraceDensityMatrix and getLz3d return. *)
Theorem C87_states_holes : forall (F : ofield) (fsqrt : F -> F) pi gaunt, sqrt_laws fsqrt -> tensor_law fsqrt (gauntC fsqrt pi gaunt) 1 2 1 ->
  forall nb, wf_nbaths nb -> dkeys nb = [KInt 1; KInt 2] -> forall swm, (swm <= 0)%F -> forall rs, wf_restr rs ->
  forall psi, valid_psi (n_orb nb) psi -> full_shell nb 1 (amp psi) -> forall e De, triad e -> getDipoleOperators fsqrt pi gaunt nb e = Ok De ->
  let n := n_orb nb in let A := gauntC fsqrt pi gaunt 1 2 2 1 1 in (forall i, (i < 3)%nat -> unrestricted n rs (nth i De []) psi) ->
  exists p Nd, (forall i, (i < 3)%nat -> applyOp (Z.of_nat n) (nth i De []) psi swm rs None = (None, Ok (p i))) /\ getTraceDensityMatrix nb psi 2 = Ok Nd /\
    (norm2 (p 0%nat) + norm2 (p 1%nat) + norm2 (p 2%nat) = A * A * (fofZ 10 * norm2 psi - Nd))%F.
Proof. exact (@states_iso). Qed.
Theorem C87_states_dichroism : forall (F : ofield) (fsqrt : F -> F) pi gaunt, sqrt_laws fsqrt -> tensor_law fsqrt (gauntC fsqrt pi gaunt) 1 2 1 ->
  forall nb, wf_nbaths nb -> dkeys nb = [KInt 1; KInt 2] -> forall swm, (swm <= 0)%F -> forall rs, wf_restr rs ->
  forall psi, valid_psi (n_orb nb) psi -> full_shell nb 1 (amp psi) ->
  forall Dx Dy, getDipoleOperator fsqrt pi gaunt nb [1; 0; 0]%F = Ok Dx -> getDipoleOperator fsqrt pi gaunt nb [0; 1; 0]%F = Ok Dy ->
  let n := n_orb nb in let A := gauntC fsqrt pi gaunt 1 2 2 1 1 in unrestricted n rs Dx psi -> unrestricted n rs Dy psi ->
  exists px py Lz, applyOp (Z.of_nat n) Dx psi swm rs None = (None, Ok px) /\ applyOp (Z.of_nat n) Dy psi swm rs None = (None, Ok py) /\ getLz3d nb psi = Ok Lz /\
    (norm2 (add px py cI) - norm2 (add px py (- cI)%C) = - (A * A * Lz))%F.
Proof. exact (@states_dichroism). Qed.
(* In a run with 6 electrons in 2p, C84_run_CF and C84_run_pickle give the hypothesis. *)
Theorem C87_sector : forall (F : ofield) nb N (v : config -> cx F), sector nb N 6 v -> full_shell nb 1 v.
Proof. exact (@sector_full). Qed.
Print Assumptions C87_holes. Print Assumptions C87_dichroism. Print Assumptions C87_linear. Print Assumptions C87_states_holes. Print Assumptions C87_states_dichroism. Print Assumptions C87_sector.

(* real numbers and the true coefficients C^1, A^2 = 2/5; 2p full and one hole in 3d, no bath *)
Definition d9 : config := repeat true 15 ++ [false].
Definition d9_psi : psi_t RF := [(key d9, c1)].
Example C87_hypotheses : @sqrt_laws RF sqrt /\ @tensor_law RF sqrt (@gauntC RF sqrt PI gaunt_pd) 1 2 1 /\
  (@gauntC RF sqrt PI gaunt_pd 1 2 2 1 1 * @gauntC RF sqrt PI gaunt_pd 1 2 2 1 1 = 2 / 5)%R /\
  wf_nbaths (pd_baths 0) /\ dkeys (pd_baths 0) = [KInt 1; KInt 2] /\ valid_psi (n_orb (pd_baths 0)) d9_psi /\ amp d9_psi d9 = c1 /\
  sector (pd_baths 0) 15 6 (amp d9_psi) /\ full_shell (pd_baths 0) 1 (amp d9_psi) /\ forall D, unrestricted (n_orb (pd_baths 0)) None D d9_psi.
Proof.
  assert (HS : sector (pd_baths 0) 15 6 (amp d9_psi)).
  { intros t Ht N. assert (E : t = d9); [|subst t; split; vm_compute; reflexivity].
    unfold amp, d9_psi in N. cbn [dget] in N. destruct (eqb_spec (key t) (key d9)) as [E|]; [|contradiction].
    apply (L_Fock.key_inj t d9); [rewrite Ht; reflexivity|exact E]. }
  split; [apply sqrt_laws_R|]. split; [apply tensor_pd|]. split; [apply A_pd|]. split; [apply pd_wf; lia|]. split; [reflexivity|]. split; [|split; [|split; [exact HS|split; [exact (sector_full _ _ _ HS)|]]]].
  - split; [constructor; [intros []|constructor]|]. intros k [<-|[]]. exists d9. split; reflexivity.
  - unfold amp, d9_psi. cbn [dget]. destruct (eqb_spec (key d9) (key d9)); [reflexivity|contradiction].
  - intros D t _ _. exact I.
Qed.
