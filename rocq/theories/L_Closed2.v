(* Lemmas: photoemission from an empty shell. *)
From Verif Require Import M_Prelude M_Scalar M_PSR M_Ladder M_State M_Mpi M_Hamiltonian M_Basis M_Expect M_Operators M_Lanczos M_Average M_Spectra M_Simulate.
From Verif Require Import S_Fock S_Ops S_Basis S_Expect S_Operators S_Thermal S_Closed.
From Verif Require Import L_Scalar L_Closed.
Local Open Scope Z_scope.

Section E.
Context {F : ofield}.
Add Field Ff : (f_field F).
Add Field Cf : (@c_field F).
Lemma copp_zeros m : map (@copp F) (repeat c0 m) = repeat c0 m.
Proof. induction m as [|m IH]; [reflexivity|]. cbn [repeat map]. rewrite IH. f_equal. ring. Qed.
Lemma emission_zero (fsqrt : F -> F) n fuel (hOp : op_t F) w delta rs ks swm psis es : length psis = length es ->
  (forall psi, In psi psis -> forall k, In k (dkeys psi) -> valid_key n k) -> forall fexp, exp_laws fexp -> forall k_B T, (k_B * T)%F <> 0%F -> es <> [] ->
  forall ord R tOps, (forall op, In op tOps -> wf_op n op) -> (forall op psi, In op tOps -> In psi psis -> blocked n op psi) ->
  emission fsqrt fexp k_B fuel (Z.of_nat n) hOp rs ks swm ord R psis es T w delta tOps = repeat (Ok (zero_file w (length tOps))) R.
Proof.
  intros HL HV fexp HE k_B T HkT Hne ord R tOps Hw Hb. unfold emission. destruct (spectra_zero fsqrt n fuel hOp (map fopp w) (- delta)%F rs ks swm psis es HL HV ord R tOps Hw Hb) as (gl & -> & <- & Hg).
  rewrite map_map. revert Hg. clear - HE HkT Hne. induction gl as [|g gl IH]; intros Hg; [reflexivity|]. cbn [map repeat length bind]. f_equal.
  - apply columns_zero; auto. intros i t. unfold gneg. rewrite (Hg g (or_introl eq_refl)), copp_zeros, map_length. reflexivity.
  - apply IH. intros g' Hg'. apply Hg. right. exact Hg'.
Qed.
Lemma xps_zero (fsqrt fexp : F -> F) nb : exp_laws fexp -> wf_nbaths nb -> forall k_B T fuel (hOp : op_t F) rs ks swm psis es, (k_B * T)%F <> 0%F -> es <> [] -> length psis = length es ->
  (forall psi, In psi psis -> forall k, In k (dkeys psi) -> valid_key (n_orb nb) k) -> forall ord R w d l ps, In l (angs nb) -> getPhotoEmissionOperators nb l = Ok ps -> (forall psi, In psi psis -> shell_all nb l false psi) ->
  emission fsqrt fexp k_B fuel (Z.of_nat (n_orb nb)) hOp rs ks swm ord R psis es T w d ps = repeat (Ok (zero_file w (length ps))) R.
Proof.
  intros HE W k_B T fuel hOp rs ks swm psis es HkT Hne HL HV ord R w d l ps Hl Ep HS.
  assert (B : forall psi, In psi psis -> Forall (fun op => wf_op (n_orb nb) op /\ blocked (n_orb nb) op psi) ps) by (intros psi Hp; apply (pes_blocked nb W lab_a l); auto).
  apply emission_zero; auto.
  - intros op Ho. destruct psis as [|psi l']; [destruct es; [congruence|discriminate HL]|]. exact (proj1 (in_all _ _ _ (B psi (or_introl eq_refl)) Ho)).
  - intros op psi Ho Hp. exact (proj2 (in_all _ _ _ (B psi Hp) Ho)).
Qed.
Lemma ips_zero (fsqrt fexp : F -> F) nb : exp_laws fexp -> wf_nbaths nb -> forall k_B T fuel (hOp : op_t F) rs ks swm psis es, (k_B * T)%F <> 0%F -> es <> [] -> length psis = length es ->
  (forall psi, In psi psis -> forall k, In k (dkeys psi) -> valid_key (n_orb nb) k) -> forall ord R w d l ps, In l (angs nb) -> getInversePhotoEmissionOperators nb l = Ok ps -> (forall psi, In psi psis -> shell_all nb l true psi) ->
  absorption fsqrt fexp k_B fuel (Z.of_nat (n_orb nb)) hOp rs ks swm ord R psis es T w d ps = repeat (Ok (zero_file w (length ps))) R.
Proof.
  intros HE W k_B T fuel hOp rs ks swm psis es HkT Hne HL HV ord R w d l ps Hl Ep HS.
  assert (B : forall psi, In psi psis -> Forall (fun op => wf_op (n_orb nb) op /\ blocked (n_orb nb) op psi) ps) by (intros psi Hp; apply (pes_blocked nb W lab_c l); auto).
  apply absorption_zero; auto.
  - intros op Ho. destruct psis as [|psi l']; [destruct es; [congruence|discriminate HL]|]. exact (proj1 (in_all _ _ _ (B psi (or_introl eq_refl)) Ho)).
  - intros op psi Ho Hp. exact (proj2 (in_all _ _ _ (B psi Hp) Ho)).
Qed.
End E.
