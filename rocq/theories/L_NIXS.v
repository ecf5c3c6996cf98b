(* The radial integrals of the scattering operator. *)
From Coq Require Import Ring Field.
From Verif Require Import M_Prelude M_Scalar M_PSR M_State M_Basis M_Expect M_Operators S_Fock S_Basis S_Expect S_Operators S_NIXS.
From Verif Require Import L_Scalar L_Sum L_Expect L_Expect3 L_Operators L_Operators2 L_Operators8.
Local Open Scope Z_scope.

Section A.
Context {F : ofield}.
Add Field Ff : (f_field F).
Add Ring Cring : (@c_ring F).
Add Field Cf : (@c_field F).
Lemma trapz_sum {A} (fx : A -> F) (fy : A -> cx F) d l :
  trapz (map (fun a => (fx a, fy a)) l) = trapezoid (length l) (fun i => fx (nth i l d)) (fun i => fy (nth i l d)).
Proof.
  unfold trapezoid. induction l as [|a [|b l] IH]; try reflexivity.
  cbn [map]. cbn [map] in IH.
  change (trapz ((fx a, fy a) :: (fx b, fy b) :: map (fun a0 => (fx a0, fy a0)) l)) with
    (creal (fx b - fx a) * (fy a + fy b) / cofZ 2 + trapz ((fx b, fy b) :: map (fun a0 => (fx a0, fy a0)) l))%C.
  rewrite IH. replace (length (a :: b :: l) - 1)%nat with (S (length (b :: l) - 1)) by (cbn; lia).
  cbn [seq csum]. f_equal.
  - cbn [nth]. assert (H : (cofZ 2 : cx F) <> c0) by (rewrite cofZ_2; apply two_neq). field. exact H.
  - rewrite <- seq_shift, csum_map. apply csum_ext. intros i _. reflexivity.
Qed.
Lemma ipow_spec k : 0 <= k -> ipow k = i_power (F := F) k.
Proof.
  intros Hk. unfold i_power. rewrite <- (Z2Nat.id k) at 1 by lia. generalize (Z.to_nat k) as n. clear k Hk.
  intros n. 
  assert (H : ipow (F := F) (Z.of_nat n) = Nat.iter n (fun z => (cI * z)%C) c1 /\ ipow (Z.of_nat (S n)) = Nat.iter (S n) (fun z => (cI * z)%C) (c1 : cx F) /\ 
     ipow (Z.of_nat (S (S n))) = Nat.iter (S (S n)) (fun z => (cI * z)%C) (c1 : cx F) /\ ipow (Z.of_nat (S (S (S n)))) = Nat.iter (S (S (S n))) (fun z => (cI * z)%C) (c1 : cx F)).
  2: { tauto. }
  induction n as [|n (H0 & H1 & H2 & H3)].
  - change (ipow (F := F) (Z.of_nat 0)) with (@c1 F). change (ipow (F := F) (Z.of_nat 1)) with (@cI F). change (ipow (F := F) (Z.of_nat 2)) with (- @c1 F)%C. change (ipow (F := F) (Z.of_nat 3)) with (- @cI F)%C.
    repeat split; apply cx_ext; cbn; ring.
  - repeat split; auto.
    assert (E : ipow (F := F) (Z.of_nat (S (S (S (S n))))) = ipow (Z.of_nat n)).
    { unfold ipow. replace (Z.of_nat (S (S (S (S n))))) with (Z.of_nat n + 1 * 4) by lia. rewrite Z.mod_add by lia. reflexivity. }
    rewrite E, H0. set (f := fun z : cx F => (cI * z)%C).
    change (Nat.iter (S (S (S (S n)))) f c1) with (cI * (cI * (cI * (cI * Nat.iter n f c1))))%C. generalize (Nat.iter n f c1) as z. intros z. apply cx_ext; cbn; ring.
Qed.
End A.

Section B.
Context {F : ofield}.
Add Ring Cring' : (@c_ring F).
Lemma nixs_elements (fsqrt : F -> F) pi gaunt arccos fsin spherical_jn sph_harm nb : wf_nbaths nb ->
  forall li lj, In li (angs nb) -> In lj (angs nb) -> forall q0 q1 q2 mesh kmin, exists op,
  getNIXSOperator fsqrt pi gaunt arccos fsin spherical_jn sph_harm nb q0 q1 q2 li lj mesh kmin = Ok op /\
  is_one_body nb op li lj
    (plane_wave fsqrt (gauntC fsqrt pi gaunt) (radial_int spherical_jn (fsqrt (q0 * q0 + q1 * q1 + q2 * q2)%F) mesh)
       (fun k m => sph_harm m k (nixs_phi fsqrt arccos fsin q0 q1 q2) (nixs_theta fsqrt arccos q0 q1 q2)) i_power
       (zrange2 kmin (Z.abs (li + lj) + 1))).
Proof.
  intros W li lj Hi Hj q0 q1 q2 mesh kmin.
  destruct (nixs_ok fsqrt pi gaunt arccos fsin spherical_jn sph_harm nb W li lj Hi Hj q0 q1 q2 mesh kmin) as (op & E & HN & HK & HV).
  exists op. split; [exact E|]. split; [exact HN|]. split; [exact HK|].
  intros x y Hx Hy. rewrite (HV x y Hx Hy). destruct Hx as (s & m & -> & _), Hy as (s' & m' & -> & _).
  unfold plane_wave, when. destruct (s =? s'); auto. apply csum_ext. intros k _. destruct (Z.even (li + lj + k)); auto. cbn [andb].
  destruct (Z.leb_spec (Z.abs (m - m')) k); auto. rewrite (ipow_spec k) by lia. do 2 f_equal. f_equal.
  unfold rintegral, radial_int. rewrite (trapz_sum _ _ (0%F, (c0, c0))). unfold norm3, trapezoid.
  apply csum_ext. intros i _. 
  rewrite !creal_mul. reflexivity.
Qed.
End B.
