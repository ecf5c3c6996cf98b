(* The 2p core level with spin-orbit coupling: XPS.dat. *)
From Coq Require Import Permutation Ring Field.
From Verif Require Import M_Prelude M_Scalar M_PSR M_State M_Mpi M_Hamiltonian M_Basis M_Expect M_Operators M_Lanczos M_Average M_Spectra M_Simulate S_Fock S_Ops S_Ham S_Green S_Spectra S_Basis S_Expect S_Operators S_Symmetry S_TimeReversal S_Thermal S_RIXS S_Unitary S_Unitary2 S_Free S_Lines.
From Verif Require Import L_Scalar L_Sum L_Operators L_Free3 L_Free4 L_Lines L_Lines2.
From Verif Require S_Dict.
Local Open Scope Z_scope.

Section S.
Context {F : ofield}.
Add Field Ff : (f_field F).
Add Field Cf : (@c_field F).
Local Open Scope cx_scope.
Lemma pole (a u d : F) : d <> 0%F -> (- im (creal a / mkC u d) = a * lorentzian d u)%F.
Proof.
  intros Hd. unfold lorentzian, cdiv, cinv, creal, cmul, cabs2. cbn [re im]. assert (N : (u * u + d * d)%F <> 0%F) by (intros E; apply Hd; exact (proj2 (fsum_sq_zero u d E))). field. auto.
Qed.
Lemma wts (mu : F) : ((fofZ 2 + mu) / fofZ 3 + (1 - mu) / fofZ 3 = 1 /\ (fofZ 2 + mu) / fofZ 3 - (1 - mu) / fofZ 3 * (1 / fofZ 2) = 1 / fofZ 2 + mu / fofZ 2)%F.
Proof.
  pose proof (@three_nz F) as T3. pose proof (@f2_nz F) as T2. rewrite <- fofZ_3 in T3.
  assert (E3 : (@fofZ F 3 = fofZ 2 + 1)%F) by (rewrite fofZ_2, fofZ_3; reflexivity). assert (E2 : (@fofZ F 2 = 1 + 1)%F) by apply fofZ_2. revert T2 T3 E3 E2. generalize (@fofZ F 2) (@fofZ F 3). intros t u T2 T3 E3 E2.
  split.
  - transitivity ((t + 1) / u)%F; [field; auto|]. rewrite <- E3. field. auto.
  - transitivity (((t * t - 1) + mu * (t + 1)) / (u * t))%F; [field; auto|]. transitivity (((t + 1) * (1 + mu)) / (u * t))%F; [|rewrite <- E3; field; auto]. f_equal. rewrite E2. ring.
Qed.
Variable fsqrt : F -> F.
Lemma weights a (w xi : cx F) : In a six_orbs -> let hf := xi * creal (1 / fofZ 2)%F in w - hf <> c0 -> w + xi <> c0 ->
  (w + hf + xi * ls2 fsqrt a a) / ((w - hf) * (w + xi)) = creal (weight32 (po a)) / (w - hf) + creal (weight12 (po a)) / (w + xi).
Proof.
  intros Ha hf N1 N2.
  assert (W1 : creal (weight32 (po a)) + creal (weight12 (po a)) = @c1 F /\ creal (weight32 (po a)) - creal (weight12 (po a)) * creal (1 / fofZ 2)%F = creal (1 / fofZ 2)%F + ls2 fsqrt a a).
  { assert (X : exists mu, weight32 (po a) = ((fofZ 2 + mu) / fofZ 3)%F /\ weight12 (po a) = ((1 - mu) / fofZ 3)%F /\ ls_real fsqrt (fst a) (snd a) (fst a) (snd a) = (mu / fofZ 2)%F).
    { unfold ls_real, weight32, weight12, po. rewrite !Z.eqb_refl. cbn [andb]. destruct (fst a =? 1)%Z; [exists (fofZ (snd a))|exists (- fofZ (snd a))%F]; auto. }
    destruct X as (mu & -> & -> & E). unfold ls2. rewrite E. destruct (wts mu) as [E1 E2]. rewrite <- creal_add, E1. split; [reflexivity|]. rewrite <- creal_mul, <- creal_add, <- E2. apply cx_ext; cbn [re im csub creal]; ring. }
  destruct W1 as [E1 E2]. assert (N3 : (w - hf) * (w + xi) <> c0). { intros E. apply N2. transitivity ((w - hf) * (w + xi) / (w - hf)); [field; auto|]. rewrite E. field. auto. }
  transitivity ((w * (creal (weight32 (po a)) + creal (weight12 (po a))) + xi * (creal (weight32 (po a)) - creal (weight12 (po a)) * creal (1 / fofZ 2)%F)) / ((w - hf) * (w + xi))).
  - rewrite E1, E2. unfold hf. f_equal. ring.
  - unfold hf in *. field. auto.
Qed.
Lemma shell_six : S_Operators.shell_list 1 = map po six_orbs.
Proof. reflexivity. Qed.
Lemma lines_sum (x y : F) : ftotal (map (fun a => weight32 (po a) * x + weight12 (po a) * y) six_orbs)%F = (fofZ 4 * x + fofZ 2 * y)%F.
Proof.
  unfold six_orbs, po, weight32, weight12. cbn [map ftotal fst snd Z.eqb Pos.eqb].
  replace (@fofZ F 4) with (@fofZ F 2 + fofZ 2)%F by (rewrite <- fofZ_add; reflexivity). change (@fofZ F 0) with (0%F : F). change (@fofZ F 1) with (1%F : F). change (@fofZ F (-1)) with (- (1%F) : F)%F.
  pose proof (@three_nz F) as T3. rewrite <- fofZ_3 in T3.
  assert (E3 : (@fofZ F 3 = fofZ 2 + 1)%F) by (rewrite fofZ_2, fofZ_3; reflexivity). assert (E2 : (@fofZ F 2 = 1 + 1)%F) by apply fofZ_2. revert T3 E3 E2. generalize (@fofZ F 2) (@fofZ F 3). intros t u T3 E3 E2.
  match goal with |- ?L = _ => transitivity ((((1 + 1 + 1) * (t + t) * x + (1 + 1 + 1) * (1 + 1) * y)) / u)%F; [field; auto|] end.
  replace ((1 + 1 + 1) : F)%F with u by (rewrite E3, E2; ring). rewrite <- E2. field. auto.
Qed.
End S.
