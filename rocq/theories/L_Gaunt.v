(* The spinless Coulomb operator, the table of Gaunt coefficients. *)
From Coq Require Import Ring Field.
From Verif Require Import M_Prelude M_Scalar M_PSR M_State M_Basis M_Expect M_Operators M_Gaunt.
From Verif Require Import S_Fock S_Ops S_Basis S_Expect S_Operators S_Gaunt.
From Verif Require Import L_Scalar L_Sum L_Dict L_Ops L_Index L_Operators L_Operators2 L_Operators3.
Local Open Scope Z_scope.

Lemma nth_error_flat {A B} (f : A -> list B) w (L : list A) : (forall x, In x L -> length (f x) = w) ->
  forall k j x, nth_error L k = Some x -> (j < w)%nat -> nth_error (flat_map f L) (k * w + j) = nth_error (f x) j.
Proof.
  induction L as [|a L IH]; intros Hw k j x Hk Hj; [destruct k; discriminate|]. cbn [flat_map]. destruct k as [|k].
  - injection Hk as ->. cbn [Nat.mul Nat.add]. apply nth_error_app1. rewrite Hw by (left; auto). exact Hj.
  - cbn [nth_error] in Hk. rewrite nth_error_app2 by (rewrite Hw by (left; auto); lia). rewrite (Hw a) by (left; auto).
    replace (S k * w + j - w)%nat with (k * w + j)%nat by lia. apply IH; auto. intros y Hy. apply Hw. right. auto.
Qed.
Lemma length_flat {A B} (f : A -> list B) w (L : list A) : (forall x, In x L -> length (f x) = w) -> length (flat_map f L) = (length L * w)%nat.
Proof.
  induction L as [|a L IH]; intros Hw; [reflexivity|]. cbn [flat_map length]. rewrite app_length, Hw by (left; auto). rewrite IH; [lia|]. intros y Hy. apply Hw. right. auto.
Qed.
Lemma zrange_nth n i : 0 <= i < n -> nth_error (zrange n) (Z.to_nat i) = Some i.
Proof.
  intros H. unfold zrange. rewrite nth_error_map. rewrite (nth_error_nth' _ 0%nat) by (rewrite seq_length; lia). rewrite seq_nth by lia. cbn. f_equal. lia.
Qed.
Lemma zrange2_nth a b i : 0 <= i < b - a -> nth_error (zrange2 a b) (Z.to_nat i) = Some (a + i).
Proof.
  intros H. unfold zrange2. rewrite nth_error_map. rewrite (nth_error_nth' _ 0%nat) by (rewrite seq_length; lia). rewrite seq_nth by lia. cbn. f_equal. lia.
Qed.

Section A.
Context {F : ofield}.
Add Field Ff : (f_field F).
Variable fsqrt : F -> F.
Variable pi : F.
Variable gaunt : Z -> Z -> Z -> Z -> Z -> Z -> F.
Let ck := gauntC fsqrt pi gaunt.
Let U := getU fsqrt pi gaunt.

Definition n_list (l1 l2 l3 l4 : Z) (R : list F) : list ((lm * lm * lm * lm) * cx F) :=
  flat_map (fun m1 => flat_map (fun m2 => flat_map (fun m3 => flat_map (fun m4 =>
    if negb (feqb (U l1 m1 l2 m2 l3 m3 l4 m4 R) 0%F) then [((l1, m1), (l2, m2), (l3, m3), (l4, m4), creal (U l1 m1 l2 m2 l3 m3 l4 m4 R / fofZ 2)%F)] else [])
    (mrange l4)) (mrange l3)) (mrange l2)) (mrange l1).
Lemma n_wr l1 l2 l3 l4 R : getNoSpinUop fsqrt pi gaunt l1 l2 l3 l4 R = wr (n_list l1 l2 l3 l4 R) [].
Proof.
  unfold getNoSpinUop, n_list. apply wr_flat. intros d m1 _. apply wr_flat. intros d2 m2 _. apply wr_flat. intros d3 m3 _.
  apply wr_flat. intros d4 m4 _. cbv zeta. fold U. destruct (feqb (U l1 m1 l2 m2 l3 m3 l4 m4 R) 0%F) eqn:E; cbn [negb]; reflexivity.
Qed.
Lemma n_In l1 l2 l3 l4 R p v : In (p, v) (n_list l1 l2 l3 l4 R) <-> exists m1 m2 m3 m4,
  (- l1 <= m1 <= l1 /\ - l2 <= m2 <= l2 /\ - l3 <= m3 <= l3 /\ - l4 <= m4 <= l4) /\ slater ck R (l1, m1) (l2, m2) (l3, m3) (l4, m4) <> 0%F /\
  p = ((l1, m1), (l2, m2), (l3, m3), (l4, m4)) /\ v = creal (slater ck R (l1, m1) (l2, m2) (l3, m3) (l4, m4) / fofZ 2)%F.
Proof.
  unfold n_list, mrange. split.
  - intros H. apply in_flat_map in H as (m1 & H1 & H). apply in_flat_map in H as (m2 & H2 & H). apply in_flat_map in H as (m3 & H3 & H).
    apply in_flat_map in H as (m4 & H4 & H). apply zrange2_In in H1, H2, H3, H4. exists m1, m2, m3, m4. unfold U in H. rewrite getU_slater in H.
    match type of H with In _ (if negb (feqb ?u _) then _ else _) => destruct (feqb_spec u 0%F) as [E|E] end; [destruct H|]. destruct H as [H|[]]. injection H as <- <-.
    repeat split; auto; lia.
  - intros (m1 & m2 & m3 & m4 & (H1 & H2 & H3 & H4) & E & -> & ->).
    apply in_flat_map. exists m1. split; [apply zrange2_In; lia|]. apply in_flat_map. exists m2. split; [apply zrange2_In; lia|].
    apply in_flat_map. exists m3. split; [apply zrange2_In; lia|]. apply in_flat_map. exists m4. split; [apply zrange2_In; lia|].
    unfold U. rewrite getU_slater. fold ck. destruct (feqb_spec (slater ck R (l1, m1) (l2, m2) (l3, m3) (l4, m4)) 0%F) as [C|C]; [contradiction|]. left. reflexivity.
Qed.
Lemma n_elements l1 l2 l3 l4 R p v : dget (getNoSpinUop fsqrt pi gaunt l1 l2 l3 l4 R) p = Some v <-> exists m1 m2 m3 m4,
  (- l1 <= m1 <= l1 /\ - l2 <= m2 <= l2 /\ - l3 <= m3 <= l3 /\ - l4 <= m4 <= l4) /\ slater ck R (l1, m1) (l2, m2) (l3, m3) (l4, m4) <> 0%F /\
  p = ((l1, m1), (l2, m2), (l3, m3), (l4, m4)) /\ v = creal (slater ck R (l1, m1) (l2, m2) (l3, m3) (l4, m4) / fofZ 2)%F.
Proof.
  rewrite n_wr, <- n_In. apply dget_wr. intros k w w' H H'. apply n_In in H as (m1 & m2 & m3 & m4 & _ & _ & -> & ->).
  apply n_In in H' as (n1 & n2 & n3 & n4 & _ & _ & E & ->). injection E as -> -> -> ->. reflexivity.
Qed.
(* the operator with spin has the same elements for all spins *)
Lemma n_spin l1 l2 l3 l4 R m1 m2 m3 m4 s sp : let x := SImp l1 s m1 in let y := SImp l2 sp m2 in let z := SImp l3 sp m3 in let t := SImp l4 s m4 in
  (s = 0 \/ s = 1) -> (sp = 0 \/ sp = 1) -> x <> y -> z <> t ->
  dget (getUop fsqrt pi gaunt l1 l2 l3 l4 R) (hop4 x y z t) = dget (getNoSpinUop fsqrt pi gaunt l1 l2 l3 l4 R) ((l1, m1), (l2, m2), (l3, m3), (l4, m4)).
Proof.
  cbv zeta. intros Hs Hsp Hxy Hzt.
  assert (G : forall v, dget (getUop fsqrt pi gaunt l1 l2 l3 l4 R) (hop4 (SImp l1 s m1) (SImp l2 sp m2) (SImp l3 sp m3) (SImp l4 s m4)) = Some v <->
    dget (getNoSpinUop fsqrt pi gaunt l1 l2 l3 l4 R) ((l1, m1), (l2, m2), (l3, m3), (l4, m4)) = Some v).
  { assert (Hin : forall l a m, (a = 0 \/ a = 1) -> - l <= m <= l -> in_shell l (SImp l a m)) by (intros l a m; exists a, m; auto).
    assert (Hout : forall l a m, in_shell l (SImp l a m) -> - l <= m <= l) by (intros l a m (a' & m' & E & G); injection E as -> ->; tauto).
    intros v. rewrite n_elements. split.
    - intros H. apply u_elements in H as (n1 & n2 & n3 & n4 & t & tp & H). cbv zeta in H. destruct H as (A1 & A2 & A3 & A4 & _ & _ & Hu & E & ->).
      unfold hop4 in E. injection E as E1 E2 E3 E4 E5 E6. subst. apply Hout in A1, A2, A3, A4. exists n1, n2, n3, n4. repeat split; auto; tauto.
    - intros (n1 & n2 & n3 & n4 & (A1 & A2 & A3 & A4) & Hu & E & ->). injection E as -> -> -> ->.
      apply u_elements. exists n1, n2, n3, n4, s, sp. cbv zeta. repeat split; auto. }
  destruct (dget (getNoSpinUop fsqrt pi gaunt l1 l2 l3 l4 R) _) as [v|]; [apply G; reflexivity|].
  match goal with |- ?a = None => destruct a as [v|] end; [|reflexivity]. specialize (proj1 (G v) eq_refl). discriminate.
Qed.
Hypothesis gaunt_swap : forall l1 l2 l3 m1 m2 m3, gaunt l1 l2 l3 m1 m2 m3 = gaunt l3 l2 l1 m3 m2 m1.
Hypothesis gaunt_neg : forall l1 l2 l3 m1 m2 m3, gaunt l1 l2 l3 (- m1) (- m2) (- m3) = gaunt l1 l2 l3 m1 m2 m3.
(* exchange of the two electrons *)
Lemma slater_exchange R x y z t : slater ck R y x t z = slater ck R x y z t.
Proof.
  unfold slater. rewrite (Z.add_comm (snd y)), (Z.add_comm (snd t)). destruct (Z.eqb_spec (snd x + snd y) (snd z + snd t)) as [E|E]; auto.
  apply fsum_ext. intros k _. f_equal. rewrite (ck_sym fsqrt pi gaunt gaunt_swap gaunt_neg _ (fst y)), (ck_sym fsqrt pi gaunt gaunt_swap gaunt_neg _ (fst t)).
  assert (P : (@minus1pow F (snd y) * minus1pow (snd z) * (minus1pow (snd t) * minus1pow (snd x)) = 1)%F).
  { rewrite <- !minus1pow_add. replace (snd y + snd z + (snd t + snd x)) with (2 * (snd z + snd t)) by lia. unfold minus1pow. rewrite Z.even_mul. reflexivity. }
  transitivity (minus1pow (snd y) * minus1pow (snd z) * (minus1pow (snd t) * minus1pow (snd x)) *
    (ck (Z.of_nat k) (fst z) (snd z) (fst y) (snd y) * ck (Z.of_nat k) (fst x) (snd x) (fst t) (snd t)))%F; [unfold ck; ring|]. rewrite P. ring.
Qed.
Lemma n_exchange l1 l2 l3 l4 R x y z t : dget (getNoSpinUop fsqrt pi gaunt l2 l1 l4 l3 R) (y, x, t, z) = dget (getNoSpinUop fsqrt pi gaunt l1 l2 l3 l4 R) (x, y, z, t).
Proof.
  assert (G : forall l1 l2 l3 l4 x y z t v, dget (getNoSpinUop fsqrt pi gaunt l1 l2 l3 l4 R) (x, y, z, t) = Some v -> dget (getNoSpinUop fsqrt pi gaunt l2 l1 l4 l3 R) (y, x, t, z) = Some v).
  { clear l1 l2 l3 l4 x y z t. intros l1 l2 l3 l4 x y z t v H. apply n_elements in H as (m1 & m2 & m3 & m4 & (H1 & H2 & H3 & H4) & Hu & E & ->). injection E as -> -> -> ->.
    apply n_elements. exists m2, m1, m4, m3. rewrite slater_exchange. repeat split; auto; lia. }
  destruct (dget (getNoSpinUop fsqrt pi gaunt l1 l2 l3 l4 R) (x, y, z, t)) as [v|] eqn:E; [apply G; exact E|].
  destruct (dget (getNoSpinUop fsqrt pi gaunt l2 l1 l4 l3 R) (y, x, t, z)) as [v|] eqn:E'; [|reflexivity]. apply G in E'. congruence.
Qed.
End A.

Section T.
Context {F : ofield}.
Variable fsqrt : F -> F.
Variable pi : F.
Variable gaunt : Z -> Z -> Z -> Z -> Z -> Z -> F.
Let ck := gauntC fsqrt pi gaunt.
Lemma print_other rank l lp : rank <> 0 -> printGaunt fsqrt pi gaunt rank l lp = [].
Proof.
  intros H. unfold printGaunt. apply Z.eqb_neq in H. rewrite H. cbn [app].
  assert (N : forall (M : list Z), flat_map (fun _ : Z => @nil (@gline F)) M = []) by (intros M; induction M as [|m M IHM]; [reflexivity|exact IHM]).
  rewrite N. cbn [app]. apply N.
Qed.
Lemma flat_one {A B} (f : A -> B) L : flat_map (fun x => [f x]) L = map f L.
Proof. induction L as [|a L IH]; [reflexivity|]. cbn [flat_map map app]. rewrite IH. reflexivity. Qed.
Lemma print_table l lp : 0 <= l -> 0 <= lp -> gaunt_table ck l lp (printGaunt fsqrt pi gaunt 0 l lp).
Proof.
  intros Hl Hlp. unfold gaunt_table, printGaunt. cbv zeta. change (0 =? 0) with true. cbn match.
  set (row := fun k m => map (fun mp => gauntC fsqrt pi gaunt k l m lp mp) (zrange2 (- lp) (lp + 1))).
  set (blk := fun k => ([GHead k] ++ flat_map (fun m => [GRow (row k m)]) (zrange2 (- l) (l + 1)) ++ [GBlank])%list).
  change (flat_map _ (zrange (l + lp + 1))) with (flat_map blk (zrange (l + lp + 1))).
  assert (HB : forall k, blk k = ([GHead k] ++ map (fun m => GRow (row k m)) (zrange2 (- l) (l + 1)) ++ [GBlank])%list) by (intros k; unfold blk; rewrite flat_one; reflexivity).
  assert (Hw : forall k, In k (zrange (l + lp + 1)) -> length (blk k) = Z.to_nat (2 * l + 3)).
  { intros k _. rewrite HB, !app_length, map_length, zrange2_length. cbn [length]. lia. }
  split.
  - rewrite (length_flat _ _ _ Hw), zrange_length. lia.
  - intros k m mp Hk Hm Hmp.
    assert (G : forall j, 0 <= j < 2 * l + 3 -> nth_error (flat_map blk (zrange (l + lp + 1))) (Z.to_nat (k * (2 * l + 3) + j)) = nth_error (blk k) (Z.to_nat j)).
    { intros j Hj. replace (Z.to_nat (k * (2 * l + 3) + j)) with (Z.to_nat k * Z.to_nat (2 * l + 3) + Z.to_nat j)%nat by nia.
      apply (nth_error_flat _ _ _ Hw); [apply zrange_nth; lia|lia]. }
    split; [|split].
    + replace (k * (2 * l + 3)) with (k * (2 * l + 3) + 0) by lia. rewrite G by lia. reflexivity.
    + replace (k * (2 * l + 3) + 2 * l + 2) with (k * (2 * l + 3) + (2 * l + 2)) by lia. rewrite G by lia. rewrite HB.
      rewrite nth_error_app2 by (cbn [length]; lia). rewrite nth_error_app2 by (rewrite map_length, zrange2_length; cbn [length]; lia). rewrite map_length, zrange2_length. cbn [length].
      replace (Z.to_nat (2 * l + 2) - 1 - Z.to_nat (l + 1 - - l))%nat with 0%nat by lia. reflexivity.
    + exists (row k m). split; [|split].
      * replace (k * (2 * l + 3) + 1 + (l + m)) with (k * (2 * l + 3) + (1 + (l + m))) by lia. rewrite G by lia. rewrite HB.
        rewrite nth_error_app2 by (cbn [length]; lia). cbn [length]. replace (Z.to_nat (1 + (l + m)) - 1)%nat with (Z.to_nat (l + m)) by lia.
        rewrite nth_error_app1 by (rewrite map_length, zrange2_length; lia). rewrite nth_error_map, zrange2_nth by lia. cbn. do 3 f_equal. lia.
      * unfold row. rewrite map_length, zrange2_length. lia.
      * unfold row. rewrite nth_error_map, zrange2_nth by lia. cbn. unfold ck. do 2 f_equal. lia.
Qed.
End T.
