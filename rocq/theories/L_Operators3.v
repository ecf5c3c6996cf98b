(* The Coulomb operator. *)
From Coq Require Import Permutation Ring Field.
From Verif Require Import M_Prelude M_Scalar M_PSR M_Ladder M_State M_Basis M_Expect M_Operators.
From Verif Require Import S_Fock S_Ops S_Basis S_Expect S_Operators.
From Verif Require Import L_Scalar L_Sum L_Dict L_Ops L_Index L_Expect L_Expect2 L_Expect3 L_Expect5 L_Expect6 L_Operators L_Operators2.
Local Open Scope Z_scope.

Section A.
Context {F : ofield}.
Add Field Ff : (f_field F).
Add Ring Cring : (@c_ring F).
Variable fsqrt : F -> F.
Variable pi : F.
Variable gaunt : Z -> Z -> Z -> Z -> Z -> Z -> F.
Let ck := gauntC fsqrt pi gaunt.
Let U := getU fsqrt pi gaunt.

Lemma getU_slater l1 m1 l2 m2 l3 m3 l4 m4 R : U l1 m1 l2 m2 l3 m3 l4 m4 R = slater ck R (l1, m1) (l2, m2) (l3, m3) (l4, m4).
Proof.
  unfold U, getU, slater. cbn [fst snd]. destruct (m1 + m2 =? m3 + m4); auto.
  rewrite (fold_left_fsum (fun kRk : nat * F => snd kRk * ck (Z.of_nat (fst kRk)) l1 m1 l4 m4 * ck (Z.of_nat (fst kRk)) l3 m3 l2 m2)%F).
  unfold enumerate.
  assert (G : forall k, fsum (fun kRk : nat * F => snd kRk * ck (Z.of_nat (fst kRk)) l1 m1 l4 m4 * ck (Z.of_nat (fst kRk)) l3 m3 l2 m2)%F (combine (seq k (length R)) R) =
    fsum (fun i => nth (i - k) R 0 * (ck (Z.of_nat i) l1 m1 l4 m4 * ck (Z.of_nat i) l3 m3 l2 m2))%F (seq k (length R))).
  { induction R as [|a R IH]; intros k; cbn [length seq combine]; auto. unfold fsum in *. cbn [fold_right fst snd].
    rewrite IH. rewrite Nat.sub_diag. cbn [nth]. f_equal; [ring|].
    change (fsum (fun i => nth (i - S k) R 0 * (ck (Z.of_nat i) l1 m1 l4 m4 * ck (Z.of_nat i) l3 m3 l2 m2))%F (seq (S k) (length R)) =
      fsum (fun i => nth (i - k) (a :: R) 0 * (ck (Z.of_nat i) l1 m1 l4 m4 * ck (Z.of_nat i) l3 m3 l2 m2))%F (seq (S k) (length R))).
    apply fsum_ext. intros i Hi. apply in_seq in Hi. replace (i - k)%nat with (S (i - S k)) by lia. reflexivity. }
  rewrite G. rewrite (fsum_ext _ (fun k => nth k R 0 * (ck (Z.of_nat k) l1 m1 l4 m4 * ck (Z.of_nat k) l3 m3 l2 m2))%F).
  - ring.
  - intros i _. rewrite Nat.sub_0_r. reflexivity.
Qed.

Definition u_ok (l1 l2 l3 l4 : Z) (R : list F) (m1 m2 m3 m4 s sp : Z) : bool :=
  negb (feqb (U l1 m1 l2 m2 l3 m3 l4 m4 R) 0%F) &&
  negb ((s =? sp) && (zz_eqb (l1, m1) (l2, m2) || zz_eqb (l3, m3) (l4, m4))).
Definition u_entry (l1 l2 l3 l4 : Z) (R : list F) (m1 m2 m3 m4 s sp : Z) : sprocess * cx F :=
  (hop4 (SImp l1 s m1) (SImp l2 sp m2) (SImp l3 sp m3) (SImp l4 s m4), creal (U l1 m1 l2 m2 l3 m3 l4 m4 R / fofZ 2)%F).
Definition u_list (l1 l2 l3 l4 : Z) (R : list F) : list (sprocess * cx F) :=
  flat_map (fun m1 => flat_map (fun m2 => flat_map (fun m3 => flat_map (fun m4 => flat_map (fun s => flat_map (fun sp =>
    if u_ok l1 l2 l3 l4 R m1 m2 m3 m4 s sp then [u_entry l1 l2 l3 l4 R m1 m2 m3 m4 s sp] else [])
    (zrange 2)) (zrange 2)) (mrange l4)) (mrange l3)) (mrange l2)) (mrange l1).
Lemma u_wr l1 l2 l3 l4 R : getUop fsqrt pi gaunt l1 l2 l3 l4 R = wr (u_list l1 l2 l3 l4 R) [].
Proof.
  unfold getUop, u_list. apply wr_flat. intros d m1 _. apply wr_flat. intros d2 m2 _. apply wr_flat. intros d3 m3 _.
  apply wr_flat. intros d4 m4 _. cbv zeta. unfold u_ok. fold U.
  destruct (feqb (U l1 m1 l2 m2 l3 m3 l4 m4 R) 0%F) eqn:E; cbn [negb andb].
  - cbn. reflexivity.
  - apply wr_flat. intros d5 s _. apply wr_flat. intros d6 sp _.
    destruct ((s =? sp) && (zz_eqb (l1, m1) (l2, m2) || zz_eqb (l3, m3) (l4, m4))); cbn [negb]; reflexivity.
Qed.
Lemma u_In l1 l2 l3 l4 R p v : In (p, v) (u_list l1 l2 l3 l4 R) <-> exists m1 m2 m3 m4 s sp,
  (- l1 <= m1 <= l1 /\ - l2 <= m2 <= l2 /\ - l3 <= m3 <= l3 /\ - l4 <= m4 <= l4 /\ (s = 0 \/ s = 1) /\ (sp = 0 \/ sp = 1)) /\
  u_ok l1 l2 l3 l4 R m1 m2 m3 m4 s sp = true /\ (p, v) = u_entry l1 l2 l3 l4 R m1 m2 m3 m4 s sp.
Proof.
  unfold u_list, mrange. split.
  - intros H. apply in_flat_map in H as (m1 & H1 & H). apply in_flat_map in H as (m2 & H2 & H). apply in_flat_map in H as (m3 & H3 & H).
    apply in_flat_map in H as (m4 & H4 & H). apply in_flat_map in H as (s & H5 & H). apply in_flat_map in H as (sp & H6 & H).
    apply zrange2_In in H1, H2, H3, H4. apply zrange_In in H5, H6. exists m1, m2, m3, m4, s, sp.
    destruct (u_ok l1 l2 l3 l4 R m1 m2 m3 m4 s sp) eqn:E; [|destruct H]. destruct H as [H|[]].
    repeat split; auto; lia.
  - intros (m1 & m2 & m3 & m4 & s & sp & (H1 & H2 & H3 & H4 & H5 & H6) & E & ->).
    apply in_flat_map. exists m1. split; [apply zrange2_In; lia|]. apply in_flat_map. exists m2. split; [apply zrange2_In; lia|].
    apply in_flat_map. exists m3. split; [apply zrange2_In; lia|]. apply in_flat_map. exists m4. split; [apply zrange2_In; lia|].
    apply in_flat_map. exists s. split; [apply zrange_In; lia|]. apply in_flat_map. exists sp. split; [apply zrange_In; lia|].
    rewrite E. left. reflexivity.
Qed.
Lemma u_consistent l1 l2 l3 l4 R : consistent (u_list l1 l2 l3 l4 R).
Proof.
  intros p v v' H H'. apply u_In in H as (m1 & m2 & m3 & m4 & s & sp & _ & _ & E). apply u_In in H' as (n1 & n2 & n3 & n4 & t & tp & _ & _ & E').
  unfold u_entry, hop4 in E, E'. injection E as -> ->. injection E' as H1 H2 H3 H4 H5 H6 ->. subst. reflexivity.
Qed.
Lemma u_dget l1 l2 l3 l4 R p v : dget (getUop fsqrt pi gaunt l1 l2 l3 l4 R) p = Some v <-> In (p, v) (u_list l1 l2 l3 l4 R).
Proof. rewrite u_wr. apply dget_wr, u_consistent. Qed.
Lemma u_NoDup l1 l2 l3 l4 R : NoDup (dkeys (getUop fsqrt pi gaunt l1 l2 l3 l4 R)).
Proof. rewrite u_wr. apply NoDup_wr. constructor. Qed.
Lemma u_key l1 l2 l3 l4 R p : In p (dkeys (getUop fsqrt pi gaunt l1 l2 l3 l4 R)) <-> exists v, In (p, v) (u_list l1 l2 l3 l4 R).
Proof. rewrite dget_Some_key. split; intros [v H]; exists v; apply u_dget; auto. Qed.

Lemma feqb_true (x y : F) : feqb x y = true <-> x = y.
Proof. destruct (feqb_spec x y); intuition congruence. Qed.
(* the entries in words *)
Lemma u_elements l1 l2 l3 l4 R p v : dget (getUop fsqrt pi gaunt l1 l2 l3 l4 R) p = Some v <-> exists m1 m2 m3 m4 s sp,
  let x := SImp l1 s m1 in let y := SImp l2 sp m2 in let z := SImp l3 sp m3 in let t := SImp l4 s m4 in
  let u := slater ck R (l1, m1) (l2, m2) (l3, m3) (l4, m4) in
  in_shell l1 x /\ in_shell l2 y /\ in_shell l3 z /\ in_shell l4 t /\ x <> y /\ z <> t /\ u <> 0%F /\
  p = hop4 x y z t /\ v = creal (u / fofZ 2)%F.
Proof.
  rewrite u_dget, u_In.
  split; intros (m1 & m2 & m3 & m4 & s & sp & H); exists m1, m2, m3, m4, s, sp; cbv zeta in *; rewrite <- ?getU_slater in *.
  - destruct H as ((H1 & H2 & H3 & H4 & H5 & H6) & E & Ep). unfold u_ok in E. apply andb_true_iff in E as [E1 E2].
    unfold u_entry in Ep. injection Ep as -> ->. apply negb_true_iff in E1, E2.
    assert (Hu : U l1 m1 l2 m2 l3 m3 l4 m4 R <> 0%F).
    { intros C. apply feqb_true in C. congruence. }
    unfold zz_eqb in E2. cbn [fst snd] in E2.
    assert (Hin : forall l a m, (a = 0 \/ a = 1) -> - l <= m <= l -> in_shell l (SImp l a m)) by (intros l a m; exists a, m; auto).
    do 4 (split; [apply Hin; auto|]). split; [|split; [|split; auto]].
    + intros C. injection C as -> -> ->. rewrite !Z.eqb_refl in E2. discriminate.
    + intros C. injection C as -> -> ->. rewrite !Z.eqb_refl in E2. rewrite Bool.orb_true_r in E2. discriminate.
  - destruct H as (H1 & H2 & H3 & H4 & Hxy & Hzt & Hu & -> & ->).
    assert (Hout : forall l a m, in_shell l (SImp l a m) -> (a = 0 \/ a = 1) /\ - l <= m <= l)
      by (intros l a m (a' & m' & E & G); injection E as -> ->; auto).
    apply Hout in H1, H2, H3, H4. split; [repeat split; try tauto; lia|]. split; [|reflexivity].
    unfold u_ok. apply andb_true_iff. split; apply negb_true_iff.
    + apply Bool.not_true_iff_false. intros C. apply feqb_true in C. auto.
    + unfold zz_eqb. cbn [fst snd]. destruct (Z.eqb_spec s sp) as [<-|]; auto. cbn [andb].
      apply Bool.orb_false_iff. split; apply Bool.not_true_iff_false; intros C; apply andb_true_iff in C as [C1 C2];
        apply Z.eqb_eq in C1, C2; subst; congruence.
Qed.
Lemma u_conserves l1 l2 l3 l4 R : let op := getUop fsqrt pi gaunt l1 l2 l3 l4 R in conserves q_N op /\ conserves q_Lz op /\ conserves q_2Sz op.
Proof.
  cbv zeta. assert (H : forall p, In p (dkeys (getUop fsqrt pi gaunt l1 l2 l3 l4 R)) -> exists m1 m2 m3 m4 s sp, m1 + m2 = m3 + m4 /\
    p = hop4 (SImp l1 s m1) (SImp l2 sp m2) (SImp l3 sp m3) (SImp l4 s m4)).
  { intros p Hp. apply dget_Some_key in Hp as [v Hp]. apply u_elements in Hp as (m1 & m2 & m3 & m4 & s & sp & H). cbv zeta in H.
    destruct H as (_ & _ & _ & _ & _ & _ & Hu & -> & _). exists m1, m2, m3, m4, s, sp. split; auto.
    unfold slater in Hu. cbn [fst snd] in Hu. destruct (Z.eqb_spec (m1 + m2) (m3 + m4)); auto. congruence. }
  split; [|split]; intros p Hp; destruct (H p Hp) as (m1 & m2 & m3 & m4 & s & sp & E & ->); rewrite pcharge_hop4;
    unfold q_N, q_Lz, q_2Sz; lia.
Qed.

(* ---- Hermiticity ---- *)
Hypothesis gaunt_swap : forall l1 l2 l3 m1 m2 m3, gaunt l1 l2 l3 m1 m2 m3 = gaunt l3 l2 l1 m3 m2 m1.
Hypothesis gaunt_neg : forall l1 l2 l3 m1 m2 m3, gaunt l1 l2 l3 (- m1) (- m2) (- m3) = gaunt l1 l2 l3 m1 m2 m3.
Lemma minus1pow_sq m : (@minus1pow F m * minus1pow m)%F = 1%F.
Proof. unfold minus1pow. destruct (Z.even m); ring. Qed.
Lemma minus1pow_add a b : @minus1pow F (a + b) = (minus1pow a * minus1pow b)%F.
Proof. unfold minus1pow. rewrite Z.even_add. destruct (Z.even a), (Z.even b); cbn; ring. Qed.
Lemma ck_sym k l m lp mp : ck k l m lp mp = (minus1pow m * minus1pow mp * ck k lp mp l m)%F.
Proof.
  unfold ck, gauntC. rewrite (gaunt_swap l k lp), <- (gaunt_neg lp k l).
  replace (- - m) with m by lia. replace (- (m - mp)) with (mp - m) by lia.
  transitivity (fsqrt (fofZ 4 * pi / fofZ (2 * k + 1)) * minus1pow m * (minus1pow mp * minus1pow mp) * gaunt lp k l (- mp)%Z (mp - m)%Z m)%F.
  - rewrite minus1pow_sq. ring.
  - ring.
Qed.
Lemma slater_rev R x y z t : slater ck R t z y x = slater ck R x y z t.
Proof.
  unfold slater. rewrite (Z.eqb_sym (snd t + snd z)), (Z.add_comm (snd y)), (Z.add_comm (snd t)), (Z.add_comm (snd x)). 
  rewrite (Z.add_comm (snd y) (snd x)). rewrite (Z.add_comm (snd x)). 
  destruct (Z.eqb_spec (snd y + snd x) (snd z + snd t)) as [E|E]; auto.
  apply fsum_ext. intros k _. f_equal.
  rewrite (ck_sym _ (fst t)), (ck_sym _ (fst y)).
  set (A := ck _ _ _ _ _). set (B := ck _ (fst z) _ _ _).
  transitivity (minus1pow (snd y + snd x) * minus1pow (snd z + snd t) * (A * B))%F.
  - rewrite !minus1pow_add. ring.
  - rewrite E, minus1pow_sq. ring.
Qed.
Lemma dag_hop4 x y z t : dag (hop4 x y z t) = hop4 t z y x. Proof. reflexivity. Qed.
Lemma good_hop4 x y z t : Forall good_label (hop4 x y z t).
Proof. do 2 (apply Forall_cons; [right; reflexivity|]). do 2 (apply Forall_cons; [left; reflexivity|]). constructor. Qed.
Lemma u_good l1 l2 l3 l4 R p v : dget (getUop fsqrt pi gaunt l1 l2 l3 l4 R) p = Some v -> Forall good_label p.
Proof. intros H. apply u_dget, u_In in H as (m1 & m2 & m3 & m4 & s & sp & _ & _ & E). injection E as -> _. apply good_hop4. Qed.
Lemma u_dag l1 l2 l3 l4 R p v : dget (getUop fsqrt pi gaunt l1 l2 l3 l4 R) p = Some v ->
  dget (getUop fsqrt pi gaunt l4 l3 l2 l1 R) (dag p) = Some (cconj v).
Proof.
  intros H. apply u_elements in H as (m1 & m2 & m3 & m4 & s & sp & H). cbv zeta in H.
  destruct H as (H1 & H2 & H3 & H4 & H5 & H6 & H7 & -> & ->). apply u_elements. exists m4, m3, m2, m1, s, sp. cbv zeta.
  rewrite slater_rev. rewrite dag_hop4, cconj_real. do 4 (split; [assumption|]). auto 6.
Qed.
Lemma u_hermitian l1 l2 R : assert_hermitian (getUop fsqrt pi gaunt l1 l2 l2 l1 R) = Ok tt.
Proof. apply herm_intro; [apply u_good|apply u_NoDup|]. intros p v H. apply u_dag; auto. Qed.
End A.
