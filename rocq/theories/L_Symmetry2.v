(* Sums of products of two and four ladder operators that commute with a one-particle generator. *)
From Coq Require Import Ring Field.
From Verif Require Import M_Prelude M_Scalar M_PSR M_State M_Basis M_Expect M_Operators S_Fock S_Ops S_Basis S_Expect S_Operators S_Symmetry.
From Verif Require Import L_Scalar L_Sum L_Dict L_Fock L_State L_Ops L_Index L_Expect L_Expect4 L_Expect5 L_Operators L_Operators4 L_Symmetry.
Local Open Scope Z_scope.

Section A.
Context {F : ofield}.
Add Field Ff : (f_field F).
Add Ring Cring : (@c_ring F).
Lemma mv3 {A B C D} (g : A -> B -> C -> D -> cx F) la lb lc ld :
  csum (fun a => csum (fun b => csum (fun c => csum (fun d => g a b c d) ld) lc) lb) la =
  csum (fun d => csum (fun a => csum (fun b => csum (fun c => g a b c d) lc) lb) la) ld.
Proof.
  rewrite (csum_swap (fun d a => csum (fun b => csum (fun c => g a b c d) lc) lb)). apply csum_ext. intros a _.
  rewrite (csum_swap (fun d b => csum (fun c => g a b c d) lc)). apply csum_ext. intros b _. apply csum_swap.
Qed.
Lemma mv2 {A B C} (g : A -> B -> C -> cx F) la lb lc :
  csum (fun a => csum (fun b => csum (fun c => g a b c) lc) lb) la = csum (fun c => csum (fun a => csum (fun b => g a b c) lb) la) lc.
Proof.
  rewrite (csum_swap (fun c a => csum (fun b => g a b c) lb)). apply csum_ext. intros a _. apply csum_swap.
Qed.
Variable n : nat.
Variable nb : nbaths_t.
Hypothesis Hwf : wf_nbaths nb.
Hypothesis Hn : n = n_orb nb.
Variable O : list spinorb.
Hypothesis HO : NoDup O.
Hypothesis HOk : Forall (coord_ok nb) O.
Variable M : spinorb -> spinorb -> cx F.
Notation X := (X nb O M).
Lemma X_add v (w : config -> cx F) t : X (fun s => v s + w s)%C t = (X v t + X w t)%C.
Proof.
  unfold X. rewrite <- csum_add. apply csum_ext. intros x _. rewrite <- csum_add. apply csum_ext. intros y _.
  assert (E : C_ (ix nb x) (A_ (ix nb y) (fun s => v s + w s)%C) t = (C_ (ix nb x) (A_ (ix nb y) v) t + C_ (ix nb x) (A_ (ix nb y) w) t)%C).
  { unfold C_. rewrite <- vpull_add. unfold vpull at 1 2. destruct (flip _ _ t) as [[s a]|]; auto. f_equal. unfold A_. apply vpull_add. }
  rewrite E. ring.
Qed.
Lemma X_scale c v t : X (fun s => c * v s)%C t = (c * X v t)%C.
Proof.
  unfold X. rewrite <- csum_mul_l. apply csum_ext. intros x _. rewrite <- csum_mul_l. apply csum_ext. intros y _.
  assert (E : C_ (ix nb x) (A_ (ix nb y) (fun s => c * v s)%C) t = (c * C_ (ix nb x) (A_ (ix nb y) v) t)%C).
  { unfold C_. rewrite <- vpull_scale. unfold vpull at 1 2. destruct (flip _ _ t) as [[s a]|]; auto. f_equal. unfold A_. apply vpull_scale. }
  rewrite E. ring.
Qed.
Lemma X_zero t : X (fun _ => c0) t = c0.
Proof.
  unfold X. apply csum_zero. intros x _. apply csum_zero. intros y _. unfold C_, A_, vpull. destruct (flip _ _ t) as [[s a]|]; [|ring].
  destruct (flip _ _ s) as [[s' a']|]; ring.
Qed.
Lemma X_csum {B} (f : B -> config -> cx F) l t : X (fun s => csum (fun b => f b s) l) t = csum (fun b => X (f b) t) l.
Proof.
  induction l as [|b l IH]; cbn [csum]; [apply X_zero|]. rewrite X_add, IH. reflexivity.
Qed.

(* a set of orbitals that M does not leave *)
Definition closed (S : list spinorb) : Prop := NoDup S /\ incl S O /\ forall x w, In x S -> In w O -> ~ In w S -> M w x = c0 /\ M x w = c0.
Lemma closed_l S x (g : spinorb -> cx F) : closed S -> In x S -> csum (fun w => M w x * g w)%C O = csum (fun w => M w x * g w)%C S.
Proof.
  intros (HS & HI & HC) Hx. apply csum_incl; auto. intros w Hw Hn'. destruct (HC x w Hx Hw Hn') as [-> _]. ring.
Qed.
Lemma closed_r S x (g : spinorb -> cx F) : closed S -> In x S -> csum (fun w => M x w * g w)%C O = csum (fun w => M x w * g w)%C S.
Proof.
  intros (HS & HI & HC) Hx. apply csum_incl; auto. intros w Hw Hn'. destruct (HC x w Hx Hw Hn') as [_ ->]. ring.
Qed.
Lemma closed_in S x : closed S -> In x S -> In x O.
Proof. intros (_ & H & _). apply H. Qed.

Definition B2 (S1 S2 : list spinorb) (H : spinorb -> spinorb -> cx F) (v : config -> cx F) : config -> cx F :=
  fun s => csum (fun x => csum (fun y => H x y * T2 nb x y v s)%C S2) S1.
Definition B4 (S1 S2 S3 S4 : list spinorb) (W : spinorb -> spinorb -> spinorb -> spinorb -> cx F) (v : config -> cx F) : config -> cx F :=
  fun s => csum (fun x => csum (fun y => csum (fun z => csum (fun t => W x y z t * T4 nb x y z t v s)%C S4) S3) S2) S1.
Lemma B2_comm S1 S2 H : closed S1 -> closed S2 ->
  (forall x y, In x S1 -> In y S2 -> csum (fun w => M x w * H w y)%C S1 = csum (fun w => H x w * M w y)%C S2) ->
  forall v s, length s = n -> X (B2 S1 S2 H v) s = B2 S1 S2 H (X v) s.
Proof.
  intros C1 C2 HC v s Hs. unfold B2. rewrite X_csum.
  assert (E : forall x, In x S1 -> X (fun s => csum (fun y => H x y * T2 nb x y v s)%C S2) s =
     csum (fun y => H x y * T2 nb x y (X v) s + csum (fun w => M w x * H x y * T2 nb w y v s) S1 - csum (fun w => H x y * M y w * T2 nb x w v s) S2)%C S2).
  { intros x Hx. rewrite X_csum. apply csum_ext. intros y Hy. rewrite X_scale.
    rewrite (X_T2 n nb Hwf Hn O HO HOk M) by (eauto using closed_in).
    rewrite (closed_l S1 x) by auto. rewrite (closed_r S2 y) by auto.
    transitivity (H x y * T2 nb x y (X v) s + H x y * csum (fun w => M w x * T2 nb w y v s) S1 - H x y * csum (fun w => M y w * T2 nb x w v s) S2)%C; [ring|].
    rewrite <- !csum_mul_l. f_equal; [f_equal|]; apply csum_ext; intros w _; ring. }
  rewrite (csum_ext _ _ S1 E).
  rewrite (csum_ext _ (fun x => csum (fun y => H x y * T2 nb x y (X v) s)%C S2 + csum (fun y => csum (fun w => M w x * H x y * T2 nb w y v s)%C S1) S2
    - csum (fun y => csum (fun w => H x y * M y w * T2 nb x w v s)%C S2) S2)%C S1) by (intros x _; rewrite csum_sub, csum_add; reflexivity).
  rewrite csum_sub, csum_add.
  assert (E1 : csum (fun x => csum (fun y => csum (fun w => M w x * H x y * T2 nb w y v s)%C S1) S2) S1 =
    csum (fun x => csum (fun y => csum (fun w => M x w * H w y)%C S1 * T2 nb x y v s)%C S2) S1).
  { rewrite (mv2 (fun x y w => M w x * H x y * T2 nb w y v s)%C). apply csum_ext. intros w _.
    rewrite csum_swap. apply csum_ext. intros y _. rewrite <- csum_mul_r. reflexivity. }
  assert (E2 : csum (fun x => csum (fun y => csum (fun w => H x y * M y w * T2 nb x w v s)%C S2) S2) S1 =
    csum (fun x => csum (fun y => csum (fun w => H x w * M w y)%C S2 * T2 nb x y v s)%C S2) S1).
  { apply csum_ext. intros x _. rewrite csum_swap. apply csum_ext. intros w _. rewrite <- csum_mul_r. reflexivity. }
  rewrite E1, E2.
  rewrite (csum_ext (fun x => csum (fun y => csum (fun w => M x w * H w y)%C S1 * T2 nb x y v s)%C S2)
     (fun x => csum (fun y => csum (fun w => H x w * M w y)%C S2 * T2 nb x y v s)%C S2) S1); [ring|].
  intros x Hx. apply csum_ext. intros y Hy. rewrite HC; auto.
Qed.
Lemma B4_comm S1 S2 S3 S4 W : closed S1 -> closed S2 -> closed S3 -> closed S4 ->
  (forall x y z t, In x S1 -> In y S2 -> In z S3 -> In t S4 ->
     (csum (fun w => M x w * W w y z t) S1 + csum (fun w => M y w * W x w z t) S2)%C = (csum (fun w => W x y w t * M w z) S3 + csum (fun w => W x y z w * M w t) S4)%C) ->
  forall v s, length s = n -> X (B4 S1 S2 S3 S4 W v) s = B4 S1 S2 S3 S4 W (X v) s.
Proof.
  intros C1 C2 C3 C4 HC v s Hs. unfold B4. rewrite X_csum.
  set (T := fun x y z t => T4 nb x y z t v s).
  set (D := fun x y z t => (csum (fun w => M w x * W x y z t * T w y z t) S1 + csum (fun w => M w y * W x y z t * T x w z t) S2
       - csum (fun w => W x y z t * M z w * T x y w t) S3 - csum (fun w => W x y z t * M t w * T x y z w) S4)%C).
  transitivity (csum (fun x => csum (fun y => csum (fun z => csum (fun t => W x y z t * T4 nb x y z t (X v) s + D x y z t)%C S4) S3) S2) S1).
  { apply csum_ext. intros x Hx. rewrite X_csum. apply csum_ext. intros y Hy. rewrite X_csum. apply csum_ext. intros z Hz. rewrite X_csum. apply csum_ext. intros t Ht.
    rewrite X_scale. rewrite (X_T4 n nb Hwf Hn O HO HOk M) by (eauto using closed_in).
    rewrite (closed_l S1 x) by auto. rewrite (closed_l S2 y) by auto. rewrite (closed_r S3 z) by auto. rewrite (closed_r S4 t) by auto.
    unfold D, T.
    transitivity (W x y z t * T4 nb x y z t (X v) s + (W x y z t * csum (fun w => M w x * T4 nb w y z t v s) S1 + W x y z t * csum (fun w => M w y * T4 nb x w z t v s) S2
      - W x y z t * csum (fun w => M z w * T4 nb x y w t v s) S3 - W x y z t * csum (fun w => M t w * T4 nb x y z w v s) S4))%C; [ring|].
    rewrite <- !csum_mul_l. f_equal. f_equal; [f_equal; [f_equal|]|]; apply csum_ext; intros w _; ring. }
  assert (Z0 : csum (fun x => csum (fun y => csum (fun z => csum (fun t => D x y z t) S4) S3) S2) S1 = c0).
  { unfold D.
    assert (SP : forall (g1 g2 g3 g4 : spinorb -> spinorb -> spinorb -> spinorb -> cx F),
      csum (fun x => csum (fun y => csum (fun z => csum (fun t => g1 x y z t + g2 x y z t - g3 x y z t - g4 x y z t)%C S4) S3) S2) S1 =
      (csum (fun x => csum (fun y => csum (fun z => csum (fun t => g1 x y z t) S4) S3) S2) S1 + csum (fun x => csum (fun y => csum (fun z => csum (fun t => g2 x y z t) S4) S3) S2) S1
       - csum (fun x => csum (fun y => csum (fun z => csum (fun t => g3 x y z t) S4) S3) S2) S1 - csum (fun x => csum (fun y => csum (fun z => csum (fun t => g4 x y z t) S4) S3) S2) S1)%C).
    { intros. rewrite <- csum_add, <- !csum_sub. apply csum_ext. intros x _. rewrite <- csum_add, <- !csum_sub. apply csum_ext. intros y _.
      rewrite <- csum_add, <- !csum_sub. apply csum_ext. intros z _. rewrite <- csum_add, <- !csum_sub. reflexivity. }
    rewrite SP.
    assert (G1 : csum (fun x => csum (fun y => csum (fun z => csum (fun t => csum (fun w => M w x * W x y z t * T w y z t)%C S1) S4) S3) S2) S1 =
      csum (fun x => csum (fun y => csum (fun z => csum (fun t => csum (fun w => M x w * W w y z t)%C S1 * T x y z t)%C S4) S3) S2) S1).
    { transitivity (csum (fun w => csum (fun x => csum (fun y => csum (fun z => csum (fun t => M w x * W x y z t * T w y z t)%C S4) S3) S2) S1) S1).
      - rewrite (csum_swap (fun w x => csum (fun y => csum (fun z => csum (fun t => M w x * W x y z t * T w y z t)%C S4) S3) S2)). apply csum_ext. intros x _.
        rewrite (csum_swap (fun w y => csum (fun z => csum (fun t => M w x * W x y z t * T w y z t)%C S4) S3)). apply csum_ext. intros y _.
        apply (mv2 (fun z t w => M w x * W x y z t * T w y z t)%C).
      - apply csum_ext. intros w _. rewrite csum_swap. apply csum_ext. intros y _. rewrite csum_swap. apply csum_ext. intros z _.
        rewrite csum_swap. apply csum_ext. intros t _. rewrite <- csum_mul_r. reflexivity. }
    assert (G2 : csum (fun x => csum (fun y => csum (fun z => csum (fun t => csum (fun w => M w y * W x y z t * T x w z t)%C S2) S4) S3) S2) S1 =
      csum (fun x => csum (fun y => csum (fun z => csum (fun t => csum (fun w => M y w * W x w z t)%C S2 * T x y z t)%C S4) S3) S2) S1).
    { apply csum_ext. intros x _. transitivity (csum (fun w => csum (fun y => csum (fun z => csum (fun t => M w y * W x y z t * T x w z t)%C S4) S3) S2) S2).
      - rewrite (csum_swap (fun w y => csum (fun z => csum (fun t => M w y * W x y z t * T x w z t)%C S4) S3)). apply csum_ext. intros y _.
        apply (mv2 (fun z t w => M w y * W x y z t * T x w z t)%C).
      - apply csum_ext. intros w _. rewrite csum_swap. apply csum_ext. intros z _. rewrite csum_swap. apply csum_ext. intros t _. rewrite <- csum_mul_r. reflexivity. }
    assert (G3 : csum (fun x => csum (fun y => csum (fun z => csum (fun t => csum (fun w => W x y z t * M z w * T x y w t)%C S3) S4) S3) S2) S1 =
      csum (fun x => csum (fun y => csum (fun z => csum (fun t => csum (fun w => W x y w t * M w z)%C S3 * T x y z t)%C S4) S3) S2) S1).
    { apply csum_ext. intros x _. apply csum_ext. intros y _. rewrite (mv2 (fun z t w => W x y z t * M z w * T x y w t)%C). apply csum_ext. intros w _.
      rewrite csum_swap. apply csum_ext. intros t _. rewrite <- csum_mul_r. reflexivity. }
    assert (G4 : csum (fun x => csum (fun y => csum (fun z => csum (fun t => csum (fun w => W x y z t * M t w * T x y z w)%C S4) S4) S3) S2) S1 =
      csum (fun x => csum (fun y => csum (fun z => csum (fun t => csum (fun w => W x y z w * M w t)%C S4 * T x y z t)%C S4) S3) S2) S1).
    { apply csum_ext. intros x _. apply csum_ext. intros y _. apply csum_ext. intros z _. rewrite csum_swap. apply csum_ext. intros w _.
      rewrite <- csum_mul_r. reflexivity. }
    rewrite G1, G2, G3, G4, <- SP. apply csum_zero. intros x Hx. apply csum_zero. intros y Hy. apply csum_zero. intros z Hz. apply csum_zero. intros t Ht.
    pose proof (HC x y z t Hx Hy Hz Ht) as E.
    set (a1 := csum (fun w => M x w * W w y z t)%C S1) in *. set (a2 := csum (fun w => M y w * W x w z t)%C S2) in *.
    set (a3 := csum (fun w => W x y w t * M w z)%C S3) in *. set (a4 := csum (fun w => W x y z w * M w t)%C S4) in *.
    transitivity ((a1 + a2 - (a3 + a4)) * T x y z t)%C; [ring|]. rewrite E. ring. }
  transitivity (csum (fun x => csum (fun y => csum (fun z => csum (fun t => W x y z t * T4 nb x y z t (X v) s)%C S4) S3) S2) S1 +
    csum (fun x => csum (fun y => csum (fun z => csum (fun t => D x y z t) S4) S3) S2) S1)%C.
  - rewrite <- csum_add. apply csum_ext. intros x _. rewrite <- csum_add. apply csum_ext. intros y _. rewrite <- csum_add. apply csum_ext. intros z _.
    rewrite <- csum_add. reflexivity.
  - rewrite Z0. ring.
Qed.
End A.
