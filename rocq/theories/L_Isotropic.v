(* The isotropic spectrum. *)
From Coq Require Import Permutation Ring Field.
From Verif Require Import M_Prelude M_Scalar M_PSR M_State M_Mpi M_Hamiltonian M_Lanczos M_Spectra M_Basis M_Expect M_Operators S_Fock S_Ops S_Basis S_Expect S_Ham S_Green S_Spectra S_Operators S_Symmetry S_TimeReversal S_Dichroism S_Isotropic.
From Verif Require Import L_Scalar L_Sum L_Dict L_Fock L_State L_Ops L_Index L_Expect L_ApplyOp L_FockP L_Operators L_Operators2 L_Operators3 L_Operators4 L_Operators5 L_Operators7 L_Symmetry L_Symmetry3 L_TimeReversal L_Dichroism.
From Verif Require P_Spectra.

Section Lin.
Context {F : ofield}.
Add Field Ff : (f_field F).
Add Ring Cring : (@c_ring F).
(* columns of a 3 x 3 matrix with orthonormal rows *)
Section M.
Variables a1 a2 a3 b1 b2 b3 d1 d2 d3 : F.
Local Open Scope of_scope.
Hypothesis Haa : a1 * a1 + a2 * a2 + a3 * a3 = 1.
Hypothesis Hbb : b1 * b1 + b2 * b2 + b3 * b3 = 1.
Hypothesis Hdd : d1 * d1 + d2 * d2 + d3 * d3 = 1.
Hypothesis Hab : a1 * b1 + a2 * b2 + a3 * b3 = 0.
Hypothesis Had : a1 * d1 + a2 * d2 + a3 * d3 = 0.
Hypothesis Hbd : b1 * d1 + b2 * d2 + b3 * d3 = 0.
Let D := a1 * (b2 * d3 - b3 * d2) - a2 * (b1 * d3 - b3 * d1) + a3 * (b1 * d2 - b2 * d1).
Lemma det_sq : D * D = 1.
Proof.
  transitivity ((a1 * a1 + a2 * a2 + a3 * a3) * ((b1 * b1 + b2 * b2 + b3 * b3) * (d1 * d1 + d2 * d2 + d3 * d3) - (b1 * d1 + b2 * d2 + b3 * d3) * (b1 * d1 + b2 * d2 + b3 * d3))
    - (a1 * b1 + a2 * b2 + a3 * b3) * ((a1 * b1 + a2 * b2 + a3 * b3) * (d1 * d1 + d2 * d2 + d3 * d3) - (b1 * d1 + b2 * d2 + b3 * d3) * (a1 * d1 + a2 * d2 + a3 * d3))
    + (a1 * d1 + a2 * d2 + a3 * d3) * ((a1 * b1 + a2 * b2 + a3 * b3) * (b1 * d1 + b2 * d2 + b3 * d3) - (b1 * b1 + b2 * b2 + b3 * b3) * (a1 * d1 + a2 * d2 + a3 * d3))).
  - unfold D. ring.
  - rewrite Haa, Hbb, Hdd, Hab, Had, Hbd. ring.
Qed.
Lemma det_cancel x y : D * x = D * y -> x = y.
Proof. intros H. transitivity (D * D * x); [rewrite det_sq; ring|]. transitivity (D * (D * x)); [ring|]. rewrite H. transitivity (D * D * y); [ring|]. rewrite det_sq. ring. Qed.
(* sum_i adj_xi (h_ij) row_j with h = identity *)
Let col (p1 p2 p3 x1 x2 x3 : F) :=
  p1 * ((a1 * a1 + a2 * a2 + a3 * a3) * x1 + (a1 * b1 + a2 * b2 + a3 * b3) * x2 + (a1 * d1 + a2 * d2 + a3 * d3) * x3) +
  p2 * ((a1 * b1 + a2 * b2 + a3 * b3) * x1 + (b1 * b1 + b2 * b2 + b3 * b3) * x2 + (b1 * d1 + b2 * d2 + b3 * d3) * x3) +
  p3 * ((a1 * d1 + a2 * d2 + a3 * d3) * x1 + (b1 * d1 + b2 * d2 + b3 * d3) * x2 + (d1 * d1 + d2 * d2 + d3 * d3) * x3).
Lemma col_id p1 p2 p3 x1 x2 x3 : col p1 p2 p3 x1 x2 x3 = p1 * x1 + p2 * x2 + p3 * x3.
Proof. unfold col. rewrite Haa, Hbb, Hdd, Hab, Had, Hbd. ring. Qed.
Ltac go p1 p2 p3 x1 x2 x3 := apply det_cancel; transitivity (col p1 p2 p3 x1 x2 x3); [unfold col, D; ring|rewrite col_id; unfold D; ring].
Lemma columns : (a1 * a1 + b1 * b1 + d1 * d1 = 1 /\ a2 * a2 + b2 * b2 + d2 * d2 = 1 /\ a3 * a3 + b3 * b3 + d3 * d3 = 1) /\
  (a1 * a2 + b1 * b2 + d1 * d2 = 0 /\ a1 * a3 + b1 * b3 + d1 * d3 = 0 /\ a2 * a3 + b2 * b3 + d2 * d3 = 0).
Proof.
  set (p11 := b2 * d3 - b3 * d2). set (p12 := - (a2 * d3 - a3 * d2)). set (p13 := a2 * b3 - a3 * b2).
  set (p21 := - (b1 * d3 - b3 * d1)). set (p22 := a1 * d3 - a3 * d1). set (p23 := - (a1 * b3 - a3 * b1)).
  set (p31 := b1 * d2 - b2 * d1). set (p32 := - (a1 * d2 - a2 * d1)). set (p33 := a1 * b2 - a2 * b1).
  split; split; [|split| |split].
  - unfold p11, p12, p13. go (b2 * d3 - b3 * d2) (- (a2 * d3 - a3 * d2)) (a2 * b3 - a3 * b2) a1 b1 d1.
  - go (- (b1 * d3 - b3 * d1)) (a1 * d3 - a3 * d1) (- (a1 * b3 - a3 * b1)) a2 b2 d2.
  - go (b1 * d2 - b2 * d1) (- (a1 * d2 - a2 * d1)) (a1 * b2 - a2 * b1) a3 b3 d3.
  - go (b2 * d3 - b3 * d2) (- (a2 * d3 - a3 * d2)) (a2 * b3 - a3 * b2) a2 b2 d2.
  - go (b2 * d3 - b3 * d2) (- (a2 * d3 - a3 * d2)) (a2 * b3 - a3 * b2) a3 b3 d3.
  - go (- (b1 * d3 - b3 * d1)) (a1 * d3 - a3 * d1) (- (a1 * b3 - a3 * b1)) a3 b3 d3.
Qed.
End M.

Section V.
Local Open Scope cx_scope.
Variable n : nat.
Variable z : cx F.
Variable h : config -> config -> cx F.
Definition vsol (x y : config -> cx F) : Prop := forall t, length t = n -> z * x t - csum (fun s => h t s * x s) (allcfg n) = y t.
Definition gv (y : config -> cx F) (g : cx F) : Prop :=
  exists x, vsol x y /\ vdot n y x = g /\ forall x', vsol x' y -> forall t, length t = n -> x' t = x t.
Definition comb (a b c : F) (u v w : config -> cx F) (t : config) : cx F := creal a * u t + creal b * v t + creal c * w t.
Lemma vsol_comb a b c u v w p q r : vsol u p -> vsol v q -> vsol w r -> vsol (comb a b c u v w) (comb a b c p q r).
Proof.
  intros H1 H2 H3 t Ht. unfold comb at 3. rewrite <- (H1 t Ht), <- (H2 t Ht), <- (H3 t Ht).
  assert (E : csum (fun s => h t s * comb a b c u v w s) (allcfg n) =
    creal a * csum (fun s => h t s * u s) (allcfg n) + creal b * csum (fun s => h t s * v s) (allcfg n) + creal c * csum (fun s => h t s * w s) (allcfg n)).
  { rewrite <- !csum_mul_l, <- !csum_add. apply csum_ext. intros s _. unfold comb. ring. }
  rewrite E. unfold comb. ring.
Qed.
Lemma vsol_ext x y y' : (forall t, length t = n -> y t = y' t) -> vsol x y -> vsol x y'.
Proof. intros H K t Ht. rewrite <- H by auto. auto. Qed.
Lemma vdot_comb a b c u v w p q r : vdot n (comb a b c u v w) (comb a b c p q r) =
  creal (a * a)%F * vdot n u p + creal (b * b)%F * vdot n v q + creal (c * c)%F * vdot n w r
  + creal (a * b)%F * (vdot n u q + vdot n v p) + creal (a * c)%F * (vdot n u r + vdot n w p) + creal (b * c)%F * (vdot n v r + vdot n w q).
Proof.
  unfold vdot. rewrite <- !csum_add, <- !csum_mul_l, <- !csum_add. apply csum_ext. intros s _. unfold comb.
  rewrite !cconj_add, !cconj_mul, !cconj_real, !creal_mul. ring.
Qed.
(* the value for one polarisation in terms of solutions for the axes *)
Variables Y1 Y2 Y3 X1 X2 X3 : config -> cx F.
Hypothesis S1 : vsol X1 Y1. Hypothesis S2 : vsol X2 Y2. Hypothesis S3 : vsol X3 Y3.
Lemma gv_axes a b c y g : (forall t, length t = n -> y t = comb a b c Y1 Y2 Y3 t) -> gv y g -> g = vdot n (comb a b c Y1 Y2 Y3) (comb a b c X1 X2 X3).
Proof.
  intros Hy (x & _ & E & U). rewrite <- E. apply vdot_ext; auto. intros t Ht. symmetry. apply U; auto.
  apply (vsol_ext _ (comb a b c Y1 Y2 Y3)); [symmetry; auto|]. apply vsol_comb; auto.
Qed.
End V.
Section W.
Local Open Scope cx_scope.
Variable n : nat.
Variable z : cx F.
Variable h : config -> config -> cx F.
Variables Y1 Y2 Y3 : config -> cx F.
Let pol (e : list F) (y : config -> cx F) : Prop := forall t, length t = n -> y t = comb (nth 0 e 0%F) (nth 1 e 0%F) (nth 2 e 0%F) Y1 Y2 Y3 t.
Lemma triad_columns e : triad e -> let m i j := nth j (nth i e []) (0%F : F) in
  forall i j, (i < 3)%nat -> (j < 3)%nat -> (m 0%nat i * m 0%nat j + m 1%nat i * m 1%nat j + m 2%nat i * m 2%nat j)%F = if Nat.eqb i j then 1%F else 0%F.
Proof.
  intros (_ & _ & H) m.
  destruct (columns (m 0%nat 0%nat) (m 0%nat 1%nat) (m 0%nat 2%nat) (m 1%nat 0%nat) (m 1%nat 1%nat) (m 1%nat 2%nat) (m 2%nat 0%nat) (m 2%nat 1%nat) (m 2%nat 2%nat)
    (H 0%nat 0%nat ltac:(lia) ltac:(lia)) (H 1%nat 1%nat ltac:(lia) ltac:(lia)) (H 2%nat 2%nat ltac:(lia) ltac:(lia))
    (H 0%nat 1%nat ltac:(lia) ltac:(lia)) (H 0%nat 2%nat ltac:(lia) ltac:(lia)) (H 1%nat 2%nat ltac:(lia) ltac:(lia))) as [(A & B & C) (P & Q & R)].
  intros i j Hi Hj. destruct i as [|[|[|]]]; try lia; destruct j as [|[|[|]]]; try lia; cbn [Nat.eqb]; auto.
  - rewrite <- P. ring.
  - rewrite <- Q. ring.
  - rewrite <- R. ring.
Qed.
Lemma iso_trace X1 X2 X3 e y g : triad e -> vsol n z h X1 Y1 -> vsol n z h X2 Y2 -> vsol n z h X3 Y3 ->
  (forall i, (i < 3)%nat -> pol (nth i e []) (y i) /\ gv n z h (y i) (g i)) ->
  g 0%nat + g 1%nat + g 2%nat = vdot n Y1 X1 + vdot n Y2 X2 + vdot n Y3 X3.
Proof.
  intros He S1 S2 S3 H. pose proof (triad_columns e He) as K. cbn in K.
  assert (G : forall i, (i < 3)%nat -> g i = _) by (intros i Hi; destruct (H i Hi) as [P Q]; exact (gv_axes n z h Y1 Y2 Y3 X1 X2 X3 S1 S2 S3 _ _ _ _ _ P Q)).
  rewrite (G 0%nat), (G 1%nat), (G 2%nat) by lia. rewrite !vdot_comb.
  pose proof (K 0%nat 0%nat ltac:(lia) ltac:(lia)) as K00. pose proof (K 1%nat 1%nat ltac:(lia) ltac:(lia)) as K11. pose proof (K 2%nat 2%nat ltac:(lia) ltac:(lia)) as K22.
  pose proof (K 0%nat 1%nat ltac:(lia) ltac:(lia)) as K01. pose proof (K 0%nat 2%nat ltac:(lia) ltac:(lia)) as K02. pose proof (K 1%nat 2%nat ltac:(lia) ltac:(lia)) as K12.
  cbn [Nat.eqb] in *. clear - K00 K11 K22 K01 K02 K12.
  apply (f_equal (@creal F)) in K00, K11, K22, K01, K02, K12. rewrite !creal_add in K00, K11, K22, K01, K02, K12.
  revert K00 K11 K22 K01 K02 K12.
  generalize (vdot n Y1 X1), (vdot n Y2 X2), (vdot n Y3 X3), (vdot n Y1 X2 + vdot n Y2 X1), (vdot n Y1 X3 + vdot n Y3 X1), (vdot n Y2 X3 + vdot n Y3 X2).
  generalize (nth 0 (nth 0 e []) (0%F : F)), (nth 1 (nth 0 e []) (0%F : F)), (nth 2 (nth 0 e []) (0%F : F)).
  generalize (nth 0 (nth 1 e []) (0%F : F)), (nth 1 (nth 1 e []) (0%F : F)), (nth 2 (nth 1 e []) (0%F : F)).
  generalize (nth 0 (nth 2 e []) (0%F : F)), (nth 1 (nth 2 e []) (0%F : F)), (nth 2 (nth 2 e []) (0%F : F)).
  intros f1 f2 f3 b1 b2 b3 a1 a2 a3 v1 v2 v3 w1 w2 w3 K00 K11 K22 K01 K02 K12.
  transitivity ((creal (a1 * a1)%F + creal (b1 * b1)%F + creal (f1 * f1)%F) * v1 + (creal (a2 * a2)%F + creal (b2 * b2)%F + creal (f2 * f2)%F) * v2 + (creal (a3 * a3)%F + creal (b3 * b3)%F + creal (f3 * f3)%F) * v3
    + (creal (a1 * a2)%F + creal (b1 * b2)%F + creal (f1 * f2)%F) * w1 + (creal (a1 * a3)%F + creal (b1 * b3)%F + creal (f1 * f3)%F) * w2 + (creal (a2 * a3)%F + creal (b2 * b3)%F + creal (f2 * f3)%F) * w3); [ring|].
  rewrite K00, K11, K22, K01, K02, K12. change (creal (1%F : F)) with (@c1 F). change (creal (0%F : F)) with (@c0 F). ring.
Qed.
(* solutions for the axes from those for one triad *)
Lemma iso_axis e y x k (Y : config -> cx F) : triad e -> (k < 3)%nat -> Y = nth k [Y1; Y2; Y3] Y1 ->
  (forall i, (i < 3)%nat -> pol (nth i e []) (y i) /\ vsol n z h (x i) (y i)) ->
  vsol n z h (comb (nth k (nth 0 e []) 0%F) (nth k (nth 1 e []) 0%F) (nth k (nth 2 e []) 0%F) (x 0%nat) (x 1%nat) (x 2%nat)) Y.
Proof.
  intros He Hk EY H. destruct (H 0%nat ltac:(lia)) as [P0 Q0]. destruct (H 1%nat ltac:(lia)) as [P1 Q1]. destruct (H 2%nat ltac:(lia)) as [P2 Q2].
  apply (vsol_ext n z h _ (comb (nth k (nth 0 e []) 0%F) (nth k (nth 1 e []) 0%F) (nth k (nth 2 e []) 0%F) (y 0%nat) (y 1%nat) (y 2%nat))); [|apply vsol_comb; auto].
  intros t Ht. unfold comb at 1. rewrite (P0 t Ht), (P1 t Ht), (P2 t Ht). unfold comb.
  pose proof (fun j Hj => triad_columns e He k j Hk Hj) as K. cbn in K. clear - K Hk EY.
  pose proof (K 0%nat ltac:(lia)) as K0. pose proof (K 1%nat ltac:(lia)) as K1. pose proof (K 2%nat ltac:(lia)) as K2. clear K.
  apply (f_equal (@creal F)) in K0, K1, K2. rewrite !creal_add, !creal_mul in K0, K1, K2.
  assert (EY' : Y t = nth k [Y1 t; Y2 t; Y3 t] (Y1 t)) by (rewrite EY; destruct k as [|[|[|]]]; auto; lia). rewrite EY'. clear EY EY'.
  revert K0 K1 K2. generalize (nth k (nth 0 e []) (0%F : F)), (nth k (nth 1 e []) (0%F : F)), (nth k (nth 2 e []) (0%F : F)).
  generalize (nth 0 (nth 0 e []) (0%F : F)), (nth 1 (nth 0 e []) (0%F : F)), (nth 2 (nth 0 e []) (0%F : F)).
  generalize (nth 0 (nth 1 e []) (0%F : F)), (nth 1 (nth 1 e []) (0%F : F)), (nth 2 (nth 1 e []) (0%F : F)).
  generalize (nth 0 (nth 2 e []) (0%F : F)), (nth 1 (nth 2 e []) (0%F : F)), (nth 2 (nth 2 e []) (0%F : F)).
  intros f1 f2 f3 b1 b2 b3 a1 a2 a3 p q r K0 K1 K2.
  transitivity ((creal p * creal a1 + creal q * creal b1 + creal r * creal f1) * Y1 t + (creal p * creal a2 + creal q * creal b2 + creal r * creal f2) * Y2 t
    + (creal p * creal a3 + creal q * creal b3 + creal r * creal f3) * Y3 t); [ring|].
  rewrite K0, K1, K2. destruct k as [|[|[|]]]; try lia; cbn [Nat.eqb nth]; change (creal (1%F : F)) with (@c1 F); change (creal (0%F : F)) with (@c0 F); ring.
Qed.
Lemma iso e f y y' g g' : triad e -> triad f ->
  (forall i, (i < 3)%nat -> pol (nth i e []) (y i) /\ gv n z h (y i) (g i)) ->
  (forall i, (i < 3)%nat -> pol (nth i f []) (y' i) /\ gv n z h (y' i) (g' i)) -> g 0%nat + g 1%nat + g 2%nat = g' 0%nat + g' 1%nat + g' 2%nat.
Proof.
  intros He Hf H H'.
  assert (X : exists x, forall i, (i < 3)%nat -> vsol n z h (x i) (y i)).
  { destruct (H 0%nat ltac:(lia)) as [_ (x0 & E0 & _)]. destruct (H 1%nat ltac:(lia)) as [_ (x1 & E1 & _)]. destruct (H 2%nat ltac:(lia)) as [_ (x2 & E2 & _)].
    exists (fun i => nth i [x0; x1; x2] x0). intros i Hi. destruct i as [|[|[|]]]; auto; lia. }
  destruct X as [x Hx]. assert (Hp : forall i, (i < 3)%nat -> pol (nth i e []) (y i) /\ vsol n z h (x i) (y i)) by (intros i Hi; split; [apply H; auto|apply Hx; auto]).
  pose proof (iso_axis e y x 0 Y1 He ltac:(lia) eq_refl Hp) as S1. pose proof (iso_axis e y x 1 Y2 He ltac:(lia) eq_refl Hp) as S2. pose proof (iso_axis e y x 2 Y3 He ltac:(lia) eq_refl Hp) as S3.
  rewrite (iso_trace _ _ _ e y g He S1 S2 S3 H). symmetry. exact (iso_trace _ _ _ f y' g' Hf S1 S2 S3 H').
Qed.
End W.
End Lin.

Section Dip.
Context {F : ofield}.
Add Field Ff2 : (f_field F).
Add Ring Cring2 : (@c_ring F).
Local Open Scope Z_scope.
Variable fsqrt : F -> F.
Variable pi : F.
Variable gaunt : Z -> Z -> Z -> Z -> Z -> Z -> F.
Variable nb : nbaths_t.
Hypothesis Hw : wf_nbaths nb.
Hypothesis H2 : fsqrt (fofZ 2) <> 0%F.
Notation n := (n_orb nb).
Notation ck := (gauntC fsqrt pi gaunt).
(* r_a |v> *)
Definition moved (l1 l2 : Z) (r : spinorb -> spinorb -> cx F) (v : config -> cx F) (t : config) : cx F :=
  csum (fun xy => r (fst xy) (snd xy) * pvec (pidx nb (hop2 (fst xy) (snd xy))) v t)%C (list_prod (shell l2) (shell l1)).
Lemma dip_keys_of e D : length e = 3%nat -> getDipoleOperator fsqrt pi gaunt nb e = Ok D -> exists l1 l2, dkeys nb = [KInt l1; KInt l2].
Proof.
  intros He E. destruct e as [|a [|b [|d rest]]]; try discriminate He. unfold getDipoleOperator in E.
  change 0 with (Z.of_nat 0) in E at 1. change (py_nth (a :: b :: d :: rest) 1) with (py_nth (a :: b :: d :: rest) (Z.of_nat 1)) in E. change (py_nth (a :: b :: d :: rest) 2) with (py_nth (a :: b :: d :: rest) (Z.of_nat 2)) in E.
  rewrite !(py_nth_ok (a :: b :: d :: rest) _ 0%F) in E by (cbn [length]; lia). cbn [bind] in E.
  destruct (dkeys nb) as [|k1 [|k2 [|]]]; try discriminate E; destruct k2, k1; try discriminate E. eauto.
Qed.
Lemma dip_linear l1 l2 e D v t : dkeys nb = [KInt l1; KInt l2] -> length e = 3%nat -> getDipoleOperator fsqrt pi gaunt nb e = Ok D -> length t = n ->
  opv n D v t = comb (nth 0 e 0%F) (nth 1 e 0%F) (nth 2 e 0%F) (moved l1 l2 (r_x fsqrt ck) v) (moved l1 l2 (r_y fsqrt ck) v) (moved l1 l2 (r_z ck) v) t.
Proof.
  intros Hk He E Ht. destruct e as [|a [|b [|d [|]]]]; try discriminate He. destruct (dip_ok fsqrt pi gaunt nb Hw l1 l2 Hk a b d [] H2) as (D' & E' & HD). rewrite E in E'. injection E' as <-.
  assert (Hi : In l1 (angs nb) /\ In l2 (angs nb)) by (unfold angs; rewrite Hk; cbn; auto).
  rewrite (one_body_sum nb Hw D l2 l1 _ v t (proj2 Hi) (proj1 Hi) HD Ht). unfold comb, moved. cbn [nth].
  rewrite <- !csum_mul_l, <- !csum_add. apply csum_ext. intros [x y] _. cbn [fst snd]. unfold n_dot_r. ring.
Qed.
Lemma dip_wf e D : length e = 3%nat -> getDipoleOperator fsqrt pi gaunt nb e = Ok D -> wf_op n D.
Proof.
  intros He E. destruct (dip_keys_of e D He E) as (l1 & l2 & Hk). destruct e as [|a [|b [|d [|]]]]; try discriminate He.
  destruct (dip_ok fsqrt pi gaunt nb Hw l1 l2 Hk a b d [] H2) as (D' & E' & HD). rewrite E in E'. injection E' as <-.
  assert (Hi : In l1 (angs nb) /\ In l2 (angs nb)) by (unfold angs; rewrite Hk; cbn; auto).
  exact (one_body_wf nb Hw D l2 l1 _ (proj2 Hi) (proj1 Hi) HD).
Qed.
Lemma triad_ops e De : triad e -> getDipoleOperators fsqrt pi gaunt nb e = Ok De -> length De = 3%nat /\ Forall (wf_op n) De /\
  (exists l1 l2, dkeys nb = [KInt l1; KInt l2]) /\ forall i, (i < 3)%nat -> length (nth i e []) = 3%nat /\ getDipoleOperator fsqrt pi gaunt nb (nth i e []) = Ok (nth i De []).
Proof.
  intros (L & A & _) E. destruct e as [|a [|b [|d [|]]]]; try discriminate L. inversion_clear A as [|? ? A1 A']. inversion_clear A' as [|? ? A2 A'']. inversion_clear A'' as [|? ? A3 _].
  unfold getDipoleOperators in E. cbn [map_res] in E.
  destruct (getDipoleOperator fsqrt pi gaunt nb a) as [Da|] eqn:Ea; [|discriminate E]. destruct (getDipoleOperator fsqrt pi gaunt nb b) as [Db|] eqn:Eb; [|discriminate E].
  destruct (getDipoleOperator fsqrt pi gaunt nb d) as [Dd|] eqn:Ed; [|discriminate E]. cbn [bind] in E. injection E as <-. split; [reflexivity|].
  split; [apply Forall_cons; [apply (dip_wf a); auto|]; apply Forall_cons; [apply (dip_wf b); auto|]; apply Forall_cons; [apply (dip_wf d); auto|constructor]|].
  split; [apply (dip_keys_of a Da); auto|]. intros i Hi. destruct i as [|[|[|]]]; cbn [nth]; auto; lia.
Qed.
Lemma iso_response e f De Df : triad e -> triad f -> getDipoleOperators fsqrt pi gaunt nb e = Ok De -> getDipoleOperators fsqrt pi gaunt nb f = Ok Df ->
  forall A z v g g', (forall i, (i < 3)%nat -> response n A z (transition n (nth i De [])) v (g i)) ->
  (forall i, (i < 3)%nat -> response n A z (transition n (nth i Df [])) v (g' i)) ->
  (g 0%nat + g 1%nat + g 2%nat = g' 0%nat + g' 1%nat + g' 2%nat)%C.
Proof.
  intros He Hf Ee Ef A z v g g' H H'. destruct (triad_ops e De He Ee) as (_ & _ & (l1 & l2 & Hk) & Te). destruct (triad_ops f Df Hf Ef) as (_ & _ & _ & Tf).
  apply (iso n z (opelem A) (moved l1 l2 (r_x fsqrt ck) v) (moved l1 l2 (r_y fsqrt ck) v) (moved l1 l2 (r_z ck) v) e f
    (fun i => opv n (nth i De []) v) (fun i => opv n (nth i Df []) v)); auto; intros i Hi.
  - split; [|exact (H i Hi)]. intros t Ht. apply dip_linear; auto; apply Te; auto.
  - split; [|exact (H' i Hi)]. intros t Ht. apply dip_linear; auto; apply Tf; auto.
Qed.
(* the states to which getGreen is applied *)
Lemma iso_psiR swm rs psi l1 l2 e D psiR t : (swm <= 0)%F -> valid_psi n psi -> dkeys nb = [KInt l1; KInt l2] -> length e = 3%nat ->
  getDipoleOperator fsqrt pi gaunt nb e = Ok D -> applyOp (Z.of_nat n) D psi swm rs None = (None, Ok psiR) -> length t = n ->
  let Y r t := if okr rs t then moved l1 l2 r (amp psi) t else c0 in
  amp psiR t = comb (nth 0 e 0%F) (nth 1 e 0%F) (nth 2 e 0%F) (Y (r_x fsqrt ck)) (Y (r_y fsqrt ck)) (Y (r_z ck)) t.
Proof.
  intros Hs Hv Hk He E EA Ht Y. destruct (applyOp_amp n D psi swm rs (dip_wf e D He E) Hv) as (psi' & E' & _ & _ & HA). rewrite EA in E'. injection E' as <-.
  rewrite HA, cut_nonpos by auto. unfold comb, Y. destruct (okr rs t); [|ring]. change (op_vec n D psi t) with (opv n D (amp psi) t). apply (dip_linear l1 l2 e D); auto.
Qed.
Lemma iso_green swm rs psi e f De Df h z g g' : (swm <= 0)%F -> valid_psi n psi -> triad e -> triad f ->
  getDipoleOperators fsqrt pi gaunt nb e = Ok De -> getDipoleOperators fsqrt pi gaunt nb f = Ok Df ->
  (forall i, (i < 3)%nat -> exists psiR, applyOp (Z.of_nat n) (nth i De []) psi swm rs None = (None, Ok psiR) /\ fock_green n z h psiR (g i)) ->
  (forall i, (i < 3)%nat -> exists psiR, applyOp (Z.of_nat n) (nth i Df []) psi swm rs None = (None, Ok psiR) /\ fock_green n z h psiR (g' i)) ->
  (g 0%nat + g 1%nat + g 2%nat = g' 0%nat + g' 1%nat + g' 2%nat)%C.
Proof.
  intros Hs Hv He Hf Ee Ef H H'. destruct (triad_ops e De He Ee) as (_ & _ & (l1 & l2 & Hk) & Te). destruct (triad_ops f Df Hf Ef) as (_ & _ & _ & Tf).
  set (Y := fun r t => if okr rs t then moved l1 l2 r (amp psi) t else c0).
  assert (K : forall D gg, (forall i, (i < 3)%nat -> exists psiR, applyOp (Z.of_nat n) (nth i D []) psi swm rs None = (None, Ok psiR) /\ fock_green n z h psiR (gg i)) ->
    exists ps, forall i, (i < 3)%nat -> applyOp (Z.of_nat n) (nth i D []) psi swm rs None = (None, Ok (ps i)) /\ fock_green n z h (ps i) (gg i)).
  { intros D gg K. destruct (K 0%nat ltac:(lia)) as [p0 K0]. destruct (K 1%nat ltac:(lia)) as [p1 K1]. destruct (K 2%nat ltac:(lia)) as [p2 K2].
    exists (fun i => nth i [p0; p1; p2] []). intros i Hi. destruct i as [|[|[|]]]; auto; lia. }
  destruct (K De g H) as [ps Hp]. destruct (K Df g' H') as [ps' Hp'].
  apply (iso n z h (Y (r_x fsqrt ck)) (Y (r_y fsqrt ck)) (Y (r_z ck)) e f (fun i => amp (ps i)) (fun i => amp (ps' i))); auto; intros i Hi.
  - destruct (Hp i Hi) as [E G]. split; [|exact G]. intros t Ht. apply (iso_psiR swm rs psi l1 l2 (nth i e []) (nth i De [])); auto; apply Te; auto.
  - destruct (Hp' i Hi) as [E G]. split; [|exact G]. intros t Ht. apply (iso_psiR swm rs psi l1 l2 (nth i f []) (nth i Df [])); auto; apply Tf; auto.
Qed.
End Dip.

(* getSpectra *)
Lemma sqrt2_nz {F : ofield} (fsqrt : F -> F) : sqrt_laws fsqrt -> fsqrt (fofZ 2) <> 0%F.
Proof.
  intros Hq X. destruct (Hq (fofZ 2)) as [_ Y]; [apply flt_le, L_Ham.fofZ_pos; lia|]. rewrite X, fmul_0_l in Y.
  pose proof (L_Ham.fofZ_pos (F := F) 2 ltac:(lia)) as P2. rewrite <- Y, flt_irrefl in P2. discriminate P2.
Qed.
Lemma iso_modes {F : ofield} (fsqrt : F -> F) pi gaunt nb e f De Df w psis es swm rs delta h i psi en (gs gs' : garr F) :
  wf_nbaths nb -> sqrt_laws fsqrt -> (swm <= 0)%F -> Forall (valid_psi (n_orb nb)) psis -> triad e -> triad f ->
  getDipoleOperators fsqrt pi gaunt nb e = Ok De -> getDipoleOperators fsqrt pi gaunt nb f = Ok Df ->
  nth_error psis i = Some psi -> nth_error es i = Some en ->
  (forall t tOp, nth_error De t = Some tOp -> exists psiR, applyOp (Z.of_nat (n_orb nb)) tOp psi swm rs None = (None, Ok psiR) /\ length (gs i t) = length w /\
     forall k, (k < length w)%nat -> fock_green (n_orb nb) (mkC (nth k w 0 + en)%F delta) h psiR (nth k (gs i t) c0)) ->
  (forall t tOp, nth_error Df t = Some tOp -> exists psiR, applyOp (Z.of_nat (n_orb nb)) tOp psi swm rs None = (None, Ok psiR) /\ length (gs' i t) = length w /\
     forall k, (k < length w)%nat -> fock_green (n_orb nb) (mkC (nth k w 0 + en)%F delta) h psiR (nth k (gs' i t) c0)) ->
  forall k, (k < length w)%nat -> sum3 (gs i) k = sum3 (gs' i) k.
Proof.
  intros Hw Hq Hs Hv He Hf Ee Ef Hp Hen H H' k Hk. pose proof (sqrt2_nz fsqrt Hq) as H2.
  destruct (triad_ops fsqrt pi gaunt nb Hw H2 e De He Ee) as (Le & _). destruct (triad_ops fsqrt pi gaunt nb Hw H2 f Df Hf Ef) as (Lf & _).
  assert (Hpsi : valid_psi (n_orb nb) psi) by (rewrite Forall_forall in Hv; apply Hv; eapply nth_error_In; eauto).
  apply (iso_green fsqrt pi gaunt nb Hw H2 swm rs psi e f De Df h (mkC (nth k w 0 + en)%F delta) (fun t => nth k (gs i t) c0) (fun t => nth k (gs' i t) c0)); auto; intros t Ht.
  - destruct (H t (nth t De []) (nth_error_nth' De [] (eq_ind_r (fun m => (t < m)%nat) Ht Le))) as (psiR & A & _ & B). eauto.
  - destruct (H' t (nth t Df []) (nth_error_nth' Df [] (eq_ind_r (fun m => (t < m)%nat) Ht Lf))) as (psiR & A & _ & B). eauto.
Qed.
Lemma iso_eigen_states {F : ofield} (fsqrt : F -> F) pi gaunt nb e f De Df op rs psis w delta ks swm es ord ord' R R' fuel gs gs' :
  wf_nbaths nb -> sqrt_laws fsqrt -> wf_op (n_orb nb) op -> assert_hermitian op = Ok tt -> wf_restr rs -> Forall (valid_psi (n_orb nb)) psis ->
  (2 ^ n_orb nb < fuel)%nat -> delta <> 0%F -> (Z.of_nat (2 ^ n_orb nb) <= ks)%Z -> (swm <= 0)%F -> (1 <= R)%nat -> (1 <= R')%nat -> triad e -> triad f ->
  getDipoleOperators fsqrt pi gaunt nb e = Ok De -> getDipoleOperators fsqrt pi gaunt nb f = Ok Df ->
  In (Ok gs) (getSpectra fsqrt fuel (Z.of_nat (n_orb nb)) op w delta rs ks swm ord R De psis es EigenStates) ->
  In (Ok gs') (getSpectra fsqrt fuel (Z.of_nat (n_orb nb)) op w delta rs ks swm ord' R' Df psis es EigenStates) ->
  forall i k, (i < length psis)%nat -> (i < length es)%nat -> (k < length w)%nat -> sum3 (gs i) k = sum3 (gs' i) k.
Proof.
  intros Hw Hq Hop HA Hr Hv Hf Hd Hks Hs HR HR' He Hf' Ee Ef G G' i k Hi Hi' Hk. pose proof (sqrt2_nz fsqrt Hq) as H2.
  destruct (triad_ops fsqrt pi gaunt nb Hw H2 e De He Ee) as (Le & We & _). destruct (triad_ops fsqrt pi gaunt nb Hw H2 f Df Hf' Ef) as (Lf & Wf & _).
  destruct (L_Green4.restricted_op_exists (n_orb nb) op rs) as [h Hh].
  destruct (nth_error psis i) as [psi|] eqn:Ep; [|apply nth_error_None in Ep; lia]. destruct (nth_error es i) as [en|] eqn:En; [|apply nth_error_None in En; lia].
  apply (iso_modes fsqrt pi gaunt nb e f De Df w psis es swm rs delta h i psi en gs gs'); auto; intros t tOp Ht.
  - exact (P_Spectra.C36_eigen_states F fsqrt (n_orb nb) op rs De psis (conj Hop (conj Hr (conj We Hv))) Hq HA fuel w delta ks swm es h Hf Hd Hh Hks ord R gs i t psi en tOp HR G Ep En Ht).
  - exact (P_Spectra.C36_eigen_states F fsqrt (n_orb nb) op rs Df psis (conj Hop (conj Hr (conj Wf Hv))) Hq HA fuel w delta ks swm es h Hf Hd Hh Hks ord' R' gs' i t psi en tOp HR' G' Ep En Ht).
Qed.
Lemma iso_H_build {F : ofield} (fsqrt : F -> F) pi gaunt nb e f De Df op rs psis w delta ks swm es (ord ord' : nat -> nat -> nat -> set_order) R R' fuel gs gs' rest rest' :
  wf_nbaths nb -> sqrt_laws fsqrt -> wf_op (n_orb nb) op -> assert_hermitian op = Ok tt -> wf_restr rs -> Forall (valid_psi (n_orb nb)) psis ->
  (2 ^ n_orb nb < fuel)%nat -> delta <> 0%F -> (Z.of_nat (2 ^ n_orb nb) <= ks)%Z -> (swm <= 0)%F -> (1 <= R)%nat -> (1 <= R')%nat -> triad e -> triad f ->
  (forall t i q l, Permutation (ord t i q l) l) -> (forall t i q l, Permutation (ord' t i q l) l) ->
  getDipoleOperators fsqrt pi gaunt nb e = Ok De -> getDipoleOperators fsqrt pi gaunt nb f = Ok Df ->
  getSpectra fsqrt fuel (Z.of_nat (n_orb nb)) op w delta rs ks swm ord R De psis es SHBuild = map Ok (gs :: rest) ->
  getSpectra fsqrt fuel (Z.of_nat (n_orb nb)) op w delta rs ks swm ord' R' Df psis es SHBuild = map Ok (gs' :: rest') ->
  forall i k, (i < length psis)%nat -> (i < length es)%nat -> (k < length w)%nat -> sum3 (gs i) k = sum3 (gs' i) k.
Proof.
  intros Hw Hq Hop HA Hr Hv Hf Hd Hks Hs HR HR' He Hf' Ho Ho' Ee Ef G G' i k Hi Hi' Hk. pose proof (sqrt2_nz fsqrt Hq) as H2.
  destruct (triad_ops fsqrt pi gaunt nb Hw H2 e De He Ee) as (Le & We & _). destruct (triad_ops fsqrt pi gaunt nb Hw H2 f Df Hf' Ef) as (Lf & Wf & _).
  destruct (L_Green4.restricted_op_exists (n_orb nb) op rs) as [h Hh].
  assert (NS : forall tOp : op_t F, no_small (n_orb nb) tOp swm rs) by (intros tOp s t _ _ _; right; eapply fle_trans; [exact Hs|apply cabs2_nonneg]).
  destruct (nth_error psis i) as [psi|] eqn:Ep; [|apply nth_error_None in Ep; lia]. destruct (nth_error es i) as [en|] eqn:En; [|apply nth_error_None in En; lia].
  apply (iso_modes fsqrt pi gaunt nb e f De Df w psis es swm rs delta h i psi en gs gs'); auto; intros t tOp Ht.
  - exact (P_Spectra.C36_H_build_spectra F fsqrt (n_orb nb) op rs De psis (conj Hop (conj Hr (conj We Hv))) Hq HA fuel w delta ks swm es h Hf Hd Hh Hks ord Ho R i t psi en tOp gs rest HR G Ep En Ht (NS tOp)).
  - exact (P_Spectra.C36_H_build_spectra F fsqrt (n_orb nb) op rs Df psis (conj Hop (conj Hr (conj Wf Hv))) Hq HA fuel w delta ks swm es h Hf Hd Hh Hks ord' Ho' R' i t psi en tOp gs' rest' HR' G' Ep En Ht (NS tOp)).
Qed.
