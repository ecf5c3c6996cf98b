(* Ordered-field and complex arithmetic facts. *)
From Coq Require Import Field Ring.
From Verif Require Import M_Prelude M_Scalar.

Section OF.
Context {F : ofield}.
Add Field Ffield : (f_field F).
Local Open Scope of_scope.

Lemma fle_refl (x : F) : x <= x.
Proof. apply flt_irrefl. Qed.
Lemma flt_le (x y : F) : x < y -> x <= y.
Proof.
  intros H. destruct (y <? x) eqn:E; auto.
  pose proof (flt_trans F _ _ _ H E) as C. rewrite flt_irrefl in C. discriminate.
Qed.
Lemma fle_lt_trans (x y z : F) : x <= y -> y < z -> x < z.
Proof.
  intros H1 H2. destruct (x <? y) eqn:E; [eapply flt_trans; eauto|].
  rewrite (flt_total F x y E H1). exact H2.
Qed.
Lemma flt_le_trans (x y z : F) : x < y -> y <= z -> x < z.
Proof.
  intros H1 H2. destruct (y <? z) eqn:E; [eapply flt_trans; eauto|].
  rewrite <- (flt_total F y z E H2). exact H1.
Qed.
Lemma fle_trans (x y z : F) : x <= y -> y <= z -> x <= z.
Proof.
  intros H1 H2. destruct (z <? x) eqn:E; auto.
  pose proof (flt_le_trans _ _ _ E H1) as C. congruence.
Qed.
Lemma fle_antisym (x y : F) : x <= y -> y <= x -> x = y.
Proof. intros H1 H2. apply (flt_total F); auto. Qed.
Lemma flt_not_eq (x y : F) : x < y -> x <> y.
Proof. intros H ->. rewrite flt_irrefl in H. discriminate. Qed.

Lemma fadd_lt_l (x y z : F) : x < y -> z + x < z + y.
Proof.
  intros H. replace (z + x) with (x + z) by ring. replace (z + y) with (y + z) by ring.
  apply flt_add. exact H.
Qed.
Lemma fadd_lt_cancel (x y z : F) : x + z < y + z -> x < y.
Proof.
  intros H. replace x with (x + z + - z) by ring. replace y with (y + z + - z) by ring.
  apply flt_add. exact H.
Qed.
Lemma fadd_le_r (x y z : F) : x <= y -> x + z <= y + z.
Proof.
  intros H. destruct (y + z <? x + z) eqn:E; auto. apply fadd_lt_cancel in E. congruence.
Qed.
Lemma fadd_le_l (x y z : F) : x <= y -> z + x <= z + y.
Proof.
  intros H. replace (z + x) with (x + z) by ring. replace (z + y) with (y + z) by ring.
  apply fadd_le_r. exact H.
Qed.
Lemma fadd_le (x y u v : F) : x <= y -> u <= v -> x + u <= y + v.
Proof. intros H1 H2. eapply fle_trans; [apply fadd_le_r; eauto|apply fadd_le_l; auto]. Qed.
Lemma fadd_lt_le (x y u v : F) : x < y -> u <= v -> x + u < y + v.
Proof. intros H1 H2. eapply flt_le_trans; [apply flt_add; eauto|apply fadd_le_l; auto]. Qed.
Lemma fadd_nonneg (x y : F) : 0 <= x -> 0 <= y -> 0 <= x + y.
Proof. intros H1 H2. replace 0 with (0 + 0 : F) by ring. apply fadd_le; auto. Qed.
Lemma fadd_pos (x y : F) : 0 < x -> 0 <= y -> 0 < x + y.
Proof. intros H1 H2. replace 0 with (0 + 0 : F) by ring. apply fadd_lt_le; auto. Qed.
Lemma fopp_lt (x y : F) : x < y -> - y < - x.
Proof.
  intros H. pose proof (flt_add F x y (- x - y) H) as C.
  replace (x + (- x - y)) with (- y) in C by ring. replace (y + (- x - y)) with (- x) in C by ring.
  exact C.
Qed.
Lemma fopp_le (x y : F) : x <= y -> - y <= - x.
Proof.
  intros H. destruct (- x <? - y) eqn:E; auto. apply fopp_lt in E.
  replace (- - y) with y in E by ring. replace (- - x) with x in E by ring. congruence.
Qed.
Lemma fopp_pos (x : F) : x < 0 -> 0 < - x.
Proof. intros H. apply fopp_lt in H. replace (- 0) with (0:F) in H by ring. exact H. Qed.
Lemma fopp_nonneg (x : F) : x <= 0 -> 0 <= - x.
Proof. intros H. apply fopp_le in H. replace (- 0) with (0:F) in H by ring. exact H. Qed.
Lemma fsub_nonneg (x y : F) : x <= y -> 0 <= y - x.
Proof.
  intros H. replace (y - x) with (y + - x) by ring. replace 0 with (x + - x) by ring.
  apply fadd_le_r. exact H.
Qed.
Lemma fsub_nonneg_inv (x y : F) : 0 <= y - x -> x <= y.
Proof.
  intros H. apply (fadd_le_r _ _ x) in H.
  replace (0 + x) with x in H by ring. replace (y - x + x) with y in H by ring. exact H.
Qed.
Lemma fsub_pos (x y : F) : x < y -> 0 < y - x.
Proof.
  intros H. replace (y - x) with (y + - x) by ring. replace 0 with (x + - x) by ring.
  apply flt_add. exact H.
Qed.

Lemma fmul_nonneg (x y : F) : 0 <= x -> 0 <= y -> 0 <= x * y.
Proof.
  intros H1 H2.
  destruct (0 <? x) eqn:E1.
  - destruct (0 <? y) eqn:E2.
    + apply flt_le, flt_mul; auto.
    + rewrite <- (flt_total F 0 y E2 H2). replace (x * 0) with (0:F) by ring. apply fle_refl.
  - rewrite <- (flt_total F 0 x E1 H1). replace (0 * y) with (0:F) by ring. apply fle_refl.
Qed.
Lemma fmul_le_l (x y z : F) : 0 <= z -> x <= y -> z * x <= z * y.
Proof.
  intros Hz H. apply fsub_nonneg_inv. replace (z * y - z * x) with (z * (y - x)) by ring.
  apply fmul_nonneg; auto using fsub_nonneg.
Qed.
Lemma fmul_lt_l (x y z : F) : 0 < z -> x < y -> z * x < z * y.
Proof.
  intros Hz H. replace (z * x) with (0 + z * x) by ring. replace (z * y) with (z * (y - x) + z * x) by ring.
  apply flt_add. apply flt_mul; auto using fsub_pos.
Qed.
Lemma fsq_nonneg (x : F) : 0 <= x * x.
Proof.
  destruct (x <? 0) eqn:E.
  - replace (x * x) with (- x * - x) by ring. apply fmul_nonneg; apply flt_le, fopp_pos; auto.
  - apply fmul_nonneg; auto.
Qed.
Lemma fmul_integral (x y : F) : x * y = 0 -> x = 0 \/ y = 0.
Proof.
  intros H. destruct (x <? 0) eqn:E1; [|destruct (0 <? x) eqn:E2].
  - right. assert (Hx : x <> 0) by (apply flt_not_eq; auto).
    replace y with (finv x * (x * y)) by (field; auto). rewrite H. ring.
  - right. assert (Hx : x <> 0) by (intros ->; rewrite flt_irrefl in E2; discriminate).
    replace y with (finv x * (x * y)) by (field; auto). rewrite H. ring.
  - left. apply (flt_total F); auto.
Qed.
Lemma fsq_pos (x : F) : x <> 0 -> 0 < x * x.
Proof.
  intros H. destruct (0 <? x * x) eqn:E; auto.
  assert (x * x = 0) as C by (symmetry; apply (flt_total F); auto using fsq_nonneg).
  apply fmul_integral in C. tauto.
Qed.
Lemma flt_0_1 : 0 < (1 : F).
Proof.
  replace (1:F) with (1 * 1 : F) by ring. apply fsq_pos. apply (F_1_neq_0 (f_field F)).
Qed.
Lemma fsum_sq_zero (x y : F) : x * x + y * y = 0 -> x = 0 /\ y = 0.
Proof.
  intros H.
  assert (Hx : x * x = 0).
  { apply fle_antisym; [|apply fsq_nonneg]. replace (x * x) with (0 - y * y) by (rewrite <- H; ring).
    replace (0 - y * y) with (- (y * y)) by ring.
    replace 0 with (- 0 : F) by ring. apply fopp_le, fsq_nonneg. }
  assert (Hy : y * y = 0) by (rewrite Hx in H; rewrite <- H; ring).
  apply fmul_integral in Hx, Hy. tauto.
Qed.
Lemma finv_pos (x : F) : 0 < x -> 0 < finv x.
Proof.
  intros H. assert (Hx : x <> 0) by (intros ->; rewrite flt_irrefl in H; discriminate).
  replace (finv x) with (x * (finv x * finv x)) by (field; auto).
  apply flt_mul; auto. apply fsq_pos. intros E.
  assert (x * finv x = 1) as C by (field; auto). rewrite E in C.
  replace (x * 0) with (0:F) in C by ring.
  symmetry in C. revert C. apply (F_1_neq_0 (f_field F)).
Qed.
Lemma fdiv_pos (x y : F) : 0 < x -> 0 < y -> 0 < x / y.
Proof.
  intros Hx Hy. rewrite (Fdiv_def (f_field F)). apply flt_mul; auto using finv_pos.
Qed.
Lemma fdiv_nonneg (x y : F) : 0 <= x -> 0 < y -> 0 <= x / y.
Proof.
  intros Hx Hy. rewrite (Fdiv_def (f_field F)). apply fmul_nonneg; auto using flt_le, finv_pos.
Qed.

Lemma feqb_spec (x y : F) : reflect (x = y) (feqb x y).
Proof.
  unfold feqb. destruct (x <? y) eqn:E1; simpl.
  - constructor. apply flt_not_eq; auto.
  - destruct (y <? x) eqn:E2; simpl; constructor.
    + intros ->. rewrite flt_irrefl in E2. discriminate.
    + apply (flt_total F); auto.
Qed.
Lemma f_dec (x y : F) : {x = y} + {x <> y}.
Proof. destruct (feqb_spec x y); auto. Qed.

(* ---- complex ---- *)
Lemma cx_ext (x y : cx F) : re x = re y -> im x = im y -> x = y.
Proof. destruct x, y; simpl; intros -> ->; reflexivity. Qed.

Lemma c_ring : ring_theory (@c0 F) c1 cadd cmul csub copp eq.
Proof. split; intros; apply cx_ext; simpl; ring. Qed.
Add Ring Cring : c_ring.

Lemma cconj_add (x y : cx F) : cconj (x + y)%C = (cconj x + cconj y)%C.
Proof. apply cx_ext; simpl; ring. Qed.
Lemma cconj_mul (x y : cx F) : cconj (x * y)%C = (cconj x * cconj y)%C.
Proof. apply cx_ext; simpl; ring. Qed.
Lemma cconj_sub (x y : cx F) : cconj (x - y)%C = (cconj x - cconj y)%C.
Proof. apply cx_ext; simpl; ring. Qed.
Lemma cconj_opp (x : cx F) : cconj (- x)%C = (- cconj x)%C.
Proof. apply cx_ext; simpl; ring. Qed.
Lemma cconj_conj (x : cx F) : cconj (cconj x) = x.
Proof. apply cx_ext; simpl; ring. Qed.
Lemma cconj_0 : cconj (@c0 F) = c0.
Proof. apply cx_ext; simpl; ring. Qed.
Lemma cconj_1 : cconj (@c1 F) = c1.
Proof. apply cx_ext; simpl; ring. Qed.
Lemma cconj_real (x : F) : cconj (creal x) = creal x.
Proof. apply cx_ext; simpl; ring. Qed.
Lemma cconj_inj (x y : cx F) : cconj x = cconj y -> x = y.
Proof. intros H. rewrite <- (cconj_conj x), <- (cconj_conj y). congruence. Qed.
Lemma cmul_conj (x : cx F) : (cconj x * x)%C = creal (cabs2 x).
Proof. apply cx_ext; unfold cabs2; simpl; ring. Qed.
Lemma cabs2_nonneg (x : cx F) : 0 <= cabs2 x.
Proof. apply fadd_nonneg; apply fsq_nonneg. Qed.
Lemma cabs2_zero (x : cx F) : cabs2 x = 0 <-> x = c0.
Proof.
  split.
  - intros H. apply fsum_sq_zero in H as [H1 H2]. apply cx_ext; auto.
  - intros ->. unfold cabs2; simpl; ring.
Qed.
Lemma cabs2_mul (x y : cx F) : cabs2 (x * y)%C = cabs2 x * cabs2 y.
Proof. unfold cabs2; simpl; ring. Qed.
Lemma cabs2_conj (x : cx F) : cabs2 (cconj x) = cabs2 x.
Proof. unfold cabs2; simpl; ring. Qed.
Lemma cabs2_pos (x : cx F) : x <> c0 -> 0 < cabs2 x.
Proof.
  intros H. destruct (0 <? cabs2 x) eqn:E; auto. exfalso. apply H. apply cabs2_zero.
  symmetry. apply (flt_total F); auto using cabs2_nonneg.
Qed.
Lemma cinv_r (x : cx F) : x <> c0 -> (x * cinv x)%C = c1.
Proof.
  intros H. assert (Hn : cabs2 x <> 0) by (intros E; apply cabs2_zero in E; auto).
  apply cx_ext; simpl; unfold cabs2 in *; field; auto.
Qed.
Lemma c1_neq_c0 : (@c1 F) <> c0.
Proof. intros E. apply (f_equal re) in E. simpl in E. revert E. apply (F_1_neq_0 (f_field F)). Qed.
Lemma c_field : field_theory (@c0 F) c1 cadd cmul csub copp cdiv cinv eq.
Proof.
  split.
  - apply c_ring.
  - apply c1_neq_c0.
  - reflexivity.
  - intros x H. rewrite (Rmul_comm c_ring). apply cinv_r; auto.
Qed.
Lemma cmul_integral (x y : cx F) : (x * y)%C = c0 -> x = c0 \/ y = c0.
Proof.
  intros H. apply (f_equal cabs2) in H. rewrite cabs2_mul in H.
  replace (cabs2 c0) with (0:F) in H by (unfold cabs2; simpl; ring).
  apply fmul_integral in H as [H|H]; apply cabs2_zero in H; auto.
Qed.
Lemma ceqb_spec (x y : cx F) : reflect (x = y) (ceqb x y).
Proof.
  unfold ceqb. destruct (feqb_spec (re x) (re y)), (feqb_spec (im x) (im y)); simpl; constructor;
    try (intros E; apply (f_equal re) in E as E1; apply (f_equal im) in E as E2; congruence).
  apply cx_ext; auto.
Qed.
Lemma c_dec (x y : cx F) : {x = y} + {x <> y}.
Proof. destruct (ceqb_spec x y); auto. Qed.

Lemma creal_add (x y : F) : creal (x + y) = (creal x + creal y)%C.
Proof. apply cx_ext; simpl; ring. Qed.
Lemma creal_mul (x y : F) : creal (x * y) = (creal x * creal y)%C.
Proof. apply cx_ext; simpl; ring. Qed.
Lemma creal_inj (x y : F) : creal x = creal y -> x = y.
Proof. intros H. apply (f_equal re) in H. exact H. Qed.
Lemma creal_0 : creal 0 = (@c0 F).
Proof. reflexivity. Qed.

(* integers *)
Lemma iter_op_succ (p : positive) : Pos.iter_op (@fadd F) (Pos.succ p) 1 = 1 + Pos.iter_op (@fadd F) p 1.
Proof. apply Pos.iter_op_succ. intros; ring. Qed.
Lemma fofZ_pos_add (p q : positive) :
  Pos.iter_op (@fadd F) (p + q) 1 = Pos.iter_op (@fadd F) p 1 + Pos.iter_op (@fadd F) q 1.
Proof.
  induction p as [|p IH] using Pos.peano_ind.
  - rewrite Pos.add_1_l, iter_op_succ. reflexivity.
  - rewrite Pos.add_succ_l, !iter_op_succ, IH. ring.
Qed.
Lemma fofZ_add (a b : Z) : @fofZ F (a + b) = fofZ a + fofZ b.
Proof.
  assert (Hsub : forall p q, @fofZ F (Z.pos p + Z.neg q) = fofZ (Z.pos p) + fofZ (Z.neg q)).
  { intros p q. destruct (Pos.compare_spec p q) as [->|H|H].
    - rewrite Pos2Z.add_pos_neg, Z.pos_sub_diag. simpl. ring.
    - rewrite Pos2Z.add_pos_neg, Z.pos_sub_lt by auto. simpl.
      replace q with (q - p + p)%positive at 2 by (apply Pos.sub_add; auto).
      rewrite fofZ_pos_add. ring.
    - rewrite Pos2Z.add_pos_neg, Z.pos_sub_gt by auto. simpl.
      replace p with (p - q + q)%positive at 2 by (apply Pos.sub_add; auto).
      rewrite fofZ_pos_add. ring. }
  destruct a as [|p|p], b as [|q|q]; try (simpl; ring).
  - simpl. apply fofZ_pos_add.
  - apply Hsub.
  - rewrite Z.add_comm, Hsub. ring.
  - simpl. rewrite fofZ_pos_add. ring.
Qed.
Lemma fofZ_opp (a : Z) : @fofZ F (- a) = - fofZ a.
Proof. destruct a; simpl; ring. Qed.
Lemma fofZ_mul (a b : Z) : @fofZ F (a * b) = fofZ a * fofZ b.
Proof.
  revert b. induction a as [|a IH|a IH] using Z.peano_ind; intros b.
  - simpl. ring.
  - rewrite Z.mul_succ_l, <- Z.add_1_r, !fofZ_add, IH. simpl. ring.
  - rewrite Z.mul_pred_l, <- Z.sub_1_r. unfold Z.sub. rewrite !fofZ_add, fofZ_opp, IH. simpl. ring.
Qed.
Lemma cofZ_mul (a b : Z) : @cofZ F (a * b) = (cofZ a * cofZ b)%C.
Proof. unfold cofZ. rewrite fofZ_mul. apply creal_mul. Qed.
Lemma cofZ_add (a b : Z) : @cofZ F (a + b) = (cofZ a + cofZ b)%C.
Proof. unfold cofZ. rewrite fofZ_add. apply creal_add. Qed.
Lemma cofZ_0 : @cofZ F 0 = c0. Proof. reflexivity. Qed.
Lemma cofZ_1 : @cofZ F 1 = c1. Proof. reflexivity. Qed.
Lemma cofZ_m1 : @cofZ F (-1) = (- c1)%C.
Proof. apply cx_ext; simpl; ring. Qed.
Lemma cconj_cofZ (a : Z) : cconj (@cofZ F a) = cofZ a.
Proof. apply cconj_real. Qed.

End OF.
