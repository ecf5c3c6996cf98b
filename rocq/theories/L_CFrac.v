(* The continued fraction *)
From Coq Require Import Field Ring.
From Verif Require Import M_Prelude M_Scalar M_Lanczos S_Ham S_Green L_Scalar L_Sum L_Vec.

Section CF.
Context {F : ofield}.
Add Field Ff : (f_field F).
Add Ring Cring : (@c_ring F).
Add Field Cf : (@c_field F).
Local Open Scope cx_scope.

Lemma cf_eq (z : cx F) a alpha beta : length alpha = length beta -> cont_frac z (a :: alpha) beta = c1 / cf_den z (a :: alpha) beta.
Proof.
  revert a beta. induction alpha as [|a' alpha IH]; intros a [|b beta] HL; try discriminate; [reflexivity|].
  cbn [length] in HL. change (cont_frac z (a :: a' :: alpha) (b :: beta)) with (c1 / (z - creal a - creal (b * b)%F * cont_frac z (a' :: alpha) beta)).
  rewrite IH by lia. reflexivity.
Qed.
Lemma cf_den_step (z : cx F) a a' alpha b beta : length alpha = length beta ->
  cf_den z (a :: a' :: alpha) (b :: beta) = z - creal a - creal (b * b)%F * cont_frac z (a' :: alpha) beta.
Proof. intros HL. rewrite (cf_eq z a') by auto. reflexivity. Qed.

Lemma im_inv (d : cx F) : d <> c0 -> re (c1 / d) = (re d / cabs2 d)%F /\ im (c1 / d) = (- (im d / cabs2 d))%F.
Proof.
  intros Hd. assert (Hc : cabs2 d <> 0%F) by (intros E; apply Hd, cabs2_zero; auto).
  unfold cdiv, cmul, cinv, c1; simpl. split; field; auto.
Qed.
Lemma cabs2_inv (d : cx F) : d <> c0 -> (cabs2 (c1 / d) * cabs2 d = 1)%F.
Proof.
  intros Hd. rewrite <- cabs2_mul. replace (c1 / d * d) with (@c1 F) by (field; auto). unfold cabs2, c1; simpl. ring.
Qed.

(* sign of the imaginary part, and lower bound of the denominators *)
Lemma cf_sign (z : cx F) (alpha beta : list F) : im z <> 0%F -> alpha <> [] -> length alpha = S (length beta) ->
  (im z * im z <= im z * im (cf_den z alpha beta))%F /\ cf_den z alpha beta <> c0 /\ (im z * im (cont_frac z alpha beta) <= 0)%F.
Proof.
  intros Hz. revert beta. induction alpha as [|a alpha IH]; intros beta Hne HL; [congruence|].
  assert (Hd : (im z * im z <= im z * im (cf_den z (a :: alpha) beta))%F).
  { destruct alpha as [|a' alpha].
    - destruct beta; [|discriminate]. simpl. replace (im z * (im z - 0))%F with (im z * im z)%F by ring. apply fle_refl.
    - destruct beta as [|b beta]; [discriminate|]. simpl length in HL.
      destruct (IH beta) as (_ & _ & I3); [congruence|simpl; lia|].
      rewrite cf_den_step by lia.
      set (g := cont_frac z (a' :: alpha) beta) in *. apply fsub_nonneg_inv.
      replace (im z * im (z - creal a - creal (b * b)%F * g) - im z * im z)%F with (b * b * (- (im z * im g)))%F by (simpl; ring).
      apply fmul_nonneg; [apply fsq_nonneg|apply fopp_nonneg; auto]. }
  assert (Hp : (0 < im z * im (cf_den z (a :: alpha) beta))%F) by (eapply flt_le_trans; [apply fsq_pos; exact Hz|auto]).
  assert (Hn : cf_den z (a :: alpha) beta <> c0).
  { intros E. rewrite E in Hp. simpl in Hp. replace (im z * 0)%F with (0 : F)%F in Hp by ring. rewrite flt_irrefl in Hp. discriminate. }
  split; auto. split; auto.
  rewrite cf_eq by (simpl in HL; lia). destruct (im_inv _ Hn) as [_ ->]. set (d := cf_den z (a :: alpha) beta) in *.
  pose proof (cabs2_pos d Hn) as Hc. pose proof (flt_not_eq _ _ Hc) as Hc'.
  replace (im z * - (im d / cabs2 d))%F with (- (im z * im d / cabs2 d))%F by (field; congruence).
  replace 0%F with (- 0 : F)%F by ring. apply fopp_le. apply flt_le. apply fdiv_pos; auto.
Qed.
Lemma cf_bound (z : cx F) (alpha beta : list F) : im z <> 0%F -> alpha <> [] -> length alpha = S (length beta) ->
  (cabs2 (cont_frac z alpha beta) * (im z * im z) <= 1)%F.
Proof.
  intros Hz Hne HL. destruct (cf_sign z alpha beta Hz Hne HL) as (H1 & H2 & _). destruct alpha as [|a alpha]; [congruence|].
  rewrite cf_eq by (simpl in HL; lia). set (d := cf_den z (a :: alpha) beta) in *.
  rewrite <- (cabs2_inv d H2). apply fmul_le_l; [apply cabs2_nonneg|].
  (* (im z)^2 <= (im d)^2 <= |d|^2 *)
  apply fle_trans with (y := (im d * im d)%F).
  - apply fsub_nonneg_inv. destruct (f_dec (im d) 0%F) as [E|Hd0].
    + rewrite E in H1. replace (im z * 0)%F with (0 : F)%F in H1 by ring. pose proof (fsq_pos _ Hz) as Hx. rewrite H1 in Hx. discriminate.
    + (* im d^2 - im z^2 = ((im z im d)^2 - im z^4) / im z^2 *)
      replace (im d * im d - im z * im z)%F with ((im z * im d - im z * im z) * (im z * im d + im z * im z) / (im z * im z))%F by (field; auto).
      apply fdiv_nonneg; [|apply fsq_pos; auto]. apply fmul_nonneg; [apply fsub_nonneg; auto|].
      apply fadd_nonneg; [|apply fsq_nonneg]. eapply fle_trans; [apply fsq_nonneg|exact H1].
  - unfold cabs2. apply fsub_nonneg_inv. replace (re d * re d + im d * im d - im d * im d)%F with (re d * re d)%F by ring. apply fsq_nonneg.
Qed.

(* solution of (z - T) x = c e_0 *)
Fixpoint cf_sol (z : cx F) (alpha beta : list F) (c : cx F) : nat -> cx F :=
  match alpha with
  | [] => fun _ => c0
  | a :: alpha' =>
      let x0 := c * cont_frac z alpha beta in
      let rest := match beta with [] => fun _ => c0 | b :: beta' => cf_sol z alpha' beta' (creal b * x0) end in
      fun i => match i with O => x0 | S i' => rest i' end
  end.
Lemma cf_sol_0 (z : cx F) (alpha beta : list F) (c : cx F) : alpha <> [] -> cf_sol z alpha beta c 0%nat = c * cont_frac z alpha beta.
Proof. destruct alpha; simpl; congruence. Qed.
Lemma cf_sol_ok (z : cx F) (alpha : list F) : forall (beta : list F) (c : cx F), im z <> 0%F -> alpha <> [] -> length alpha = S (length beta) ->
  solves (length alpha) z (tridiag alpha beta) (cf_sol z alpha beta c) (fun i => if Nat.eqb i 0 then c else c0).
Proof.
  induction alpha as [|a alpha IH]; intros beta c Hz Hne HL; [congruence|].
  destruct (cf_sign z (a :: alpha) beta Hz Hne HL) as (_ & Hd & _). intros i Hi.
  destruct alpha as [|a' alpha].
  - destruct i as [|i]; [|simpl in Hi; lia]. unfold mv. cbn [length seq csum].
    change (tridiag [a] beta 0 0) with (creal a). rewrite cf_sol_0 by congruence. cbn [Nat.eqb].
    change (cont_frac z [a] beta) with (c1 / (z - creal a)). destruct beta; [|discriminate]. change (cf_den z [a] []) with (z - creal a) in Hd. field. auto.
  - destruct beta as [|b beta]; [discriminate|]. cbn [length] in HL.
    assert (Hs : solves (length (a' :: alpha)) z (tridiag (a' :: alpha) beta) (cf_sol z (a' :: alpha) beta (creal b * (c * cont_frac z (a :: a' :: alpha) (b :: beta))))
        (fun i => if Nat.eqb i 0 then creal b * (c * cont_frac z (a :: a' :: alpha) (b :: beta)) else c0)) by (apply IH; auto; solve [congruence|simpl in *; lia]).
    set (x0 := c * cont_frac z (a :: a' :: alpha) (b :: beta)) in *.
    set (x' := cf_sol z (a' :: alpha) beta (creal b * x0)) in *.
    assert (E0 : cf_sol z (a :: a' :: alpha) (b :: beta) c 0%nat = x0) by reflexivity.
    assert (ES : forall i, cf_sol z (a :: a' :: alpha) (b :: beta) c (S i) = x' i) by reflexivity.
    assert (Ex' : x' 0%nat = creal b * x0 * cont_frac z (a' :: alpha) beta) by (apply cf_sol_0; congruence).
    unfold mv. cbn [length]. rewrite csum_seq_S. rewrite E0.
    destruct i as [|i].
    + rewrite E0. change (tridiag (a :: a' :: alpha) (b :: beta) 0 0) with (creal a).
      rewrite csum_seq_S, (csum_zero _ (seq 0 (length alpha))) by (intros j _; change (tridiag (a :: a' :: alpha) (b :: beta) 0 (S (S j))) with (@c0 F); ring).
      rewrite ES, Ex'. change (tridiag (a :: a' :: alpha) (b :: beta) 0 1) with (creal b). cbn [Nat.eqb].
      unfold x0. rewrite (cf_eq z a) by (simpl; lia).
      rewrite cf_den_step in * by lia.
      set (g := cont_frac z (a' :: alpha) beta) in *. rewrite creal_mul in *. field. auto.
    + rewrite ES. rewrite (csum_ext _ (fun j => tridiag (a' :: alpha) beta i j * x' j)) by (intros j _; rewrite ES; reflexivity).
      specialize (Hs i ltac:(simpl in *; lia)). unfold mv in Hs. cbn [length] in Hs.
      destruct i as [|i].
      * change (tridiag (a :: a' :: alpha) (b :: beta) 1 0) with (creal b). cbn [Nat.eqb] in *.
        transitivity (z * x' 0%nat - csum (fun j => tridiag (a' :: alpha) beta 0 j * x' j) (seq 0 (S (length alpha))) - creal b * x0); [ring|].
        rewrite Hs. ring.
      * change (tridiag (a :: a' :: alpha) (b :: beta) (S (S i)) 0) with (@c0 F). cbn [Nat.eqb] in *.
        transitivity (z * x' (S i) - csum (fun j => tridiag (a' :: alpha) beta (S i) j * x' j) (seq 0 (S (length alpha)))); [ring|]. exact Hs.
Qed.
Lemma cf_resolvent (z : cx F) (alpha beta : list F) : im z <> 0%F -> alpha <> [] -> length alpha = S (length beta) ->
  resolvent (length alpha) z (tridiag alpha beta) unit0 (cont_frac z alpha beta).
Proof.
  intros Hz Hne HL. exists (cf_sol z alpha beta c1). pose proof (cf_sol_ok z alpha beta c1 Hz Hne HL) as Hs.
  split; [exact Hs|]. split.
  - unfold ip. destruct alpha as [|a alpha]; [congruence|]. cbn [length]. rewrite csum_seq_S, csum_zero.
    + rewrite cf_sol_0 by congruence. change (unit0 0) with (@c1 F). rewrite cconj_1. ring.
    + intros i _. change (unit0 (S i)) with (@c0 F). rewrite cconj_0. ring.
  - intros x' Hx'. apply (solves_unique _ _ (tridiag_hermitian alpha beta _) z _ _ unit0); auto.
Qed.
Lemma nonempty_S (alpha beta : list F) : length alpha = S (length beta) -> alpha <> [].
Proof. intros H ->. discriminate. Qed.
Lemma cf_denominators (z : cx F) (alpha beta : list F) : im z <> 0%F -> length alpha = S (length beta) ->
  cont_frac z alpha beta = c1 / cf_den z alpha beta /\ forall k, (k < length alpha)%nat -> cf_den z (skipn k alpha) (skipn k beta) <> c0.
Proof.
  intros Hz HL. split; [destruct alpha; [discriminate|]; apply cf_eq; simpl in HL; lia|].
  intros k Hk. assert (HL' : length (skipn k alpha) = S (length (skipn k beta))) by (rewrite !skipn_length; lia).
  apply (cf_sign z _ _ Hz (nonempty_S _ _ HL') HL').
Qed.
End CF.
