(* Second quantisation on vectors: C_ i v and A_ i v are c_i^+ v and c_i v. *)
From Coq Require Import Field Ring.
From Verif Require Import M_Prelude M_Scalar M_PSR M_State M_Basis S_Fock S_Basis S_Expect S_Ops L_Scalar L_Dict L_Fock L_State L_Ops L_Index M_Expect.
Local Open Scope Z_scope.
Section V.
Context {F : ofield}.
Add Field Ff : (f_field F).
Add Ring Cring : (@c_ring F).
Implicit Types u v w : config -> cx F.

Definition A_ (i : nat) v := vpull (flip true i) v.
Definition C_ (i : nat) v := vpull (flip false i) v.
Definition E_ (i j : nat) v := C_ i (A_ j v).
Definition vip (n : nat) u w : cx F := csum (fun t => cconj (u t) * w t)%C (allcfg n).
Definition veq (n : nat) u w : Prop := forall t, length t = n -> u t = w t.

Lemma veq_refl n u : veq n u u. Proof. intros t _. reflexivity. Qed.
Lemma veq_sym n u w : veq n u w -> veq n w u. Proof. intros H t Ht. symmetry. auto. Qed.
Lemma veq_trans n u v w : veq n u v -> veq n v w -> veq n u w. Proof. intros H G t Ht. rewrite H, G; auto. Qed.
Lemma vpull_ext n b i u w : veq n u w -> veq n (vpull (flip b i) u) (vpull (flip b i) w).
Proof.
  intros H t Ht. unfold vpull. destruct (flip b i t) as [[s a]|] eqn:E; auto. rewrite H; auto.
  apply flip_len in E. congruence.
Qed.
Lemma A_ext n i u w : veq n u w -> veq n (A_ i u) (A_ i w). Proof. apply vpull_ext. Qed.
Lemma C_ext n i u w : veq n u w -> veq n (C_ i u) (C_ i w). Proof. apply vpull_ext. Qed.
Lemma E_ext n i j u w : veq n u w -> veq n (E_ i j u) (E_ i j w).
Proof. intros H. apply C_ext, A_ext, H. Qed.
Lemma vpull_add b i u w t : vpull (flip b i) (fun s => u s + w s)%C t = (vpull (flip b i) u t + vpull (flip b i) w t)%C.
Proof. unfold vpull. destruct (flip b i t) as [[s a]|]; ring. Qed.
Lemma vpull_scale b i c u t : vpull (flip b i) (fun s => c * u s)%C t = (c * vpull (flip b i) u t)%C.
Proof. unfold vpull. destruct (flip b i t) as [[s a]|]; ring. Qed.
Lemma vpull_csum {X} b i (f : X -> config -> cx F) l t :
  vpull (flip b i) (fun s => csum (fun x => f x s) l) t = csum (fun x => vpull (flip b i) (f x) t) l.
Proof.
  unfold vpull. destruct (flip b i t) as [[s a]|].
  - rewrite csum_mul_r. reflexivity.
  - symmetry. apply csum_zero. auto.
Qed.
Lemma car_gen n b1 b2 i j v t : (i < n)%nat -> (j < n)%nat -> length t = n ->
  (vpull (flip b1 i) (vpull (flip b2 j) v) t + vpull (flip b2 j) (vpull (flip b1 i) v) t)%C =
  if Nat.eqb i j && negb (Bool.eqb b1 b2) then v t else c0.
Proof.
  intros Hi Hj Ht. rewrite !vpull_vpull. unfold vpull. destruct (Nat.eqb_spec i j) as [<-|Hij]; cbn [andb].
  - destruct (Bool.eqb_spec b1 b2) as [<-|Hb]; cbn [negb].
    + rewrite flip_twice. ring.
    + assert (En : b2 = negb b1) by (destruct b1, b2; try reflexivity; congruence). rewrite En.
      destruct (nth_error t i) as [b|] eqn:E; [|apply nth_error_None in E; lia].
      rewrite (flip_pair b1 i t b E).
      replace (flip b1 i) with (flip (negb (negb b1)) i) at 1 by (rewrite Bool.negb_involutive; auto).
      rewrite (flip_pair (negb b1) i t b E).
      destruct b, b1; simpl; rewrite ?cofZ_1; ring.
  - rewrite (flip_anticomm b1 b2 i j t Hij).
    destruct (comp (flip b2 j) (flip b1 i) t) as [[x s]|]; simpl; [|ring].
    replace (cofZ (- s)) with (- @cofZ F s)%C; [ring|].
    replace (- s) with (-1 * s) by lia. rewrite cofZ_mul, cofZ_m1. ring.
Qed.
Lemma car_CA n i j v t : (i < n)%nat -> (j < n)%nat -> length t = n ->
  (C_ i (A_ j v) t + A_ j (C_ i v) t)%C = if Nat.eqb i j then v t else c0.
Proof. intros. unfold C_, A_. rewrite (car_gen n) by auto. cbn [Bool.eqb negb]. rewrite Bool.andb_true_r. auto. Qed.
Lemma car_CC n i j v t : (i < n)%nat -> (j < n)%nat -> length t = n -> C_ i (C_ j v) t = (- C_ j (C_ i v) t)%C.
Proof.
  intros Hi Hj Ht. pose proof (car_gen n false false i j v t Hi Hj Ht) as H. cbn [Bool.eqb negb] in H.
  rewrite Bool.andb_false_r in H. unfold C_. rewrite <- (Radd_0_l (@c_ring F) (- _)%C), <- H. ring.
Qed.
Lemma car_AA n i j v t : (i < n)%nat -> (j < n)%nat -> length t = n -> A_ i (A_ j v) t = (- A_ j (A_ i v) t)%C.
Proof.
  intros Hi Hj Ht. pose proof (car_gen n true true i j v t Hi Hj Ht) as H. cbn [Bool.eqb negb] in H.
  rewrite Bool.andb_false_r in H. unfold A_. rewrite <- (Radd_0_l (@c_ring F) (- _)%C), <- H. ring.
Qed.

(* c_i^+ c_j c_k^+ c_l = delta_jk c_i^+ c_l - c_i^+ c_k^+ c_j c_l *)
Lemma E_E n i j k l v : (i < n)%nat -> (j < n)%nat -> (k < n)%nat -> (l < n)%nat ->
  veq n (E_ i j (E_ k l v)) (fun t => (if Nat.eqb j k then E_ i l v t else c0) - C_ i (C_ k (A_ j (A_ l v))) t)%C.
Proof.
  intros Hi Hj Hk Hl t Ht. unfold E_.
  transitivity (C_ i (fun s => (if Nat.eqb j k then A_ l v s else c0) + (- c1) * C_ k (A_ j (A_ l v)) s)%C t).
  - apply (C_ext n); [|exact Ht]. intros s Hs.
    pose proof (car_CA n k j (A_ l v) s Hk Hj Hs) as H. rewrite Nat.eqb_sym in H. rewrite <- H. ring.
  - unfold C_ at 1. rewrite vpull_add, vpull_scale. fold (C_ i (C_ k (A_ j (A_ l v)))).
    destruct (Nat.eqb j k).
    + change (vpull (flip false i) (fun s => A_ l v s) t) with (C_ i (A_ l v) t). ring.
    + assert (Hz : vpull (flip false i) (fun _ : config => @c0 F) t = c0) by (unfold vpull; destruct (flip false i t) as [[s a]|]; ring).
      rewrite Hz. ring.
Qed.
Lemma E_comm n i j k l v t : (i < n)%nat -> (j < n)%nat -> (k < n)%nat -> (l < n)%nat -> length t = n ->
  (E_ i j (E_ k l v) t - E_ k l (E_ i j v) t)%C =
  ((if Nat.eqb j k then E_ i l v t else c0) - (if Nat.eqb l i then E_ k j v t else c0))%C.
Proof.
  intros Hi Hj Hk Hl Ht. rewrite (E_E n i j k l v) by auto. rewrite (E_E n k l i j v) by auto.
  assert (H : C_ k (C_ i (A_ l (A_ j v))) t = C_ i (C_ k (A_ j (A_ l v))) t).
  { rewrite (car_CC n) by auto.
    transitivity (- C_ i (C_ k (fun s => - c1 * A_ j (A_ l v) s)) t)%C.
    - f_equal. apply (C_ext n); [|auto]. apply C_ext. intros s Hs. rewrite (car_AA n) by auto. ring.
    - transitivity (- C_ i (fun s => - c1 * C_ k (A_ j (A_ l v)) s) t)%C.
      + f_equal. apply (C_ext n); [|auto]. intros s _. unfold C_. rewrite vpull_scale. ring.
      + change (- vpull (flip false i) (fun s => - c1 * C_ k (A_ j (A_ l v)) s)%C t = vpull (flip false i) (C_ k (A_ j (A_ l v))) t)%C.
        rewrite vpull_scale.
        change (vpull (flip false i) (fun s => C_ k (A_ j (A_ l v)) s) t) with (vpull (flip false i) (C_ k (A_ j (A_ l v))) t). ring. }
  rewrite H. ring.
Qed.

(* ---- inner product ---- *)
Lemma vip_ext n u u' w w' : veq n u u' -> veq n w w' -> vip n u w = vip n u' w'.
Proof. intros H G. apply csum_ext. intros t Ht. apply allcfg_In in Ht. rewrite H, G; auto. Qed.
Lemma vip_inner n phi psi : valid_psi n psi -> inner phi psi = vip n (amp phi) (amp psi).
Proof. intros H. rewrite (inner_vinner n) by auto. reflexivity. Qed.
Lemma vip_conj n u w : vip n w u = cconj (vip n u w).
Proof. unfold vip. rewrite <- csum_conj. apply csum_ext. intros t _. rewrite cconj_mul, cconj_conj. ring. Qed.
Lemma vip_self n u : vip n u u = creal (fsum (fun t => cabs2 (u t)) (allcfg n)).
Proof. unfold vip. rewrite <- csum_creal_fsum. apply csum_ext. intros t _. apply cmul_conj. Qed.
Lemma vip_adj n b i u w : vip n u (vpull (flip b i) w) = vip n (vpull (flip (negb b) i) u) w.
Proof.
  unfold vip.
  transitivity (csum (fun t => csum (fun s => cconj (u t) * (cofZ (delem (flip b i) t s) * w s))%C (allcfg n)) (allcfg n)).
  - apply csum_ext. intros t Ht. apply allcfg_In in Ht. rewrite csum_mul_l. f_equal.
    apply vpull_sum. intros s sg Es. apply flip_len in Es. congruence.
  - rewrite csum_swap. apply csum_ext. intros s Hs. apply allcfg_In in Hs. rewrite (vpull_sum n).
    2:{ intros t sg Es. apply flip_len in Es. congruence. }
    rewrite <- csum_conj, <- csum_mul_r. apply csum_ext. intros t _.
    rewrite cconj_mul, cconj_cofZ, (delem_inv b). ring.
Qed.
Lemma vip_A n i u w : vip n u (A_ i w) = vip n (C_ i u) w. Proof. apply (vip_adj n true). Qed.
Lemma vip_C n i u w : vip n u (C_ i w) = vip n (A_ i u) w. Proof. apply (vip_adj n false). Qed.
Lemma vip_E n i j u w : vip n u (E_ i j w) = vip n (E_ j i u) w.
Proof. unfold E_. rewrite vip_C, vip_A. reflexivity. Qed.
Lemma vip_csum_r {X} n u (f : X -> config -> cx F) (c : X -> cx F) l :
  vip n u (fun t => csum (fun x => c x * f x t)%C l) = csum (fun x => c x * vip n u (f x))%C l.
Proof.
  unfold vip. transitivity (csum (fun t => csum (fun x => c x * (cconj (u t) * f x t))%C l) (allcfg n)).
  - apply csum_ext. intros t _. rewrite <- csum_mul_l. apply csum_ext. intros x _. ring.
  - rewrite csum_swap. apply csum_ext. intros x _. rewrite csum_mul_l. reflexivity.
Qed.
Lemma vip_csum_l {X} n w (f : X -> config -> cx F) (c : X -> cx F) l :
  vip n (fun t => csum (fun x => c x * f x t)%C l) w = csum (fun x => cconj (c x) * vip n (f x) w)%C l.
Proof.
  rewrite vip_conj, vip_csum_r, <- csum_conj. apply csum_ext. intros x _.
  rewrite cconj_mul, <- vip_conj. reflexivity.
Qed.

(* ---- matrix elements of c_i^+ c_j ---- *)
Lemma hop_vec n i j v t : length t = n ->
  E_ i j v t = csum (fun s => cofZ (pelem [(Z.of_nat i, "c"%char); (Z.of_nat j, "a"%char)] t s) * v s)%C (allcfg n).
Proof.
  intros Ht. unfold E_, C_, A_. rewrite vpull_vpull, (vpull_sum n).
  2:{ intros s sg E. unfold comp in E. destruct (flip false i t) as [[s1 a]|] eqn:E1; [|discriminate].
      destruct (flip true j s1) as [[s2 b]|] eqn:E2; [|discriminate]. injection E as <- <-.
      apply flip_len in E1, E2. congruence. }
  apply csum_ext. intros s _. f_equal. f_equal. unfold delem, pelem, comp. cbn [proc_act lad fst snd].
  unfold lad. cbn [fst snd]. change (Ascii.eqb "c" lab_c) with true. change (Ascii.eqb "a" lab_c) with false.
  cbn match. rewrite !Nat2Z.id, ann_flip.
  destruct (flip false i t) as [[s1 a]|] eqn:E1.
  - destruct (flip true j s1) as [[s2 b]|] eqn:E2.
    + apply flip_inv in E1, E2. cbn [negb] in *. destruct (list_eqb_spec s s2) as [->|Hne].
      * rewrite E2, cre_flip, E1. destruct (list_eqb_spec t t); [lia|congruence].
      * destruct (flip false j s) as [[s3 c]|] eqn:E3; auto. rewrite cre_flip.
        destruct (flip true i s3) as [[s4 d]|] eqn:E4; auto. destruct (list_eqb_spec t s4) as [<-|]; auto.
        apply flip_inv in E4, E3. cbn [negb] in *. apply flip_inv in E1. cbn [negb] in E1.
        rewrite E4 in E1. injection E1 as -> ->. apply flip_inv in E2. cbn [negb] in E2. congruence.
    + destruct (flip false j s) as [[s3 c]|] eqn:E3; auto. rewrite cre_flip.
      destruct (flip true i s3) as [[s4 d]|] eqn:E4; auto. destruct (list_eqb_spec t s4) as [<-|]; auto.
      apply flip_inv in E4, E3. cbn [negb] in *. congruence.
  - destruct (flip false j s) as [[s3 c]|] eqn:E3; auto. rewrite cre_flip.
    destruct (flip true i s3) as [[s4 d]|] eqn:E4; auto. destruct (list_eqb_spec t s4) as [<-|]; auto.
    apply flip_inv in E4. cbn [negb] in *. congruence.
Qed.

(* ---- one-body operators ---- *)
Variable nb : nbaths_t.
Definition ix (x : spinorb) : nat := Z.to_nat (coord_index nb x).
Definition gam (l : list (@term F)) v : config -> cx F :=
  fun t => csum (fun xyv => snd xyv * E_ (ix (fst (fst xyv))) (ix (snd (fst xyv))) v t)%C l.
Definition term_ok (xyv : @term F) : Prop := coord_ok nb (fst (fst xyv)) /\ coord_ok nb (snd (fst xyv)).
Lemma gam_ext n l u w : veq n u w -> veq n (gam l u) (gam l w).
Proof. intros H t Ht. unfold gam. apply csum_ext. intros x _. f_equal. apply (E_ext n); auto. Qed.
Lemma gam_app l1 l2 v t : gam (l1 ++ l2) v t = (gam l1 v t + gam l2 v t)%C.
Proof. apply csum_app. Qed.
Definition dagt (xyv : @term F) : @term F := ((snd (fst xyv), fst (fst xyv)), cconj (snd xyv)).
Lemma vip_gam n l u w : vip n u (gam l w) = vip n (gam (map dagt l) u) w.
Proof.
  unfold gam. rewrite (vip_csum_r n u (fun xyv => E_ (ix (fst (fst xyv))) (ix (snd (fst xyv))) w) snd).
  rewrite (vip_csum_l n w (fun xyv => E_ (ix (fst (fst xyv))) (ix (snd (fst xyv))) u) snd).
  rewrite csum_map. apply csum_ext. intros [[x y] c] _. cbn [fst snd dagt]. rewrite cconj_conj, vip_E. reflexivity.
Qed.

Hypothesis Hwf : wf_nbaths nb.
Let n := n_orb nb.
Lemma n_total_nonneg : 0 <= n_total nb.
Proof.
  pose proof (n_imp_nonneg nb Hwf). pose proof (zsum_snd_nonneg nb (proj2 (proj2 Hwf))). unfold n_total. lia.
Qed.
Lemma n_orb_Z : Z.of_nat n = n_total nb.
Proof. unfold n, n_orb. apply Z2Nat.id, n_total_nonneg. Qed.
Lemma ix_ok x : coord_ok nb x -> (ix x < n)%nat /\ Z.of_nat (ix x) = coord_index nb x.
Proof.
  intros Hx. destruct (c2i_P nb x Hwf Hx) as (_ & Hr & _). pose proof n_orb_Z. unfold ix. split; [|lia].
  apply Nat2Z.inj_lt. rewrite Z2Nat.id; lia.
Qed.
Lemma ix_inj x y : coord_ok nb x -> coord_ok nb y -> ix x = ix y -> x = y.
Proof.
  intros Hx Hy E. apply (coord_index_inj nb); auto. destruct (ix_ok x Hx) as [_ <-]. destruct (ix_ok y Hy) as [_ <-]. congruence.
Qed.
Lemma ix_eqb x y : coord_ok nb x -> coord_ok nb y -> Nat.eqb (ix x) (ix y) = eqb x y.
Proof.
  intros Hx Hy. destruct (Nat.eqb_spec (ix x) (ix y)) as [E|E], (eqb_spec x y) as [G|G]; auto.
  - elim G. apply ix_inj; auto.
  - subst. congruence.
Qed.
Lemma op_vec_gam l psi : Forall term_ok l -> veq n (op_vec n (one_body nb l) psi) (gam l (amp psi)).
Proof.
  intros Hl t Ht. unfold op_vec, opelem, one_body, gam.
  transitivity (csum (fun s => csum (fun xyv => snd xyv * (cofZ (pelem (hop nb (fst (fst xyv)) (snd (fst xyv))) t s) * amp psi s))%C l) (allcfg n)).
  - apply csum_ext. intros s _. rewrite csum_map, <- csum_mul_r. apply csum_ext. intros x _. cbn [fst snd]. ring.
  - rewrite csum_swap. apply csum_ext. intros [[x y] c] Hi. rewrite csum_mul_l. f_equal.
    rewrite Forall_forall in Hl. destruct (Hl _ Hi) as [Hx Hy]. cbn [fst snd] in *.
    destruct (ix_ok x Hx) as [_ Ex]. destruct (ix_ok y Hy) as [_ Ey].
    rewrite (hop_vec n (ix x) (ix y)) by auto. rewrite Ex, Ey. reflexivity.
Qed.

(* commutator of two one-body operators *)
Definition commt (a b : @term F) : list (@term F) :=
  [((fst (fst a), snd (fst b)), if eqb (snd (fst a)) (fst (fst b)) then snd a * snd b else c0)%C;
   ((fst (fst b), snd (fst a)), if eqb (snd (fst b)) (fst (fst a)) then - (snd a * snd b) else c0)%C].
Definition comml (l1 l2 : list (@term F)) : list (@term F) := flat_map (fun a => flat_map (commt a) l2) l1.
Lemma E_gam i j l v t : E_ i j (gam l v) t = csum (fun xyv => snd xyv * E_ i j (E_ (ix (fst (fst xyv))) (ix (snd (fst xyv))) v) t)%C l.
Proof.
  change (E_ i j (gam l v) t) with (vpull (flip false i) (vpull (flip true j) (gam l v)) t). unfold gam.
  transitivity (vpull (flip false i) (fun s => csum (fun xyv => snd xyv * A_ j (E_ (ix (fst (fst xyv))) (ix (snd (fst xyv))) v) s)%C l) t).
  - unfold vpull at 1 3. destruct (flip false i t) as [[s a]|]; auto. f_equal.
    rewrite (vpull_csum true j (fun xyv s => snd xyv * E_ (ix (fst (fst xyv))) (ix (snd (fst xyv))) v s)%C).
    apply csum_ext. intros x _. unfold A_. apply vpull_scale.
  - rewrite (vpull_csum false i (fun xyv s => snd xyv * A_ j (E_ (ix (fst (fst xyv))) (ix (snd (fst xyv))) v) s)%C).
    apply csum_ext. intros x _. rewrite vpull_scale. reflexivity.
Qed.
Lemma gam_comm l1 l2 v t : Forall term_ok l1 -> Forall term_ok l2 -> length t = n ->
  (gam l1 (gam l2 v) t - gam l2 (gam l1 v) t)%C = gam (comml l1 l2) v t.
Proof.
  intros H1 H2 Ht. rewrite Forall_forall in H1, H2.
  assert (G12 : gam l1 (gam l2 v) t = csum (fun a => csum (fun b => snd a * snd b *
     E_ (ix (fst (fst a))) (ix (snd (fst a))) (E_ (ix (fst (fst b))) (ix (snd (fst b))) v) t)%C l2) l1).
  { unfold gam at 1. apply csum_ext. intros a _. rewrite E_gam, <- csum_mul_l. apply csum_ext. intros b _. ring. }
  assert (G21 : gam l2 (gam l1 v) t = csum (fun a => csum (fun b => snd a * snd b *
     E_ (ix (fst (fst b))) (ix (snd (fst b))) (E_ (ix (fst (fst a))) (ix (snd (fst a))) v) t)%C l2) l1).
  { rewrite csum_swap. unfold gam at 1. apply csum_ext. intros b _. rewrite E_gam, <- csum_mul_l. apply csum_ext. intros a _. ring. }
  rewrite G12, G21, <- csum_sub. unfold gam, comml. rewrite csum_flat_map. apply csum_ext. intros a Ha.
  rewrite <- csum_sub, csum_flat_map. apply csum_ext. intros b Hb.
  destruct (H1 a Ha) as [Ha1 Ha2]. destruct (H2 b Hb) as [Hb1 Hb2].
  destruct a as [[x y] c], b as [[x' y'] c']. cbn [fst snd commt csum fold_right] in *.
  pose proof (E_comm n (ix x) (ix y) (ix x') (ix y') v t (proj1 (ix_ok x Ha1)) (proj1 (ix_ok y Ha2))
    (proj1 (ix_ok x' Hb1)) (proj1 (ix_ok y' Hb2)) Ht) as HE.
  rewrite !ix_eqb in HE by auto.
  transitivity (c * c' * (E_ (ix x) (ix y) (E_ (ix x') (ix y') v) t - E_ (ix x') (ix y') (E_ (ix x) (ix y) v) t))%C; [ring|].
  rewrite HE. unfold csum. cbn [fold_right commt fst snd]. destruct (eqb y x'), (eqb y' x); ring.
Qed.
End V.
