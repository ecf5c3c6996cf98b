(* Inner products, Hermitian matrices and resolvents *)
From Coq Require Import Field Ring.
From Verif Require Import M_Prelude M_Scalar S_Ham S_Green L_Scalar L_Sum.

Section Vec.
Context {F : ofield}.
Add Field Ff : (f_field F).
Add Ring Cring : (@c_ring F).
Add Field Cf : (@c_field F).
Local Open Scope cx_scope.
Variable N : nat.

Lemma ip_ext (x y x' y' : nat -> cx F) : (forall i, (i < N)%nat -> x i = x' i) -> (forall i, (i < N)%nat -> y i = y' i) -> ip N x y = ip N x' y'.
Proof. intros Hx Hy. apply csum_ext. intros i Hi. apply in_seq in Hi. rewrite Hx, Hy by lia. auto. Qed.
Lemma ip_add_r (x y z : nat -> cx F) : ip N x (fun i => y i + z i) = ip N x y + ip N x z.
Proof. unfold ip. rewrite <- csum_add. apply csum_ext. intros. ring. Qed.
Lemma ip_sub_r (x y z : nat -> cx F) : ip N x (fun i => y i - z i) = ip N x y - ip N x z.
Proof. unfold ip. rewrite <- csum_sub. apply csum_ext. intros. ring. Qed.
Lemma ip_scale_r c (x y : nat -> cx F) : ip N x (fun i => c * y i) = c * ip N x y.
Proof. unfold ip. rewrite <- csum_mul_l. apply csum_ext. intros. ring. Qed.
Lemma ip_conj (x y : nat -> cx F) : ip N y x = cconj (ip N x y).
Proof. unfold ip. rewrite <- csum_conj. apply csum_ext. intros. rewrite cconj_mul, cconj_conj. ring. Qed.
Lemma ip_add_l (x y z : nat -> cx F) : ip N (fun i => x i + y i) z = ip N x z + ip N y z.
Proof. rewrite ip_conj, ip_add_r, cconj_add, <- !ip_conj. auto. Qed.
Lemma ip_sub_l (x y z : nat -> cx F) : ip N (fun i => x i - y i) z = ip N x z - ip N y z.
Proof. rewrite ip_conj, ip_sub_r, cconj_sub, <- !ip_conj. auto. Qed.
Lemma ip_scale_l c (x y : nat -> cx F) : ip N (fun i => c * x i) y = cconj c * ip N x y.
Proof. rewrite ip_conj, ip_scale_r, cconj_mul, <- !ip_conj. auto. Qed.
Lemma ip_csum_r {A} (l : list A) (c : A -> cx F) (x : nat -> cx F) (V : A -> nat -> cx F) :
  ip N x (fun m => csum (fun a => c a * V a m) l) = csum (fun a => c a * ip N x (V a)) l.
Proof.
  unfold ip. rewrite (csum_ext _ (fun m => csum (fun a => c a * (cconj (x m) * V a m)) l)).
  - rewrite csum_swap. apply csum_ext. intros. apply csum_mul_l.
  - intros m _. rewrite <- csum_mul_l. apply csum_ext. intros; ring.
Qed.
Lemma ip_self (x : nat -> cx F) : ip N x x = creal (fsum (fun m => cabs2 (x m)) (seq 0 N)).
Proof. unfold ip. rewrite <- csum_creal_fsum. apply csum_ext. intros. apply cmul_conj. Qed.
Lemma ip_self_zero (x : nat -> cx F) : ip N x x = c0 -> forall i, (i < N)%nat -> x i = c0.
Proof.
  rewrite ip_self. intros E i Hi. apply cabs2_zero. apply (f_equal re) in E.
  apply (fsum_zero_inv (fun m => cabs2 (x m)) (seq 0 N)); auto; [intros; apply cabs2_nonneg|apply in_seq; lia].
Qed.
Lemma ip_self_im (x : nat -> cx F) : im (ip N x x) = 0%F.
Proof. rewrite ip_self. reflexivity. Qed.

Section Herm.
Variable M : nat -> nat -> cx F.
Hypothesis HM : hermitian N M.
Lemma mv_ext (x y : nat -> cx F) i : (forall i, (i < N)%nat -> x i = y i) -> mv N M x i = mv N M y i.
Proof. intros H. apply csum_ext. intros j Hj. apply in_seq in Hj. rewrite H by lia. auto. Qed.
Lemma ip_mv (x y : nat -> cx F) : ip N x (mv N M y) = ip N (mv N M x) y.
Proof.
  unfold ip, mv. rewrite (csum_ext _ (fun m => csum (fun j => cconj (x m) * M m j * y j) (seq 0 N))).
  - rewrite csum_swap. apply csum_ext. intros j Hj. apply in_seq in Hj.
    rewrite csum_mul_r. f_equal. rewrite <- csum_conj. apply csum_ext. intros m Hm. apply in_seq in Hm.
    rewrite cconj_mul, <- (HM m j) by lia. ring.
  - intros m _. rewrite <- csum_mul_l. apply csum_ext. intros; ring.
Qed.
Lemma ip_mv_real (x : nat -> cx F) : im (ip N x (mv N M x)) = 0%F.
Proof.
  pose proof (ip_mv x x) as E. rewrite (ip_conj x (mv N M x)) in E. apply (f_equal im) in E. simpl in E.
  set (t := im (ip N x (mv N M x))) in *. destruct (f_dec t 0%F) as [|Hn]; auto. exfalso.
  assert (E2 : (t * (1 + 1) = 0)%F) by (transitivity (t + t)%F; [ring|]; rewrite E at 2; ring).
  apply fmul_integral in E2 as [E2|E2]; [auto|].
  assert (H : (0 < (1 + 1 : F))%F) by (apply fadd_pos; [apply flt_0_1|apply flt_le, flt_0_1]). rewrite E2 in H. rewrite flt_irrefl in H. discriminate.
Qed.
Lemma mv_sub (x y : nat -> cx F) i : mv N M (fun j => x j - y j) i = mv N M x i - mv N M y i.
Proof. unfold mv. rewrite <- csum_sub. apply csum_ext. intros; ring. Qed.
(* z - M is injective for non-real z *)
Lemma solves_unique z (x x' y : nat -> cx F) : im z <> 0%F -> solves N z M x y -> solves N z M x' y ->
  forall i, (i < N)%nat -> x' i = x i.
Proof.
  intros Hz H1 H2. set (d := fun i => x' i - x i).
  assert (Hd : forall i, (i < N)%nat -> mv N M d i = z * d i).
  { intros i Hi. unfold d. rewrite mv_sub. pose proof (H1 i Hi) as E1. pose proof (H2 i Hi) as E2.
    replace (mv N M x' i) with (z * x' i - y i) by (rewrite <- E2; ring).
    replace (mv N M x i) with (z * x i - y i) by (rewrite <- E1; ring). ring. }
  assert (E : ip N d (mv N M d) = z * ip N d d).
  { rewrite <- ip_scale_r. apply ip_ext; auto. }
  pose proof (ip_mv_real d) as Hr. rewrite E in Hr. simpl in Hr. rewrite (ip_self_im d) in Hr.
  assert (E0 : re (ip N d d) = 0%F).
  { assert (E3 : (im z * re (ip N d d) = 0)%F) by (rewrite <- Hr; ring). apply fmul_integral in E3 as [|]; tauto. }
  intros i Hi. assert (Ed : d i = c0) by (apply ip_self_zero; auto; apply cx_ext; auto; apply ip_self_im).
  unfold d in Ed. replace (x' i) with (x' i - x i + x i) by ring. rewrite Ed. ring.
Qed.
End Herm.
End Vec.

Section Trid.
Context {F : ofield}.
Add Field Ff2 : (f_field F).
Add Ring Cring2 : (@c_ring F).
Add Field Cf2 : (@c_field F).
Local Open Scope cx_scope.

Lemma tridiag_hermitian (alpha beta : list F) N : hermitian N (tridiag alpha beta).
Proof.
  intros i j _ _. unfold tridiag. rewrite (Nat.eqb_sym j i). destruct (Nat.eqb_spec i j) as [->|H]; [symmetry; apply cconj_real|].
  destruct (Nat.eqb_spec j (S i)), (Nat.eqb_spec i (S j)); try lia; symmetry; apply cconj_real.
Qed.
Lemma csum_seq_S (f : nat -> cx F) N : csum f (seq 0 (S N)) = f 0%nat + csum (fun i => f (S i)) (seq 0 N).
Proof. simpl. rewrite <- seq_shift, csum_map. auto. Qed.
End Trid.
