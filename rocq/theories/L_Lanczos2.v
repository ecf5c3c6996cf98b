(* Consequences of the Lanczos invariant: dimension, exactness, failure *)
From Coq Require Import Field Ring.
From Verif Require Import M_Prelude M_Scalar M_State M_Hamiltonian M_Lanczos S_Ham S_Green L_Scalar L_Sum L_Vec L_CFrac L_Lanczos.

Section Dim.
Context {F : ofield}.
Add Field Ff : (f_field F).
Add Ring Cring : (@c_ring F).
Add Field Cf : (@c_field F).
Local Open Scope cx_scope.

Lemma csum_delta (g : nat -> cx F) a k : csum (fun i => if Nat.eqb i a then g i else c0) (seq 0 k) = if Nat.ltb a k then g a else c0.
Proof.
  destruct (Nat.ltb_spec a k) as [H|H].
  - rewrite (csum_single _ _ a); [rewrite Nat.eqb_refl; auto|apply seq_NoDup|apply in_seq; lia|].
    intros b _ Hb. destruct (Nat.eqb_spec b a); [contradiction|auto].
  - apply csum_zero. intros i Hi. apply in_seq in Hi. destruct (Nat.eqb_spec i a); [lia|auto].
Qed.
Lemma csum_mul_delta (c g : nat -> cx F) a k : (a < k)%nat -> csum (fun i => g i * (if Nat.eqb i a then c1 else c0)) (seq 0 k) = g a.
Proof.
  intros H. rewrite (csum_ext _ (fun i => if Nat.eqb i a then g i else c0)) by (intros i _; destruct (Nat.eqb i a); ring).
  rewrite csum_delta. destruct (Nat.ltb_spec a k); [auto|lia].
Qed.

(* Bessel's inequality *)
Lemma bessel N k V (x : nat -> cx F) : orthonormal N k V ->
  (fsum (fun i => cabs2 (ip N (V i) x)) (seq 0 k) <= re (ip N x x))%F.
Proof.
  intros HV. set (c := fun i => ip N (V i) x).
  set (r := fun m => x m - csum (fun i => c i * V i m) (seq 0 k)).
  assert (H1 : forall j, (j < k)%nat -> ip N (V j) r = c0).
  { intros j Hj. unfold r. rewrite ip_sub_r, ip_csum_r. rewrite (csum_ext _ (fun i => c i * (if Nat.eqb i j then c1 else c0))).
    - rewrite csum_mul_delta by auto. unfold c. ring.
    - intros i Hi. apply in_seq in Hi. rewrite HV by lia. rewrite (Nat.eqb_sym j i). auto. }
  assert (H2 : ip N r r = ip N x x - creal (fsum (fun i => cabs2 (c i)) (seq 0 k))).
  { assert (E : ip N r r = ip N x r).
    { unfold r at 1. rewrite ip_sub_l. rewrite (ip_conj N r (fun m => csum (fun i => c i * V i m) (seq 0 k))), ip_csum_r.
      rewrite (csum_zero _ (seq 0 k)); [rewrite cconj_0; ring|]. intros i Hi. apply in_seq in Hi.
      rewrite (ip_conj N (V i) r), H1, cconj_0 by lia. ring. }
    rewrite E. unfold r. rewrite ip_sub_r, ip_csum_r. f_equal. rewrite <- csum_creal_fsum. apply csum_ext. intros i _.
    rewrite (ip_conj N (V i) x). fold (c i). rewrite <- cmul_conj. ring. }
  apply fsub_nonneg_inv. replace (re (ip N x x) - fsum (fun i => cabs2 (ip N (V i) x)) (seq 0 k))%F with (re (ip N r r)) by (rewrite H2; reflexivity).
  rewrite ip_self. simpl. apply fsum_nonneg. intros; apply cabs2_nonneg.
Qed.
Definition ones (k : nat) : F := fsum (fun _ => 1%F) (seq 0 k).
Lemma ones_S k : ones (S k) = (1 + ones k)%F.
Proof. unfold ones. simpl. rewrite <- seq_shift, fsum_map. auto. Qed.
Lemma ones_lt k N : (k < N)%nat -> (ones k < ones N)%F.
Proof.
  intros H. induction H as [|N H IH]; rewrite ones_S.
  - replace (ones k) with (0 + ones k)%F at 1 by ring. apply flt_add. apply flt_0_1.
  - eapply flt_trans; [exact IH|]. replace (ones N) with (0 + ones N)%F at 1 by ring. apply flt_add. apply flt_0_1.
Qed.
Lemma fsum_swap {A B} (f : A -> B -> F) l m : fsum (fun a => fsum (f a) m) l = fsum (fun b => fsum (fun a => f a b) l) m.
Proof.
  induction l as [|a l IH]; simpl.
  - induction m as [|b m IHm]; simpl; auto. rewrite <- IHm. ring.
  - rewrite IH, <- fsum_add. auto.
Qed.
(* there are at most N orthonormal vectors in N dimensions *)
Lemma orthonormal_le N k V : @orthonormal F N k V -> (k <= N)%nat.
Proof.
  intros HV. destruct (Nat.le_gt_cases k N) as [|H]; auto. exfalso.
  assert (E : fsum (fun m => fsum (fun i => cabs2 (V i m)) (seq 0 k)) (seq 0 N) = ones k).
  { rewrite (fsum_swap (fun m i => cabs2 (V i m))). apply fsum_ext. intros i Hi. apply in_seq in Hi.
    pose proof (HV i i ltac:(lia) ltac:(lia)) as E. rewrite Nat.eqb_refl, ip_self in E. apply (f_equal re) in E. exact E. }
  assert (L : (fsum (fun m => fsum (fun i => cabs2 (V i m)) (seq 0 k)) (seq 0 N) <= ones N)%F).
  { apply fsum_le. intros m Hm. apply in_seq in Hm.
    pose proof (bessel N k V (fun i => if Nat.eqb i m then c1 else c0) HV) as Hb.
    rewrite (fsum_ext _ (fun i => cabs2 (V i m))) in Hb.
    - eapply fle_trans; [exact Hb|]. unfold ip. rewrite (csum_ext _ (fun i => if Nat.eqb i m then c1 else c0)).
      + rewrite csum_delta. destruct (Nat.ltb_spec m N); [apply fle_refl|lia].
      + intros i _. destruct (Nat.eqb i m); rewrite ?cconj_1, ?cconj_0; ring.
    - intros i _. rewrite <- (cabs2_conj (V i m)). f_equal. unfold ip. apply csum_mul_delta; auto. lia. }
  rewrite E in L. pose proof (ones_lt N k H) as L'. rewrite L in L'. discriminate.
Qed.

(* sums with a column of the tridiagonal matrix *)
Lemma tridiag_col (alpha beta : list F) (f : nat -> cx F) k i : (i < k)%nat ->
  csum (fun i' => tridiag alpha beta i' i * f i') (seq 0 k) =
  (if Nat.ltb (S i) k then creal (nth i beta 0%F) * f (S i) else c0) + creal (nth i alpha 0%F) * f i + prev i (fun i' => creal (nth i' beta 0%F) * f i').
Proof.
  intros Hi.
  rewrite (csum_ext _ (fun i' => (if Nat.eqb i' (S i) then creal (nth i beta 0%F) * f i' else c0)
     + (if Nat.eqb i' i then creal (nth i alpha 0%F) * f i' else c0)
     + (match i with O => c0 | S p => if Nat.eqb i' p then creal (nth p beta 0%F) * f i' else c0 end))).
  - rewrite !csum_add, (csum_delta (fun i' => creal (nth i beta 0%F) * f i')), (csum_delta (fun i' => creal (nth i alpha 0%F) * f i')).
    destruct (Nat.ltb_spec i k); [|lia]. f_equal. destruct i as [|p]; simpl prev.
    + apply csum_zero. auto.
    + rewrite (csum_delta (fun i' => creal (nth p beta 0%F) * f i')). destruct (Nat.ltb_spec p k); [auto|lia].
  - intros i' _. unfold tridiag. destruct (Nat.eqb_spec i' i) as [->|H].
    + destruct (Nat.eqb_spec i (S i)); [lia|]. destruct i as [|p]; [ring|]. destruct (Nat.eqb_spec (S p) p); [lia|ring].
    + destruct (Nat.eqb_spec i (S i')) as [->|H1].
      * destruct (Nat.eqb_spec i' (S (S i'))); [lia|]. rewrite Nat.eqb_refl. ring.
      * destruct (Nat.eqb_spec i' (S i)) as [->|H2].
        -- destruct i as [|p]; [ring|]. destruct (Nat.eqb_spec (S (S p)) p); [lia|ring].
        -- destruct i as [|p]; [ring|]. destruct (Nat.eqb_spec i' p); [lia|ring].
Qed.

Section Rec.
Variable fsqrt : F -> F.
Hypothesis HS : sqrt_laws fsqrt.
Variable n : nat.
Variable M : nat -> nat -> cx F.
Hypothesis HM : hermitian n M.

Lemma mv_csum k (y : nat -> cx F) (V : nat -> nat -> cx F) m :
  mv n M (fun m => csum (fun i => y i * V i m) (seq 0 k)) m = csum (fun i => y i * mv n M (V i) m) (seq 0 k).
Proof.
  unfold mv. rewrite (csum_ext _ (fun j => csum (fun i => y i * (M m j * V i j)) (seq 0 k))).
  - rewrite csum_swap. apply csum_ext. intros; apply csum_mul_l.
  - intros j _. rewrite <- csum_mul_l. apply csum_ext. intros; ring.
Qed.

(* matrix elements between Krylov vectors *)
Lemma li_elems j V A B w al be : LInv n M j V A B w -> (forall i, (i <= j)%nat -> nth i al 0%F = A i) -> (forall i, (i < j)%nat -> nth i be 0%F = B i) ->
  forall i i', (i <= j)%nat -> (i' <= j)%nat -> ip n (V i) (mv n M (V i')) = tridiag al be i i'.
Proof.
  intros H HA HB.
  assert (G : forall i i', (i <= j)%nat -> (i' < j)%nat -> ip n (V i) (mv n M (V i')) = tridiag al be i i').
  { intros i i' Hi Hi'. destruct H as [Hon Htri Ha Hb Hwl Hw].
    rewrite (ip_ext n _ _ (V i) (fun m => (creal (B i') * V (S i') m + creal (A i') * V i' m) + prev i' (fun p => creal (B p) * V p m))) by (auto; intros; apply Htri; auto).
    rewrite !ip_add_r, !ip_scale_r, prev_orth, !Hon by lia. unfold tridiag.
    assert (Ep : prev i' (fun p => creal (B p) * ip n (V i) (V p)) = match i' with O => c0 | S p => creal (B p) * (if Nat.eqb i p then c1 else c0) end).
    { destruct i' as [|p]; auto. simpl. rewrite Hon by lia. auto. }
    rewrite Ep. clear Ep. destruct (Nat.eqb_spec i i') as [->|Hne].
    - destruct (Nat.eqb_spec i' (S i')); [lia|]. rewrite HA by lia. destruct i' as [|p]; [ring|]. destruct (Nat.eqb_spec (S p) p); [lia|ring].
    - destruct (Nat.eqb_spec i' (S i)) as [->|H1].
      + destruct (Nat.eqb_spec i (S (S i))); [lia|]. rewrite Nat.eqb_refl, HB by lia. ring.
      + destruct (Nat.eqb_spec i (S i')) as [->|H2].
        * rewrite HB by lia. destruct i' as [|p]; [ring|]. destruct (Nat.eqb_spec (S (S p)) p); [lia|ring].
        * destruct i' as [|p]; [ring|]. destruct (Nat.eqb_spec i p); [lia|ring]. }
  intros i i' Hi Hi'. destruct (Nat.eq_dec i' j) as [->|Hn]; [|apply G; lia].
  destruct (Nat.eq_dec i j) as [->|Hn'].
  - unfold tridiag. rewrite Nat.eqb_refl, HA by lia. symmetry. apply H. lia.
  - rewrite (ip_mv n M HM), ip_conj, G by lia. apply eq_sym, (tridiag_hermitian al be (S j)); lia.
Qed.

(* zero residual: the Krylov vectors span an invariant subspace and the continued fraction is exact *)
Lemma li_invariant j V A B w al be : LInv n M j V A B w -> (forall i, (i <= j)%nat -> nth i al 0%F = A i) -> (forall i, (i < j)%nat -> nth i be 0%F = B i) ->
  (forall m, (m < n)%nat -> vf w m = c0) ->
  forall i m, (i <= j)%nat -> (m < n)%nat -> mv n M (V i) m = csum (fun i' => tridiag al be i' i * V i' m) (seq 0 (S j)).
Proof.
  intros H HA HB Hz i m Hi Hm. rewrite (tridiag_col al be (fun i' => V i' m)) by lia. rewrite HA by auto.
  destruct (Nat.eq_dec i j) as [->|Hn].
  - destruct (Nat.ltb_spec (S j) (S j)); [lia|].
    pose proof (li_w _ _ _ _ _ _ _ H m Hm) as E. rewrite Hz in E by auto.
    assert (Ep : prev j (fun i' => creal (nth i' be 0%F) * V i' m) = prev j (fun i' => creal (B i') * V i' m)) by (destruct j; auto; simpl; rewrite HB by lia; auto).
    rewrite Ep. set (p := prev j _) in *. transitivity (mv n M (V j) m - creal (A j) * V j m - p + creal (A j) * V j m + p); [ring|].
    rewrite <- E. ring.
  - destruct (Nat.ltb_spec (S i) (S j)); [|lia]. rewrite HB by lia. rewrite (li_tri _ _ _ _ _ _ _ H i m) by lia. f_equal.
    destruct i; auto. simpl. rewrite HB by lia. auto.
Qed.
Lemma li_green j V A B w al be z : LInv n M j V A B w -> (forall i, (i <= j)%nat -> nth i al 0%F = A i) -> (forall i, (i < j)%nat -> nth i be 0%F = B i) ->
  (forall m, (m < n)%nat -> vf w m = c0) -> length al = S j -> length be = j -> im z <> 0%F ->
  resolvent n z M (V 0%nat) (cont_frac z al be).
Proof.
  intros H HA HB Hw La Lb Hz.
  assert (Hne : al <> []) by (intros ->; discriminate).
  pose proof (cf_sol_ok z al be c1 Hz Hne ltac:(lia)) as Hs. set (y := cf_sol z al be c1) in *. rewrite La in Hs.
  set (x := fun m => csum (fun i => y i * V i m) (seq 0 (S j))).
  assert (Hx : solves n z M x (V 0%nat)).
  { intros m Hm. unfold x at 2. rewrite mv_csum.
    rewrite (csum_ext _ (fun i => csum (fun i' => y i * (tridiag al be i' i * V i' m)) (seq 0 (S j)))).
    2:{ intros i Hi. apply in_seq in Hi. rewrite (li_invariant j V A B w al be H HA HB Hw i m) by lia. rewrite csum_mul_l. auto. }
    rewrite (csum_swap (fun i i' => y i * (tridiag al be i' i * V i' m))).
    unfold x. rewrite <- csum_mul_l, <- csum_sub.
    rewrite (csum_ext _ (fun i' => V i' m * (if Nat.eqb i' 0 then c1 else c0))).
    - apply (csum_mul_delta (fun _ => c0) (fun i' => V i' m)). lia.
    - intros i' Hi'. apply in_seq in Hi'. rewrite <- (Hs i') by lia. unfold mv.
      rewrite (csum_ext (fun i => y i * (tridiag al be i' i * V i' m)) (fun i => tridiag al be i' i * y i * V i' m)) by (intros; ring).
      rewrite csum_mul_r. ring. }
  exists x. split; auto. split.
  - unfold x. rewrite ip_csum_r. rewrite (csum_ext _ (fun i => y i * (if Nat.eqb i 0 then c1 else c0))).
    + rewrite (csum_mul_delta (fun _ => c0) y) by lia. unfold y. rewrite cf_sol_0 by auto. ring.
    + intros i Hi. apply in_seq in Hi. rewrite (li_on _ _ _ _ _ _ _ H 0 i) by lia. rewrite (Nat.eqb_sym 0 i). auto.
  - intros x' Hx'. apply (solves_unique n M HM z x x' (V 0%nat)); auto.
Qed.
(* the residual is zero when the Krylov vectors fill the space *)
Lemma li_full j V A B w : LInv n M j V A B w -> S j = n -> forall m, (m < n)%nat -> vf w m = c0.
Proof.
  intros H Hj. pose proof (w_orth n M HM _ _ _ _ _ H) as Ho.
  apply (ip_self_zero n). destruct (c_dec (ip n (vf w) (vf w)) c0) as [|Hne]; auto. exfalso.
  set (s := fsqrt (re (ip n (vf w) (vf w)))).
  assert (Hp : (0 <= re (ip n (vf w) (vf w)))%F) by (rewrite ip_self; simpl; apply fsum_nonneg; intros; apply cabs2_nonneg).
  destruct (HS _ Hp) as [_ Hs]. fold s in Hs.
  assert (Ew : ip n (vf w) (vf w) = creal s * creal s).
  { rewrite <- creal_mul, Hs. apply cx_ext; auto. apply ip_self_im. }
  assert (Hcs : creal s <> c0) by (intros E; apply Hne; rewrite Ew, E; ring).
  assert (Hcc : cconj (cinv (creal s)) = cinv (creal s)).
  { assert (E : cconj (cinv (creal s)) * creal s = c1).
    { rewrite <- (cconj_real s) at 2. rewrite <- cconj_mul. replace (cinv (creal s) * creal s) with (@c1 F) by (field; auto). apply cconj_1. }
    transitivity (cconj (cinv (creal s)) * creal s * cinv (creal s)); [field; auto|]. rewrite E. ring. }
  assert (HV : orthonormal n (S n) (fupd V n (fun m => cinv (creal s) * vf w m))).
  { intros i i' Hi Hi'. unfold fupd. destruct (Nat.eqb_spec i n) as [->|H1], (Nat.eqb_spec i' n) as [->|H2].
    - rewrite ip_scale_l, ip_scale_r, Hcc, Ew, Nat.eqb_refl. field. auto.
    - rewrite ip_scale_l, (ip_conj n (V i') (vf w)), Ho, cconj_0 by lia. destruct (Nat.eqb_spec n i'); [lia|]. ring.
    - rewrite ip_scale_r, Ho by lia. destruct (Nat.eqb_spec i n); [lia|]. ring.
    - apply (li_on _ _ _ _ _ _ _ H); lia. }
  apply orthonormal_le in HV. lia.
Qed.
End Rec.

End Dim.
