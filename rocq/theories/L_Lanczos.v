(* The Lanczos recursion *)
From Coq Require Import Field Ring.
From Verif Require Import M_Prelude M_Scalar M_State M_Hamiltonian M_Lanczos S_Ham S_Green L_Scalar L_Sum L_Vec L_CFrac.

Section Lan.
Context {F : ofield}.
Add Field Ff : (f_field F).
Add Ring Cring : (@c_ring F).
Add Field Cf : (@c_field F).
Local Open Scope cx_scope.

(* ---- the numpy operations ---- *)
Lemma combine_nth_c (x y : list (cx F)) i : length x = length y -> nth i (combine x y) (c0, c0) = (nth i x c0, nth i y c0).
Proof. intros. apply combine_nth. auto. Qed.
Lemma nth_map_d {A B} (f : A -> B) l d d' i : f d = d' -> nth i (map f l) d' = f (nth i l d).
Proof. intros <-. apply map_nth. Qed.
Lemma vsub_len (x y : vec F) : length x = length y -> length (vsub x y) = length x.
Proof. intros E. unfold vsub. rewrite map_length, combine_length. lia. Qed.
Lemma vplus_len (x y : vec F) : length x = length y -> length (vplus x y) = length x.
Proof. intros E. unfold vplus. rewrite map_length, combine_length. lia. Qed.
Lemma vsub_nth (x y : vec F) i : length x = length y -> vf (vsub x y) i = vf x i - vf y i.
Proof.
  intros E. unfold vf, vsub. rewrite (nth_map_d _ _ (c0, c0)) by (simpl; ring). rewrite combine_nth_c by auto. reflexivity.
Qed.
Lemma vplus_nth (x y : vec F) i : length x = length y -> vf (vplus x y) i = vf x i + vf y i.
Proof.
  intros E. unfold vf, vplus. rewrite (nth_map_d _ _ (c0, c0)) by (simpl; ring). rewrite combine_nth_c by auto. reflexivity.
Qed.
Lemma vmul_len a (x : vec F) : length (vmul a x) = length x. Proof. apply map_length. Qed.
Lemma vdiv_len a (x : vec F) : length (vdiv x a) = length x. Proof. apply map_length. Qed.
Lemma vmul_nth a (x : vec F) i : vf (vmul a x) i = creal a * vf x i.
Proof.
  unfold vf, vmul. rewrite (nth_map_d _ _ c0) by ring. auto.
Qed.
Lemma vdiv_nth b (x : vec F) i : b <> 0%F -> vf (vdiv x b) i = vf x i / creal b.
Proof.
  intros Hb. assert (creal b <> c0) by (intros E; apply Hb; apply (f_equal re) in E; exact E).
  unfold vf, vdiv. rewrite (nth_map_d _ _ c0) by (field; auto). auto.
Qed.
Lemma csum_seq_nth {A} (f : A -> cx F) (l : list A) d : csum (fun i => f (nth i l d)) (seq 0 (length l)) = csum f l.
Proof. induction l as [|a l IH]; [reflexivity|]. cbn [length]. rewrite csum_seq_S. simpl. f_equal. exact IH. Qed.
Lemma fsum_seq_nth {A} (f : A -> F) (l : list A) d : fsum (fun i => f (nth i l d)) (seq 0 (length l)) = fsum f l.
Proof.
  induction l as [|a l IH]; [reflexivity|]. cbn [length]. simpl. rewrite <- seq_shift, fsum_map. simpl. f_equal. exact IH.
Qed.
Lemma vdotc_ip n (x y : vec F) : length x = n -> length y = n -> vdotc x y = ip n (vf x) (vf y).
Proof.
  intros Hx Hy. unfold vdotc. rewrite (fold_left_csum (fun p : cx F * cx F => cconj (fst p) * snd p)).
  rewrite <- (csum_seq_nth _ (combine x y) (c0, c0)), combine_length, Hx, Hy, Nat.min_id.
  transitivity (ip n (vf x) (vf y)); [|reflexivity]. rewrite <- (csum_ext (fun i => cconj (vf x i) * vf y i)).
  - unfold ip. ring.
  - intros i _. rewrite combine_nth_c by congruence. reflexivity.
Qed.
Lemma vnorm2_ip n (x : vec F) : length x = n -> creal (vnorm2 x) = ip n (vf x) (vf x).
Proof.
  intros Hx. rewrite ip_self. f_equal. unfold vnorm2. rewrite fold_left_fsum. rewrite <- (fsum_seq_nth cabs2 x c0), Hx.
  unfold vf. ring.
Qed.
Lemma vnorm2_nonneg (x : vec F) : (0 <= vnorm2 x)%F.
Proof.
  unfold vnorm2. rewrite fold_left_fsum. replace (0 + fsum cabs2 x)%F with (fsum cabs2 x) by ring. apply fsum_nonneg. intros; apply cabs2_nonneg.
Qed.
Lemma mdot_len n (h : mat F) v : length (mdot n h v) = n.
Proof. unfold mdot. rewrite map_length, seq_length. auto. Qed.
Lemma mdot_nth n (h : mat F) v i : (i < n)%nat -> vf (mdot n h v) i = mv n h (vf v) i.
Proof.
  intros Hi. unfold vf, mdot. rewrite (nth_indep _ _ (fold_left (fun s j => s + h 0%nat j * nth j v c0) (seq 0 n) c0)) by (rewrite map_length, seq_length; auto).
  rewrite (map_nth (fun i => fold_left (fun s j => s + h i j * nth j v c0) (seq 0 n) c0)). rewrite seq_nth by auto. simpl.
  rewrite (fold_left_csum (fun j => h i j * nth j v c0)). unfold mv, vf. ring.
Qed.
Lemma reduce_dot_len hs n v : length (@reduce_dot F hs n v) = n.
Proof.
  unfold reduce_dot. assert (G : forall acc, length acc = n -> length (fold_left (fun acc h => vplus acc (mdot n h v)) hs acc) = n).
  { induction hs as [|h hs IH]; intros acc Ha; simpl; auto. apply IH. rewrite vplus_len; rewrite ?mdot_len; auto. }
  apply G. apply repeat_length.
Qed.
Lemma reduce_dot_nth hs n (v : vec F) M i : (forall i j, M i j = csum (fun m : mat F => m i j) hs) -> (i < n)%nat ->
  vf (reduce_dot hs n v) i = mv n M (vf v) i.
Proof.
  intros HM Hi. unfold reduce_dot.
  assert (G : forall acc, length acc = n -> vf (fold_left (fun acc h => vplus acc (mdot n h v)) hs acc) i = vf acc i + csum (fun h => mv n h (vf v) i) hs).
  { clear HM. induction hs as [|h hs IH]; intros acc Ha; simpl; [ring|]. rewrite IH by (rewrite vplus_len; rewrite ?mdot_len; auto).
    rewrite vplus_nth by (rewrite mdot_len; auto). rewrite mdot_nth by auto. ring. }
  rewrite G by apply repeat_length. unfold vf at 1. rewrite nth_repeat.
  unfold mv. rewrite (csum_swap (fun (h : mat F) j => h i j * vf v j)). rewrite (csum_ext _ (fun j => M i j * vf v j)); [ring|].
  intros j _. rewrite HM, csum_mul_r. auto.
Qed.

Section Rec.
Variable fsqrt : F -> F.
Hypothesis HS : sqrt_laws fsqrt.
Variable n : nat.
Variable M : nat -> nat -> cx F.
Hypothesis HM : hermitian n M.
Variable dot : vec F -> vec F.
Hypothesis Hdl : forall v, length v = n -> length (dot v) = n.
Hypothesis Hd : forall v i, length v = n -> (i < n)%nat -> vf (dot v) i = mv n M (vf v) i.

Definition prev (j : nat) (x : nat -> cx F) : cx F := match j with O => c0 | S j' => x j' end.
(* the state after j passes *)
Record LInv (j : nat) (V : nat -> nat -> cx F) (A B : nat -> F) (w : vec F) : Prop := mkLInv {
  li_on : orthonormal n (S j) V;
  li_tri : forall i m, (i < j)%nat -> (m < n)%nat ->
     mv n M (V i) m = creal (B i) * V (S i) m + creal (A i) * V i m + prev i (fun i' => creal (B i') * V i' m);
  li_a : forall i, (i <= j)%nat -> creal (A i) = ip n (V i) (mv n M (V i));
  li_b : forall i, (i < j)%nat -> (0 < B i)%F;
  li_wl : length w = n;
  li_w : forall m, (m < n)%nat -> vf w m = mv n M (V j) m - creal (A j) * V j m - prev j (fun i' => creal (B i') * V i' m)
}.
Lemma ip_zero_r (x : nat -> cx F) : ip n x (fun _ => c0) = c0.
Proof. apply csum_zero. intros; ring. Qed.
Lemma prev_orth j V B (x : nat -> cx F) : ip n x (fun m => prev j (fun i' => creal (B i') * V i' m)) = prev j (fun i' => creal (B i') * ip n x (V i')).
Proof. destruct j; simpl; [apply ip_zero_r|apply ip_scale_r]. Qed.
Lemma w_orth j V A B w : LInv j V A B w -> forall i, (i <= j)%nat -> ip n (V i) (vf w) = c0.
Proof.
  intros H i Hi. destruct H as [Hon Htri Ha Hb Hwl Hw].
  rewrite (ip_ext n _ _ (V i) (fun m => (mv n M (V j) m - creal (A j) * V j m) - prev j (fun i' => creal (B i') * V i' m))) by (auto; intros; apply Hw; auto).
  rewrite !ip_sub_r, ip_scale_r, prev_orth, Hon by lia.
  destruct (Nat.eq_dec i j) as [->|Hne].
  - rewrite Nat.eqb_refl, <- Ha by lia. destruct j as [|j]; simpl; [ring|]. rewrite Hon by lia.
    destruct (Nat.eqb_spec (S j) j); [lia|]. ring.
  - destruct (Nat.eqb_spec i j); [contradiction|].
    rewrite (ip_mv n M HM). rewrite (ip_ext n _ _ (fun m => (creal (B i) * V (S i) m + creal (A i) * V i m) + prev i (fun i' => creal (B i') * V i' m)) (V j)) by (auto; intros; apply Htri; lia).
    rewrite !ip_add_l, !ip_scale_l, !cconj_real, !Hon by lia.
    assert (E : ip n (fun m => prev i (fun i' => creal (B i') * V i' m)) (V j) = c0).
    { destruct i as [|i]; simpl; [rewrite ip_conj, ip_zero_r; apply cconj_0|]. rewrite ip_scale_l, Hon by lia.
      destruct (Nat.eqb_spec i j); [lia|]. ring. }
    rewrite E. destruct (Nat.eqb_spec i j); [lia|].
    destruct j as [|j]; [lia|]. simpl prev. rewrite Hon by lia. cbn [Nat.eqb].
    destruct (Nat.eqb_spec i j) as [->|]; ring.
Qed.
Definition fupd {X} (f : nat -> X) (k : nat) (x : X) : nat -> X := fun i => if Nat.eqb i k then x else f i.

Lemma feqb_false (x y : F) : feqb x y = false -> x <> y.
Proof. destruct (feqb_spec x y); congruence. Qed.
Lemma step_inv j V A B w v : LInv j V A B w -> length v = n -> (forall m, (m < n)%nat -> vf v m = V j m) ->
  feqb (fsqrt (vnorm2 w)) 0%F = false ->
  let b := fsqrt (vnorm2 w) in let v1 := vdiv w b in let wp := dot v1 in let a := re (vdotc wp v1) in
  let w' := vsub (vsub wp (vmul a v1)) (vmul b v) in
  length v1 = n /\ LInv (S j) (fupd V (S j) (vf v1)) (fupd A (S j) a) (fupd B j b) w'.
Proof.
  intros H Hv HvV Hb b v1 wp a w'. apply feqb_false in Hb. fold b in Hb. pose proof (w_orth j V A B w H) as Hort.
  destruct H as [Hon Htri Ha Hbp Hwl Hw].
  destruct (HS (vnorm2 w) (vnorm2_nonneg w)) as [Hb0 Hbb]. fold b in Hb0, Hbb.
  assert (Hbpos : (0 < b)%F).
  { destruct (fltb 0%F b) eqn:E; auto. exfalso. apply Hb. apply fle_antisym; auto. }
  assert (Hcb : creal b <> c0) by (intros E; apply Hb; apply (f_equal re) in E; exact E).
  assert (Hv1 : length v1 = n) by (unfold v1; rewrite vdiv_len; auto).
  assert (Ev1 : forall m, vf v1 m = cinv (creal b) * vf w m) by (intros m; unfold v1; rewrite vdiv_nth by auto; field; auto).
  assert (Hcc : cconj (cinv (creal b)) = cinv (creal b)).
  { apply cx_ext; unfold cinv, cconj, creal, cabs2; simpl; field; auto; intros E; apply Hb; apply fmul_integral; rewrite <- E; ring. }
  assert (Hww : ip n (vf w) (vf w) = creal b * creal b) by (rewrite <- (vnorm2_ip n w Hwl), <- Hbb, creal_mul; auto).
  assert (Hnorm : ip n (vf v1) (vf v1) = c1).
  { rewrite (ip_ext n _ _ (fun m => cinv (creal b) * vf w m) (fun m => cinv (creal b) * vf w m)) by auto.
    rewrite ip_scale_l, ip_scale_r, Hcc, Hww. field. auto. }
  assert (Hor1 : forall i, (i <= j)%nat -> ip n (V i) (vf v1) = c0).
  { intros i Hi. rewrite (ip_ext n _ _ (V i) (fun m => cinv (creal b) * vf w m)) by auto. rewrite ip_scale_r, Hort by auto. ring. }
  assert (Hor2 : forall i, (i <= j)%nat -> ip n (vf v1) (V i) = c0) by (intros i Hi; rewrite ip_conj, Hor1 by auto; apply cconj_0).
  assert (Hwpl : length wp = n) by (apply Hdl; auto).
  assert (Hac : creal a = ip n (vf v1) (mv n M (vf v1))).
  { unfold a. rewrite (vdotc_ip n) by auto. rewrite (ip_ext n _ _ (mv n M (vf v1)) (vf v1)) by (auto; intros; apply Hd; auto).
    rewrite <- (ip_mv n M HM). apply cx_ext; [reflexivity|]. simpl. symmetry. apply ip_mv_real; auto. }
  assert (EV : forall i, (i <= j)%nat -> fupd V (S j) (vf v1) i = V i) by (intros i Hi; unfold fupd; destruct (Nat.eqb_spec i (S j)); [lia|auto]).
  assert (EV1 : fupd V (S j) (vf v1) (S j) = vf v1) by (unfold fupd; rewrite Nat.eqb_refl; auto).
  assert (EA : forall i, (i <= j)%nat -> fupd A (S j) a i = A i) by (intros i Hi; unfold fupd; destruct (Nat.eqb_spec i (S j)); [lia|auto]).
  assert (EA1 : fupd A (S j) a (S j) = a) by (unfold fupd; rewrite Nat.eqb_refl; auto).
  assert (EB : forall i, (i < j)%nat -> fupd B j b i = B i) by (intros i Hi; unfold fupd; destruct (Nat.eqb_spec i j); [lia|auto]).
  assert (EB1 : fupd B j b j = b) by (unfold fupd; rewrite Nat.eqb_refl; auto).
  assert (Ewl : length w' = n).
  { unfold w'. rewrite !vsub_len; rewrite ?vsub_len; rewrite ?vmul_len; congruence. }
  assert (Ewp : forall m, (m < n)%nat -> vf wp m = mv n M (vf v1) m) by (intros m Hm; apply (Hd v1 m Hv1 Hm)).
  split; auto. constructor; auto.
  - intros i i' Hi Hi'.
    destruct (Nat.eq_dec i (S j)) as [->|Hni], (Nat.eq_dec i' (S j)) as [->|Hni'].
    + rewrite EV1, Nat.eqb_refl. auto.
    + rewrite EV1, EV by lia. rewrite Hor2 by lia. destruct (Nat.eqb_spec (S j) i'); [lia|auto].
    + rewrite EV1, EV by lia. rewrite Hor1 by lia. destruct (Nat.eqb_spec i (S j)); [lia|auto].
    + rewrite !EV by lia. apply Hon; lia.
  - intros i m Hi Hm. destruct (Nat.eq_dec i j) as [->|Hne].
    + rewrite EB1, EV1, EA, EV by lia. rewrite Ev1.
      assert (Ep : prev j (fun i' => creal (fupd B j b i') * fupd V (S j) (vf v1) i' m) = prev j (fun i' => creal (B i') * V i' m)).
      { destruct j as [|j]; auto. simpl. rewrite EB, EV by lia. auto. }
      rewrite Ep, (Hw m Hm). set (p := prev j _). field. auto.
    + rewrite EB, EA, !EV by lia. rewrite Htri by lia. f_equal. destruct i as [|i]; auto. simpl. rewrite EB, EV by lia. auto.
  - intros i Hi. destruct (Nat.eq_dec i (S j)) as [->|Hne]; [rewrite EA1, EV1; auto|]. rewrite EA, EV by lia. apply Ha. lia.
  - intros i Hi. destruct (Nat.eq_dec i j) as [->|Hne]; [rewrite EB1; auto|]. rewrite EB by lia. apply Hbp. lia.
  - intros m Hm. unfold w'. rewrite !vsub_nth by (rewrite ?vsub_len; rewrite ?vmul_len; congruence).
    rewrite !vmul_nth, Ewp, EV1, EA1 by auto. simpl prev. rewrite EB1, EV by lia. rewrite HvV by auto. reflexivity.
Qed.

(* k passes starting from a state after j passes: success extends the state, failure means that the residual vanishes *)
Lemma krylov_loop_ok k : forall j V A B w v, LInv j V A B w -> length v = n -> (forall m, (m < n)%nat -> vf v m = V j m) ->
  match krylov_loop fsqrt k dot v w with
  | Ok (al, be) => length al = k /\ length be = k /\
      exists V' A' B' w', LInv (j + k) V' A' B' w' /\ (forall i, (i <= j)%nat -> V' i = V i) /\
        (forall i, (i <= j)%nat -> A' i = A i) /\ (forall i, (i < j)%nat -> B' i = B i) /\
        (forall i, (i < k)%nat -> A' (j + S i)%nat = nth i al 0%F /\ B' (j + i)%nat = nth i be 0%F)
  | Err e => e = ValueError /\ exists i V' A' B' w', (i < k)%nat /\ LInv (j + i) V' A' B' w' /\ (forall i, (i <= j)%nat -> V' i = V i) /\
        (forall m, (m < n)%nat -> vf w' m = c0)
  end.
Proof.
  induction k as [|k IH]; intros j V A B w v H Hv HvV.
  - simpl. split; auto. split; auto. exists V, A, B, w. rewrite Nat.add_0_r. split; auto. split; auto. split; auto. split; auto. intros; lia.
  - cbn [krylov_loop]. destruct (feqb (fsqrt (vnorm2 w)) 0%F) eqn:Eb.
    + split; auto. exists 0%nat, V, A, B, w. rewrite Nat.add_0_r. split; [lia|]. split; auto. split; auto.
      intros m Hm. destruct (feqb_spec (fsqrt (vnorm2 w)) 0%F) as [E|]; [|discriminate].
      destruct (HS (vnorm2 w) (vnorm2_nonneg w)) as [_ Hbb]. rewrite E in Hbb.
      apply (ip_self_zero n); auto. rewrite <- (vnorm2_ip n w) by apply H. rewrite <- Hbb. apply cx_ext; simpl; ring.
    + destruct (step_inv j V A B w v H Hv HvV Eb) as [Hv1 HI].
      set (b := fsqrt (vnorm2 w)) in *. set (v1 := vdiv w b) in *. set (wp := dot v1) in *. set (a := re (vdotc wp v1)) in *.
      set (w' := vsub (vsub wp (vmul a v1)) (vmul b v)) in *. cbv zeta.
      specialize (IH (S j) _ _ _ _ v1 HI Hv1).
      destruct (krylov_loop fsqrt k dot v1 w') as [[al be]|e]; cbn [bind fst snd].
      * destruct IH as (La & Lb & V' & A' & B' & w'' & HI' & EV & EA & EB & Hn).
        { intros m Hm. unfold fupd. rewrite Nat.eqb_refl. auto. }
        split; [simpl; lia|]. split; [simpl; lia|]. exists V', A', B', w''.
        split; [replace (j + S k)%nat with (S j + k)%nat by lia; auto|].
        split; [intros i Hi; rewrite EV by lia; unfold fupd; destruct (Nat.eqb_spec i (S j)); [lia|auto]|].
        split; [intros i Hi; rewrite EA by lia; unfold fupd; destruct (Nat.eqb_spec i (S j)); [lia|auto]|].
        split; [intros i Hi; rewrite EB by lia; unfold fupd; destruct (Nat.eqb_spec i j); [lia|auto]|].
        intros [|i] Hi.
        -- replace (j + 1)%nat with (S j) by lia. rewrite Nat.add_0_r, EA, EB by lia. unfold fupd. rewrite !Nat.eqb_refl. auto.
        -- replace (j + S (S i))%nat with (S j + S i)%nat by lia. replace (j + S i)%nat with (S j + i)%nat by lia. apply Hn. lia.
      * destruct IH as (-> & i & V' & A' & B' & w'' & Hi & HI' & EV & Hz).
        { intros m Hm. unfold fupd. rewrite Nat.eqb_refl. auto. }
        split; auto. exists (S i), V', A', B', w''. split; [lia|]. split; [replace (j + S i)%nat with (S j + i)%nat by lia; auto|].
        split; auto. intros i' Hi'. rewrite EV by lia. unfold fupd. destruct (Nat.eqb_spec i' (S j)); [lia|auto].
Qed.

Lemma init_inv psi0 : length psi0 = n -> ip n (vf psi0) (vf psi0) = c1 ->
  let wp := dot psi0 in let a := re (vdotc wp psi0) in
  LInv 0 (fun _ => vf psi0) (fun _ => a) (fun _ => 0%F) (vsub wp (vmul a psi0)).
Proof.
  intros Hl Hn wp a. assert (Hwpl : length wp = n) by (apply Hdl; auto). constructor.
  - intros i j Hi Hj. replace i with 0%nat by lia. replace j with 0%nat by lia. auto.
  - intros; lia.
  - intros i Hi. unfold a. rewrite (vdotc_ip n) by auto. rewrite (ip_ext n _ _ (mv n M (vf psi0)) (vf psi0)) by (auto; intros; apply Hd; auto).
    rewrite <- (ip_mv n M HM). apply cx_ext; [reflexivity|]. simpl. symmetry. apply ip_mv_real; auto.
  - intros; lia.
  - rewrite vsub_len; rewrite ?vmul_len; congruence.
  - intros m Hm. rewrite vsub_nth by (rewrite vmul_len; congruence). rewrite vmul_nth. unfold wp. rewrite Hd by auto. simpl. ring.
Qed.
End Rec.
End Lan.
