(* Lanczos: polynomials, invariant subspaces, the result of get_tridiagonal_krylov_vectors *)
From Coq Require Import Field Ring.
From Verif Require Import M_Prelude M_Scalar M_State M_Hamiltonian M_Lanczos S_Ham S_Green L_Scalar L_Sum L_Vec L_CFrac L_Lanczos L_Lanczos2.

Section Span.
Context {F : ofield}.
Add Field Ff : (f_field F).
Add Ring Cring : (@c_ring F).
Add Field Cf : (@c_field F).
Local Open Scope cx_scope.
Variable N : nat.
Variable M : nat -> nat -> cx F.

Lemma span_ext d W (x y : nat -> cx F) : (forall m, (m < N)%nat -> x m = y m) -> in_span N d W x -> in_span N d W y.
Proof. intros H (c & Hc). exists c. intros m Hm. rewrite <- H; auto. Qed.
Lemma span_add d W (x y : nat -> cx F) : in_span N d W x -> in_span N d W y -> in_span N d W (fun m => x m + y m).
Proof.
  intros (c & Hc) (c' & Hc'). exists (fun a => c a + c' a). intros m Hm. rewrite Hc, Hc', <- csum_add by auto. apply csum_ext. intros; ring.
Qed.
Lemma span_scale d W k (x : nat -> cx F) : in_span N d W x -> in_span N d W (fun m => k * x m).
Proof. intros (c & Hc). exists (fun a => k * c a). intros m Hm. rewrite Hc, <- csum_mul_l by auto. apply csum_ext. intros; ring. Qed.
Lemma span_zero d (W : nat -> nat -> cx F) : in_span N d W (fun _ => c0).
Proof. exists (fun _ => c0). intros m _. symmetry. apply csum_zero. intros; ring. Qed.
Lemma span_csum d W (l : list nat) (c : nat -> cx F) (X : nat -> nat -> cx F) : (forall a, In a l -> in_span N d W (X a)) ->
  in_span N d W (fun m => csum (fun a => c a * X a m) l).
Proof.
  induction l as [|a l IH]; intros H; simpl; [apply span_zero|]. apply span_add; [apply span_scale; apply H; left; auto|].
  apply IH. intros; apply H; right; auto.
Qed.
Lemma span_self d (W : nat -> nat -> cx F) a : (a < d)%nat -> in_span N d W (W a).
Proof.
  intros H. exists (fun b => if Nat.eqb b a then c1 else c0). intros m _.
  rewrite (csum_ext _ (fun b => W b m * (if Nat.eqb b a then c1 else c0))) by (intros; ring).
  symmetry. apply (csum_mul_delta (fun _ => c0) (fun b => W b m)). auto.
Qed.
Lemma span_mv d W x : invariant N M d W -> in_span N d W x -> in_span N d W (mv N M x).
Proof.
  intros Hi (c & Hc). apply (span_ext d W (fun m => csum (fun a => c a * mv N M (W a) m) (seq 0 d))).
  - intros m Hm. rewrite (mv_ext N M x (fun m => csum (fun a => c a * W a m) (seq 0 d))) by auto. rewrite mv_csum. auto.
  - apply span_csum. intros a Ha. apply in_seq in Ha. apply Hi. lia.
Qed.
Lemma span_orthonormal d (W : nat -> nat -> cx F) k V : orthonormal N d W -> orthonormal N k V -> (forall i, (i < k)%nat -> in_span N d W (V i)) -> (k <= d)%nat.
Proof.
  intros HW HV Hs.
  assert (exists C : nat -> nat -> cx F, forall i, (i < k)%nat -> forall m, (m < N)%nat -> V i m = csum (fun a => C i a * W a m) (seq 0 d)) as (C & HC).
  { clear HV HW. induction k as [|k IH].
    - exists (fun _ _ => c0). intros; lia.
    - destruct IH as (C & HC); [intros; apply Hs; lia|]. destruct (Hs k ltac:(lia)) as (c & Hc).
      exists (fupd C k c). intros i Hi m Hm. unfold fupd. destruct (Nat.eqb_spec i k) as [->|]; [apply Hc; auto|]. apply HC; auto; lia. }
  apply (orthonormal_le d k C). intros i j Hi Hj. rewrite <- (HV i j Hi Hj).
  rewrite (ip_ext N _ _ (fun m => csum (fun a => C i a * W a m) (seq 0 d)) (fun m => csum (fun a => C j a * W a m) (seq 0 d))) by (intros; apply HC; auto).
  rewrite ip_csum_r. unfold ip at 1. apply csum_ext. intros a Ha. apply in_seq in Ha. rewrite (Rmul_comm (@c_ring F)). f_equal.
  rewrite ip_conj, ip_csum_r. f_equal.
  rewrite (csum_ext _ (fun b => C i b * (if Nat.eqb b a then c1 else c0))).
  - symmetry. apply (csum_mul_delta (fun _ => c0) (C i)). lia.
  - intros b Hb. apply in_seq in Hb. rewrite HW by lia. rewrite (Nat.eqb_sym a b). auto.
Qed.

(* polynomials *)
Variable psi : nat -> cx F.
Lemma papply_scale k p m : papply N M psi (map (cmul k) p) m = k * papply N M psi p m.
Proof.
  revert m. induction p as [|c p IH]; intros m; simpl; [ring|].
  assert (E : mv N M (papply N M psi (map (cmul k) p)) m = k * mv N M (papply N M psi p) m).
  { unfold mv. rewrite <- csum_mul_l. apply csum_ext. intros j _. rewrite IH. ring. }
  rewrite E. ring.
Qed.
Fixpoint padd (p q : list (cx F)) : list (cx F) :=
  match p, q with [], _ => q | _, [] => p | a :: p', b :: q' => (a + b) :: padd p' q' end.
Lemma padd_length p q : length (padd p q) = Nat.max (length p) (length q).
Proof. revert q. induction p as [|a p IH]; intros [|b q]; simpl; auto. Qed.
Lemma papply_add p q m : papply N M psi (padd p q) m = papply N M psi p m + papply N M psi q m.
Proof.
  revert q m. induction p as [|a p IH]; intros [|b q] m; simpl; try ring.
  assert (E : mv N M (papply N M psi (padd p q)) m = mv N M (papply N M psi p) m + mv N M (papply N M psi q) m).
  { unfold mv. rewrite <- csum_add. apply csum_ext. intros j _. rewrite IH. ring. }
  rewrite E. ring.
Qed.
Lemma papply_span d W p : invariant N M d W -> in_span N d W psi -> in_span N d W (papply N M psi p).
Proof.
  intros Hi Hp. induction p as [|c p IH]; simpl; [apply span_zero|]. apply span_add; [apply span_scale; auto|apply span_mv; auto].
Qed.
End Span.

Section Res.
Context {F : ofield}.
Add Field Ff2 : (f_field F).
Add Ring Cring2 : (@c_ring F).
Add Field Cf2 : (@c_field F).
Local Open Scope cx_scope.
Variable fsqrt : F -> F.
Hypothesis HS : sqrt_laws fsqrt.
Variable n : nat.
Variable M : nat -> nat -> cx F.
Hypothesis HM : hermitian n M.

Lemma li_poly j V A B w : LInv n M j V A B w -> forall i, (i <= j)%nat -> exists p, length p = S i /\ forall m, (m < n)%nat -> V i m = papply n M (V 0%nat) p m.
Proof.
  intros H i. induction i as [i IH] using (well_founded_induction lt_wf). intros Hi. destruct i as [|i].
  - exists [c1]. split; auto. intros m Hm. cbn [papply]. unfold mv. rewrite csum_zero by (intros; cbn [papply]; ring). ring.
  - destruct (IH i) as (p & Lp & Hp); [lia|lia|].
    assert (exists q, (length q <= S i)%nat /\ forall m, (m < n)%nat -> prev i (fun i' => creal (B i') * V i' m) = papply n M (V 0%nat) q m) as (q & Lq & Hq).
    { destruct i as [|i']; [exists []; split; [simpl; lia|auto]|]. destruct (IH i') as (q & Lq & Hq); [lia|lia|].
      exists (map (cmul (creal (B i'))) q). split; [rewrite map_length; lia|]. intros m Hm. rewrite papply_scale. simpl. rewrite Hq by auto. auto. }
    pose proof (li_b _ _ _ _ _ _ _ H i ltac:(lia)) as Hb.
    assert (Hcb : creal (B i) <> c0) by (intros E; apply (f_equal re) in E; simpl in E; rewrite E, flt_irrefl in Hb; discriminate).
    exists (map (cmul (cinv (creal (B i)))) (padd (c0 :: p) (padd (map (cmul (- creal (A i))) p) (map (cmul (- c1)) q)))).
    split; [rewrite map_length, !padd_length, !map_length; simpl length; lia|]. intros m Hm.
    rewrite papply_scale, !papply_add, !papply_scale. cbn [papply].
    rewrite <- (mv_ext n M (V i) (papply n M (V 0%nat) p)) by auto.
    rewrite (li_tri _ _ _ _ _ _ _ H i m) by lia. rewrite Hq, <- Hp by auto. field. auto.
Qed.

Variable dot : vec F -> vec F.
Hypothesis Hdl : forall v, length v = n -> length (dot v) = n.
Hypothesis Hd : forall v i, length v = n -> (i < n)%nat -> vf (dot v) i = mv n M (vf v) i.
Variable psi0 : vec F.
Hypothesis Hl : length psi0 = n.
Hypothesis Hn1 : ip n (vf psi0) (vf psi0) = c1.

Lemma n_pos : (1 <= n)%nat.
Proof. destruct n; [|lia]. exfalso. apply (@c1_neq_c0 F). symmetry. exact Hn1. Qed.
Lemma krylov_inv ks : match krylov fsqrt dot psi0 ks with
  | Ok (al, be) => exists j V A B w, Z.of_nat (S j) = Z.min ks (Z.of_nat n) /\ length al = S j /\ length be = j /\
      LInv n M j V A B w /\ V 0%nat = vf psi0 /\ (forall i, (i <= j)%nat -> nth i al 0%F = A i) /\ (forall i, (i < j)%nat -> nth i be 0%F = B i)
  | Err e => e = ValueError /\ (Z.lt ks 1 \/ exists j V A B w, Z.lt (Z.of_nat (S j)) (Z.min ks (Z.of_nat n)) /\
      LInv n M j V A B w /\ V 0%nat = vf psi0 /\ forall m, (m < n)%nat -> vf w m = c0)
  end.
Proof.
  unfold krylov. rewrite Hl. pose proof n_pos as Hp. destruct (Z.ltb_spec (Z.min ks (Z.of_nat n)) 1) as [H1|H1]; [split; auto; left; lia|].
  pose proof (init_inv n M HM dot Hdl Hd psi0 Hl Hn1) as HI. cbv zeta in HI.
  set (wp := dot psi0) in *. set (a := re (vdotc wp psi0)) in *. set (w := vsub wp (vmul a psi0)) in *.
  pose proof (krylov_loop_ok fsqrt HS n M HM dot Hdl Hd (Z.to_nat (Z.min ks (Z.of_nat n) - 1)) 0 _ _ _ _ psi0 HI Hl (fun m _ => eq_refl)) as HK.
  cbv zeta. set (k := Z.to_nat (Z.min ks (Z.of_nat n) - 1)) in *.
  destruct (krylov_loop fsqrt k dot psi0 w) as [[al be]|e]; cbn [bind fst snd].
  - destruct HK as (La & Lb & V & A & B & w' & HI' & EV & EA & EB & Hn). exists k, V, A, B, w'.
    split; [lia|]. split; [simpl; lia|]. split; auto. split; auto. split; [rewrite EV; auto|]. split.
    + intros [|i] Hi; [simpl; symmetry; apply EA; lia|]. simpl. symmetry. apply (Hn i). lia.
    + intros i Hi. symmetry. apply (Hn i). lia.
  - destruct HK as (-> & i & V & A & B & w' & Hi & HI' & EV & Hz). split; auto. right. exists i, V, A, B, w'.
    split; [lia|]. split; auto.
Qed.

(* C35 *)
Lemma krylov_tridiag ks al be : krylov fsqrt dot psi0 ks = Ok (al, be) ->
  Z.of_nat (length al) = Z.min ks (Z.of_nat n) /\ length al = S (length be) /\ Forall (fun b => (0 < b)%F) be /\
  exists V, orthonormal n (length al) V /\ (forall m, V 0%nat m = vf psi0 m) /\
    (forall i j, (i < length al)%nat -> (j < length al)%nat -> ip n (V i) (mv n M (V j)) = tridiag al be i j) /\
    (forall i, (i < length al)%nat -> exists p, length p = S i /\ forall m, (m < n)%nat -> V i m = papply n M (vf psi0) p m).
Proof.
  intros E. pose proof (krylov_inv ks) as H. rewrite E in H. destruct H as (j & V & A & B & w & Hk & La & Lb & HI & HV & HA & HB).
  split; [rewrite La; auto|]. split; [lia|]. split.
  { apply Forall_forall. intros b Hb. apply (In_nth _ _ 0%F) in Hb as (i & Hi & <-). rewrite HB by lia. apply HI. lia. }
  exists V. rewrite La. split; [apply HI|]. split; [intros m; rewrite HV; auto|]. split.
  - intros i i' Hi Hi'. apply (li_elems n M HM j V A B w); auto; lia.
  - intros i Hi. rewrite <- HV. apply (li_poly j V A B w HI). lia.
Qed.
(* C36 *)
Lemma krylov_green ks al be z : krylov fsqrt dot psi0 ks = Ok (al, be) -> Z.le (Z.of_nat n) ks -> im z <> 0%F ->
  resolvent n z M (vf psi0) (cont_frac z al be).
Proof.
  intros E Hks Hz. pose proof (krylov_inv ks) as H. rewrite E in H. destruct H as (j & V & A & B & w & Hk & La & Lb & HI & HV & HA & HB).
  rewrite <- HV. apply (li_green n M HM j V A B w); auto. apply (li_full fsqrt HS n M HM j V A B w HI). lia.
Qed.
(* C37 *)
Lemma li_span j V A B w d W : LInv n M j V A B w -> invariant n M d W -> in_span n d W (V 0%nat) -> forall i, (i < S j)%nat -> in_span n d W (V i).
Proof.
  intros HI Hi Hs i Hlt. destruct (li_poly j V A B w HI i) as (p & _ & Hp); [lia|].
  apply (span_ext n d W (papply n M (V 0%nat) p)); [intros; symmetry; apply Hp; auto|]. apply papply_span; auto.
Qed.
Lemma krylov_ok_iff ks : M_Mpi.is_ok (krylov fsqrt dot psi0 ks) = true <->
  Z.le 1 ks /\ ~ (exists d W, Z.lt (Z.of_nat d) (Z.min ks (Z.of_nat n)) /\ orthonormal n d W /\ invariant n M d W /\ in_span n d W (vf psi0)).
Proof.
  pose proof (krylov_inv ks) as H. destruct (krylov fsqrt dot psi0 ks) as [[al be]|e]; simpl.
  - split; auto. intros _. destruct H as (j & V & A & B & w & Hk & La & Lb & HI & HV & HA & HB). split; [lia|].
    intros (d & W & Hd' & HW & Hi & Hs). rewrite <- HV in Hs.
    pose proof (span_orthonormal n d W (S j) V HW (li_on _ _ _ _ _ _ _ HI) (li_span j V A B w d W HI Hi Hs)). lia.
  - split; [discriminate|]. intros [H1 Hx]. exfalso. destruct H as (_ & [H|(j & V & A & B & w & Hk & HI & HV & Hz)]); [lia|].
    apply Hx. exists (S j), V. split; auto. split; [apply HI|]. split.
    + intros a Ha. pose proof (li_invariant n M j V A B w (map A (seq 0 (S j))) (map B (seq 0 j)) HI) as HT.
      exists (fun i' => tridiag (map A (seq 0 (S j))) (map B (seq 0 j)) i' a). intros m Hm. apply HT; auto; try lia.
      * intros i Hi. rewrite (nth_indep _ _ (A 0%nat)) by (rewrite map_length, seq_length; lia). rewrite map_nth, seq_nth by lia. auto.
      * intros i Hi. rewrite (nth_indep _ _ (B 0%nat)) by (rewrite map_length, seq_length; lia). rewrite map_nth, seq_nth by lia. auto.
    + rewrite <- HV. apply span_self. lia.
Qed.
Lemma krylov_err ks e : krylov fsqrt dot psi0 ks = Err e -> e = ValueError.
Proof. intros E. pose proof (krylov_inv ks) as H. rewrite E in H. apply H. Qed.
End Res.
