(* Lemmas about getGreen: the vector of psi, the serial and the H_build mode. *)
From Coq Require Import Lia List Bool Permutation Field Ring.
From Verif Require Import M_Prelude M_Scalar M_PSR M_Ladder M_State M_Mpi M_Hamiltonian M_Lanczos S_Fock S_Ham S_Ops S_Green
  L_PSR L_Ladder L_Scalar L_Dict L_Sum L_Fock L_State L_Ham L_FromH L_HamP L_Vec L_CFrac L_Lanczos L_Lanczos2 L_Lanczos3.
Import ListNotations.
Local Open Scope cx_scope.

Section LGreen.
Context {F : ofield}.
Add Field Ff : (f_field F).
Add Ring Cring : (@c_ring F).
Add Field Cf : (@c_field F).

(* ---- small things ---- *)
Lemma list_vf_ext (v w : vec F) : length v = length w -> (forall i, (i < length v)%nat -> vf v i = vf w i) -> v = w.
Proof. intros HL H. apply (nth_ext _ _ c0 c0); auto. Qed.
Lemma rmap_ok {A B} (f : A -> B) (r : res A) y : rmap f r = Ok y -> exists x, r = Ok x /\ y = f x.
Proof. destruct r; simpl; [|discriminate]. intros [= <-]. eauto. Qed.

Lemma forall_dec_le (l : list (list Z * (Z * Z))) (f : list Z -> Z) :
  {Forall (fun r => Z.le (fst (snd r)) (f (fst r)) /\ Z.le (f (fst r)) (snd (snd r))) l} + {~ Forall (fun r => Z.le (fst (snd r)) (f (fst r)) /\ Z.le (f (fst r)) (snd (snd r))) l}.
Proof.
  apply Forall_dec. intros r. destruct (Z_le_dec (fst (snd r)) (f (fst r))); [|right; tauto].
  destruct (Z_le_dec (f (fst r)) (snd (snd r))); [left|right]; tauto.
Qed.
Lemma allowed_opt_dec rs c : {allowed_opt rs c} + {~ allowed_opt rs c}.
Proof. destruct rs as [rs|]; [|left; exact I]. apply (forall_dec_le rs (fun l => Z.of_nat (length (filter (occupied c) l)))). Qed.
Lemma linked_dec n (op : op_t F) rs s t : {linked n op rs s t} + {~ linked n op rs s t}.
Proof.
  unfold linked. destruct (Nat.eq_dec (length t) n); [|right; tauto].
  destruct (allowed_opt_dec rs t); [|right; tauto].
  destruct (cabs2 (opelem op t s) <? eps12)%F eqn:E; [right|left; auto]. intros (_ & _ & H). congruence.
Qed.
Lemma restricted_matrix_fun n (op : op_t F) rs basis m m' : Forall (valid_key n) basis ->
  restricted_matrix n op rs basis m -> restricted_matrix n op rs basis m' ->
  forall i j, (i < length basis)%nat -> (j < length basis)%nat -> m i j = m' i j.
Proof.
  intros Hv H H' i j Hi Hj. rewrite Forall_forall in Hv.
  destruct (nth_error basis i) as [bi|] eqn:Ei; [|apply nth_error_None in Ei; lia].
  destruct (nth_error basis j) as [bj|] eqn:Ej; [|apply nth_error_None in Ej; lia].
  destruct (Hv bi (nth_error_In _ _ Ei)) as (ci & Li & ->). destruct (Hv bj (nth_error_In _ _ Ej)) as (cj & Lj & ->).
  destruct (H i j ci cj Ei Ej Li Lj) as [H1 H2]. destruct (H' i j ci cj Ei Ej Li Lj) as [H3 H4].
  destruct (linked_dec n op rs cj ci) as [D|D]; [rewrite H1, H3|rewrite H2, H4]; auto.
Qed.
Lemma closure_valid n (op : op_t F) rs basis0 basis : is_closure n op rs basis0 basis -> Forall (valid_key n) basis.
Proof.
  intros (_ & _ & HR). apply Forall_forall. intros k Hk. apply HR in Hk as (c & -> & Hc). exists c. split; auto.
  inversion Hc; subst; auto. unfold linked in *. tauto.
Qed.

(* ---- psi as a vector ---- *)
Lemma length_basis_index basis : NoDup basis -> length (basis_index basis) = length basis.
Proof.
  unfold basis_index, enumerate.
  assert (G : forall (l : list pybytes) z (d : dict pybytes nat), NoDup (dkeys d ++ l) ->
    length (fold_left (fun d ib => dset d (snd ib) (fst ib)) (combine (seq z (length l)) l) d) = (length d + length l)%nat).
  { induction l as [|a l IH]; intros z d Hn; simpl; auto. apply NoDup_remove in Hn as Hn'. destruct Hn' as [_ Hnin].
    rewrite in_app_iff in Hnin. rewrite dset_notin by tauto. rewrite IH; [rewrite app_length; simpl; lia|].
    unfold dkeys in *. rewrite map_app, <- app_assoc. exact Hn. }
  intros Hn. apply (G basis 0%nat []). auto.
Qed.
Lemma psi_vec_ok basis (psi : psi_t F) : NoDup basis -> NoDup (dkeys psi) -> (forall k, In k (dkeys psi) -> In k basis) ->
  exists v, psi_vec (basis_index basis) psi = Ok v /\ length v = length basis /\ forall i, vf v i = amp_at basis psi i.
Proof.
  intros Hn Hp Hin. unfold psi_vec. rewrite length_basis_index by auto.
  assert (G : forall (l pre : psi_t F) v, psi = pre ++ l -> length v = length basis -> (forall i, vf v i = amp_at basis pre i) ->
    exists v', fold_res (fun v sa => do i <- dgetitem (basis_index basis) (fst sa);
       if Nat.ltb i (length v) then Ok (set_nth v i (snd sa)) else Err IndexError) l v = Ok v' /\ length v' = length basis /\ forall i, vf v' i = amp_at basis psi i).
  { induction l as [|[k a] l IH]; intros pre v E HL Hv.
    - rewrite app_nil_r in E. subst pre. exists v. auto.
    - cbn [fold_res fst snd]. assert (Hk : In k basis) by (apply Hin; rewrite E; unfold dkeys; rewrite map_app, in_app_iff; simpl; auto).
      destruct (basis_index_In basis k Hk) as (i & Ei). unfold dgetitem. rewrite Ei. cbn [bind].
      pose proof (basis_index_spec basis k i Ei) as En.
      assert (Hi : (i < length v)%nat) by (rewrite HL; apply nth_error_Some; congruence).
      destruct (Nat.ltb_spec i (length v)); [|lia]. cbn [bind].
      apply (IH (pre ++ [(k, a)])); [rewrite <- app_assoc; auto|rewrite set_nth_length; auto|].
      intros i'. unfold vf. rewrite nth_set_nth by auto. unfold amp_at. destruct (Nat.eqb_spec i' i) as [->|Hne].
      + rewrite En, dget_app. assert (Hnk : ~ In k (dkeys pre)).
        { rewrite E in Hp. unfold dkeys in Hp. rewrite map_app in Hp. simpl in Hp. apply NoDup_remove_2 in Hp. rewrite in_app_iff in Hp. tauto. }
        apply dget_None in Hnk. rewrite Hnk, dget_cons, eqb_refl. auto.
      + fold (vf v i'). rewrite Hv. unfold amp_at. destruct (nth_error basis i') as [k'|] eqn:Ek'; auto.
        rewrite dget_app. destruct (dget pre k'); auto. rewrite dget_cons, eqb_neq; auto.
        intros ->. apply Hne. rewrite NoDup_nth_error in Hn. apply Hn; [apply nth_error_Some; congruence|congruence]. }
  apply (G psi [] (repeat c0 (length basis))); auto; [apply repeat_length|].
  intros i. unfold vf. rewrite nth_repeat. unfold amp_at. destruct (nth_error basis i); auto.
Qed.
Lemma amp_at_sum basis (f : nat -> cx F) (g : pybytes -> cx F) :
  (forall i k, nth_error basis i = Some k -> f i = g k) -> csum f (seq 0 (length basis)) = csum g basis.
Proof.
  intros H. rewrite <- (csum_seq_nth g basis []). apply csum_ext. intros i Hi. apply in_seq in Hi.
  apply H. apply nth_error_nth'. lia.
Qed.
Lemma csum_support (f : pybytes -> cx F) l m : NoDup l -> NoDup m -> (forall a, In a l -> In a m) ->
  (forall a, In a m -> ~ In a l -> f a = c0) -> csum f m = csum f l.
Proof.
  intros Hl Hm Hin Hz. transitivity (csum f (filter (fun a => inb a l) m)).
  - rewrite csum_filter. apply csum_ext. intros a Ha. destruct (inb a l) eqn:E; auto. apply Hz; auto. intros H. apply inb_In in H. congruence.
  - apply csum_perm. apply NoDup_Permutation; auto; [apply NoDup_filter; auto|].
    intros a. rewrite filter_In. split; [intros [_ H]; apply inb_In; auto|]. intros H. split; auto. apply inb_In; auto.
Qed.
Lemma psi_vec_ip basis (psi : psi_t F) : NoDup basis -> NoDup (dkeys psi) -> (forall k, In k (dkeys psi) -> In k basis) ->
  ip (length basis) (amp_at basis psi) (amp_at basis psi) = creal (norm2 psi).
Proof.
  intros Hn Hp Hin. unfold ip. pose (g := fun k => let a := match dget psi k with Some a => a | None => c0 end in cconj a * a).
  rewrite (amp_at_sum basis _ g) by (intros i k E; unfold amp_at; rewrite E; reflexivity).
  rewrite (csum_support g (dkeys psi) basis); auto.
  2:{ intros a _ Ha. apply dget_None in Ha. unfold g. rewrite Ha. rewrite cconj_0. ring. }
  rewrite norm2_inner, inner_csum by auto. unfold dkeys. rewrite csum_map. apply csum_ext. intros [k a] Hk.
  unfold g. simpl. rewrite (In_dget psi k a) by auto. auto.
Qed.

(* ---- the recursion only looks at the product ---- *)
Lemma vsub_len' n (x y : vec F) : length x = n -> length y = n -> length (vsub x y) = n.
Proof. intros Hx Hy. rewrite vsub_len; congruence. Qed.
Lemma krylov_loop_ext (fsqrt : F -> F) n dot dot' : (forall v : vec F, length v = n -> dot v = dot' v) -> (forall v, length v = n -> length (dot v) = n) ->
  forall k v0 w, length v0 = n -> length w = n -> krylov_loop fsqrt k dot v0 w = krylov_loop fsqrt k dot' v0 w.
Proof.
  intros He Hl. induction k as [|k IH]; intros v0 w H0 Hw; simpl; auto. destruct (feqb _ _); auto.
  assert (Hd : length (vdiv w (fsqrt (vnorm2 w))) = n) by (rewrite vdiv_len; auto).
  rewrite <- He by auto. rewrite IH; auto.
  apply vsub_len'; [apply vsub_len'|]; rewrite ?vmul_len; auto.
Qed.
Lemma krylov_ext (fsqrt : F -> F) n dot dot' psi0 ks : (forall v : vec F, length v = n -> dot v = dot' v) -> (forall v, length v = n -> length (dot v) = n) ->
  length psi0 = n -> krylov fsqrt dot psi0 ks = krylov fsqrt dot' psi0 ks.
Proof.
  intros He Hl H0. unfold krylov. destruct (_ <? 1)%Z; auto. rewrite <- He by auto.
  rewrite (krylov_loop_ext fsqrt n dot dot'); auto. apply vsub_len'; rewrite ?vmul_len; auto.
Qed.
Lemma mdot_ext n (m m' : mat F) v : (forall i j, (i < n)%nat -> (j < n)%nat -> m i j = m' i j) -> mdot n m v = mdot n m' v.
Proof.
  intros H. apply list_vf_ext; rewrite ?mdot_len; auto. intros i Hi. rewrite !mdot_nth by auto.
  unfold mv. apply csum_ext. intros j Hj. apply in_seq in Hj. rewrite H by lia. auto.
Qed.
Lemma reduce_mdot n hs (m : mat F) v : (forall i j, m i j = csum (fun mr : mat F => mr i j) hs) -> reduce_dot hs n v = mdot n m v.
Proof.
  intros H. apply list_vf_ext; rewrite ?mdot_len, ?reduce_dot_len; auto. intros i Hi.
  rewrite mdot_nth, (reduce_dot_nth hs n v m) by auto. auto.
Qed.
Lemma krylov_len (fsqrt : F -> F) dot psi0 ks al be : krylov fsqrt dot psi0 ks = Ok (al, be) -> length al = S (length be).
Proof.
  unfold krylov. destruct (_ <? 1)%Z; [discriminate|].
  assert (G : forall k v0 w al be, krylov_loop fsqrt k dot v0 w = Ok (al, be) -> length al = length be).
  { induction k as [|k IH]; intros v0 w al' be'; simpl; [intros [= <- <-]; auto|]. destruct (feqb _ _); [discriminate|].
    destruct (krylov_loop fsqrt k dot _ _) as [[a b]|] eqn:E; cbn [bind fst snd]; [|discriminate]. intros [= <- <-]. simpl. f_equal. eapply IH; eauto. }
  destruct (krylov_loop fsqrt _ dot _ _) as [[a b]|] eqn:E; cbn [bind fst snd]; [|discriminate].
  intros [= <- <-]. simpl. f_equal. eapply G; eauto.
Qed.
Lemma dict_krylov_len (fsqrt : F -> F) n hOp swm rs psi ks h h' al be : dict_krylov fsqrt n hOp swm rs psi ks h = (h', Ok (al, be)) -> length al = S (length be).
Proof.
  unfold dict_krylov. destruct (ks <? 0)%Z; [discriminate|]. destruct (ks =? 0)%Z; [discriminate|].
  destruct (apply_h n hOp swm rs psi h) as [h1 [wp|e]]; [|discriminate].
  assert (G : forall k v0 w h h' al be, dict_loop fsqrt k n hOp swm rs v0 w h = (h', Ok (al, be)) -> length al = length be).
  { clear. induction k as [|k IH]; intros v0 w h h' al' be'; cbn [dict_loop]; [intros [= _ <- <-]; auto|]. cbv zeta. destruct (feqb _ _); [discriminate|].
    destruct (apply_h _ _ _ _ _ _) as [h1 [wp|e]]; [|discriminate].
    destruct (dict_loop fsqrt k n hOp swm rs _ _ h1) as [h2 [[a b]|]] eqn:E; cbn [bind fst snd]; [|discriminate]. intros [= _ <- <-]. simpl. f_equal. eapply IH; eauto. }
  cbv zeta. destruct (dict_loop fsqrt _ n hOp swm rs _ _ h1) as [h2 [[a b]|]] eqn:E; cbn [bind fst snd]; [|discriminate].
  intros [= _ <- <-]. simpl. f_equal. eapply G; eauto.
Qed.
End LGreen.
