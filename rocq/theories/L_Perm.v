(* The Green's function depends on the state, not on the order in which its product states are stored *)
From Coq Require Import Lia List Bool Permutation Field Ring.
From Verif Require Import M_Prelude M_Scalar M_PSR M_Ladder M_State M_Mpi M_Hamiltonian M_Lanczos M_Spectra S_Fock S_Ham S_Ops S_Green
  L_PSR L_Ladder L_Scalar L_Dict L_Sum L_Fock L_State L_Ham L_Expand L_ExpandP L_FromH L_HamP L_Vec L_CFrac L_Lanczos L_Lanczos2 L_Lanczos3 L_Green L_Green2 L_Green3 L_Green4 L_Spectra.
Import ListNotations.
Local Open Scope cx_scope.

Section Perm.
Context {F : ofield}.
Add Field Ff : (f_field F).
Add Ring Cring : (@c_ring F).
Add Field Cf : (@c_field F).

Section Two.
Variables basis basis' : list pybytes.
Hypothesis HP : Permutation basis basis'.
Hypothesis HN : NoDup basis.
Let N := length basis.
Lemma perm_len : length basis' = N.
Proof. symmetry. apply Permutation_length. auto. Qed.
Definition same_at {A} (f f' : nat -> A) : Prop := forall i i' k, nth_error basis i = Some k -> nth_error basis' i' = Some k -> f i = f' i'.
Lemma perm_sum (f f' : nat -> cx F) : same_at f f' -> csum f (seq 0 N) = csum f' (seq 0 N).
Proof.
  intros H. assert (HN' : NoDup basis') by (eapply Permutation_NoDup; eauto).
  pose (g := fun k => match dget (basis_index basis') k with Some i => f' i | None => c0 end).
  unfold N. rewrite (amp_at_sum basis f g).
  - rewrite (csum_perm g basis basis' HP), (Permutation_length HP). symmetry. apply amp_at_sum.
    intros i k E. unfold g. rewrite (basis_index_nodup basis' i k); auto.
  - intros i k E. unfold g.
    assert (Hk : In k basis') by (apply (Permutation_in _ HP); eapply nth_error_In; eauto).
    destruct (basis_index_In basis' _ Hk) as (i' & Ei). rewrite Ei. apply basis_index_spec in Ei. eapply H; eauto.
Qed.
Definition pv (v v' : vec F) : Prop := length v = N /\ length v' = N /\ same_at (vf v) (vf v').
Lemma same_lt i k : nth_error basis i = Some k -> (i < N)%nat.
Proof. intros E. apply nth_error_Some. congruence. Qed.
Lemma same_lt' i k : nth_error basis' i = Some k -> (i < N)%nat.
Proof. intros E. rewrite <- perm_len. apply nth_error_Some. congruence. Qed.
Lemma pv_vsub v v' w w' : pv v v' -> pv w w' -> pv (vsub v w) (vsub v' w').
Proof.
  intros (H1 & H2 & H3) (K1 & K2 & K3). split; [rewrite vsub_len; congruence|]. split; [rewrite vsub_len; congruence|].
  intros i i' k E E'. rewrite !vsub_nth by congruence. rewrite (H3 i i' k), (K3 i i' k); auto.
Qed.
Lemma pv_vmul a v v' : pv v v' -> pv (vmul a v) (vmul a v').
Proof.
  intros (H1 & H2 & H3). split; [rewrite vmul_len; auto|]. split; [rewrite vmul_len; auto|].
  intros i i' k E E'. rewrite !vmul_nth. rewrite (H3 i i' k); auto.
Qed.
Lemma pv_vdiv b v v' : b <> 0%F -> pv v v' -> pv (vdiv v b) (vdiv v' b).
Proof.
  intros Hb (H1 & H2 & H3). split; [rewrite vdiv_len; auto|]. split; [rewrite vdiv_len; auto|].
  intros i i' k E E'. rewrite !vdiv_nth by auto. rewrite (H3 i i' k); auto.
Qed.
Lemma pv_dot v v' w w' : pv v v' -> pv w w' -> vdotc v w = vdotc v' w'.
Proof.
  intros (H1 & H2 & H3) (K1 & K2 & K3). rewrite !(vdotc_ip N) by auto. unfold ip. apply perm_sum.
  intros i i' k E E'. rewrite (H3 i i' k), (K3 i i' k); auto.
Qed.
Lemma pv_norm v v' : pv v v' -> vnorm2 v = vnorm2 v'.
Proof.
  intros H. assert (E : creal (vnorm2 v) = creal (vnorm2 v')).
  { rewrite !(vnorm2_ip N) by apply H. rewrite <- !vdotc_ip by apply H. apply pv_dot; auto. }
  apply (f_equal re) in E. exact E.
Qed.
Variables m m' : mat F.
Hypothesis Hm : forall i j i' j' k l, nth_error basis i = Some k -> nth_error basis' i' = Some k ->
  nth_error basis j = Some l -> nth_error basis' j' = Some l -> m i j = m' i' j'.
Lemma pv_mdot v v' : pv v v' -> pv (mdot N m v) (mdot N m' v').
Proof.
  intros (H1 & H2 & H3). split; [apply mdot_len|]. split; [apply mdot_len|].
  intros i i' k E E'. rewrite (mdot_nth N m v i (same_lt i k E)), (mdot_nth N m' v' i' (same_lt' i' k E')). unfold mv. apply perm_sum.
  intros j j' l Ej Ej'. rewrite (H3 j j' l), (Hm i j i' j' k l); auto.
Qed.
Lemma pv_krylov_loop (fsqrt : F -> F) : forall k v0 v0' w w', pv v0 v0' -> pv w w' ->
  krylov_loop fsqrt k (mdot N m) v0 w = krylov_loop fsqrt k (mdot N m') v0' w'.
Proof.
  induction k as [|k IH]; intros v0 v0' w w' H0 H1; cbn [krylov_loop]; auto.
  rewrite <- (pv_norm w w') by auto. destruct (feqb_spec (fsqrt (vnorm2 w)) 0%F) as [|Hb]; auto.
  pose proof (pv_vdiv _ _ _ Hb H1) as Hv. pose proof (pv_mdot _ _ Hv) as Hd.
  rewrite <- (pv_dot _ _ _ _ Hd Hv).
  erewrite IH; [reflexivity|auto|]. apply pv_vsub; [apply pv_vsub; auto; apply pv_vmul; auto|apply pv_vmul; auto].
Qed.
Lemma pv_krylov (fsqrt : F -> F) v v' ks : pv v v' -> krylov fsqrt (mdot N m) v ks = krylov fsqrt (mdot N m') v' ks.
Proof.
  intros H. unfold krylov. destruct H as (H1 & H2 & H3). rewrite H1, H2. assert (H : pv v v') by (split; auto).
  destruct (_ <? 1)%Z; auto. pose proof (pv_mdot _ _ H) as Hd. rewrite <- (pv_dot _ _ _ _ Hd H).
  erewrite pv_krylov_loop; [reflexivity|auto|]. apply pv_vsub; auto. apply pv_vmul; auto.
Qed.
End Two.

Lemma closure_perm n (op : op_t F) rs b0 b0' basis basis' : Permutation b0 b0' ->
  is_closure n op rs b0 basis -> is_closure n op rs b0' basis' -> Permutation basis basis'.
Proof.
  intros HP (_ & Hn & H) (_ & Hn' & H'). apply NoDup_Permutation; auto.
  assert (G : forall a b, Permutation a b -> forall c, Reach n op rs a c -> Reach n op rs b c).
  { intros a b Hp c Hc. induction Hc; [apply Reach0; auto; eapply Permutation_in; eauto|eapply ReachS; eauto]. }
  intros k. rewrite H, H'. split; intros (c & E & Hc); exists c; split; auto.
  - apply (G b0); auto.
  - apply (G b0'); auto. symmetry. auto.
Qed.
Lemma dget_perm {A} (d d' : dict pybytes A) k : NoDup (dkeys d) -> Permutation d d' -> dget d k = dget d' k.
Proof.
  intros Hn HP. assert (Hn' : NoDup (dkeys d')) by (eapply Permutation_NoDup; [apply Permutation_map; exact HP|auto]).
  destruct (dget d k) as [v|] eqn:E.
  - apply dget_In in E. symmetry. apply In_dget; auto. eapply Permutation_in; eauto.
  - destruct (dget d' k) as [v|] eqn:E'; auto. exfalso. apply dget_In in E'. apply Permutation_sym in HP.
    apply (Permutation_in _ HP) in E'. apply In_dget in E'; auto. congruence.
Qed.
Lemma gval_perm (fsqrt : F -> F) n op rs fuel omega delta ks swm e (psi psi' : psi_t F) : wf_op n op -> wf_restr rs -> (2 ^ n < fuel)%nat ->
  valid_psi n psi -> Permutation psi psi' ->
  gval fsqrt n op rs fuel omega delta ks swm e psi = gval fsqrt n op rs fuel omega delta ks swm e psi'.
Proof.
  intros Hw Hr Hf Hv HP. assert (Hk : Permutation (dkeys psi) (dkeys psi')) by (apply Permutation_map; auto).
  assert (Hv' : valid_psi n psi').
  { destruct Hv as [H1 H2]. split; [eapply Permutation_NoDup; eauto|]. intros k Hi. apply H2. apply Permutation_sym in Hk. eapply Permutation_in; eauto. }
  destruct psi as [|p0 psi0] eqn:E1.
  { apply Permutation_nil in HP. subst psi'. reflexivity. }
  rewrite <- E1 in *. assert (Hne : psi <> []) by congruence.
  assert (Hne' : psi' <> []) by (intros ->; apply Permutation_sym, Permutation_nil in HP; congruence).
  destruct (green_serial fsqrt n op rs Hw Hr psi Hv Hne fuel (fun _ l => l) e omega delta ks swm [[]] GSparse) as (basis & m & v & HC & HE & HRm & Lv & Ev & HF); auto; [right; auto|repeat constructor; intros k col Ek; discriminate|discriminate|].
  destruct (green_serial fsqrt n op rs Hw Hr psi' Hv' Hne' fuel (fun _ l => l) e omega delta ks swm [[]] GSparse) as (basis' & m' & v' & HC' & HE' & HRm' & Lv' & Ev' & HF'); auto; [right; auto|repeat constructor; intros k col Ek; discriminate|discriminate|].
  apply Forall2_one in HF as ([h1 r1] & G1 & _ & _ & R1). apply Forall2_one in HF' as ([h2 r2] & G2 & _ & _ & R2). cbn [snd] in R1, R2.
  unfold gval, GG. rewrite G1, G2. rewrite R1, R2. f_equal.
  assert (HPB : Permutation basis basis') by (eapply closure_perm; eauto).
  assert (HNB : NoDup basis) by apply HC.
  rewrite <- (Permutation_length HPB). apply (pv_krylov basis basis' HPB HNB); auto.
  - intros i j i' j' k l Ei Ei' Ej Ej'. pose proof (closure_valid _ _ _ _ _ HC) as HV. rewrite Forall_forall in HV.
    destruct (HV k) as (ck & Lk & ->); [eapply nth_error_In; eauto|]. destruct (HV l) as (cl & Ll & ->); [eapply nth_error_In; eauto|].
    destruct (HRm i j ck cl Ei Ej Lk Ll) as [A1 A2], (HRm' i' j' ck cl Ei' Ej' Lk Ll) as [B1 B2].
    destruct (linked_dec n op rs cl ck) as [D|D]; [rewrite A1, B1|rewrite A2, B2]; auto.
  - split; [auto|]. split; [rewrite Lv'; symmetry; apply Permutation_length; auto|].
    intros i i' k E E'. rewrite Ev, Ev'. unfold amp_at. rewrite E, E'. rewrite (dget_perm psi psi' k (proj1 Hv) HP). reflexivity.
Qed.
End Perm.

(* getGreen on rank 0 *)
Lemma green_rank0 {F : ofield} (fsqrt : F -> F) n op rs fuel (ord : nat -> set_order) e (psi : psi_t F) omega delta ks swm hs mode pm :
  wf_op n op -> wf_restr rs -> (2 ^ n < fuel)%nat -> valid_psi n psi -> mode = GDense \/ mode = GSparse -> Forall (hdict_exact n op rs) hs -> hs <> [] ->
  pm = Serial \/ pm = HBuild /\ (forall r l, Permutation (ord r l) l) /\ NoDup (flat_map dkeys hs) ->
  hd_error (map snd (getGreen fsqrt fuel ord (Z.of_nat n) e psi op omega delta ks swm rs hs mode pm)) = Some (gval fsqrt n op rs fuel omega delta ks swm e psi).
Proof.
  intros Hw Hr Hf Hv Hm Hh Hne Hpm.
  replace (getGreen fsqrt fuel ord (Z.of_nat n) e psi op omega delta ks swm rs hs mode pm) with (GG fsqrt n op rs fuel omega delta ks swm ord e psi hs pm) by (destruct Hm as [->| ->]; reflexivity).
  destruct Hpm as [->|(-> & Ho & Hnd)].
  - destruct (green_canon fsqrt n op rs Hw Hr fuel Hf omega delta ks swm e psi Hv) as (r & other & H & _).
    rewrite (gval_eq fsqrt n op rs fuel omega delta ks swm e psi r) by (apply H; constructor; [apply exact_nil|auto]).
    specialize (H ord hs Hh). destruct hs as [|h0 hs]; [congruence|]. set (out := GG _ _ _ _ _ _ _ _ _ _ _ _ _ _) in *. clearbody out. inversion H as [|? o ? ? [_ Hb] _]. cbn [map hd_error]. f_equal. exact Hb.
  - destruct (GG_hbuild fsqrt n op rs Hw Hr fuel Hf omega delta ks swm ord e psi hs Hv Ho (conj Hh Hnd) Hne) as (other & _ & _ & E & _). rewrite E. reflexivity.
Qed.
Lemma green_order {F : ofield} (fsqrt : F -> F) n op rs fuel omega delta ks swm e (psi psi' : psi_t F) :
  wf_op n op -> wf_restr rs -> (2 ^ n < fuel)%nat -> valid_psi n psi -> Permutation psi psi' ->
  forall (ord ord' : nat -> set_order) hs hs' mode mode' pm pm',
  (mode = GDense \/ mode = GSparse) -> (mode' = GDense \/ mode' = GSparse) ->
  Forall (hdict_exact n op rs) hs -> hs <> [] -> Forall (hdict_exact n op rs) hs' -> hs' <> [] ->
  (pm = Serial \/ pm = HBuild /\ (forall r l, Permutation (ord r l) l) /\ NoDup (flat_map dkeys hs)) ->
  (pm' = Serial \/ pm' = HBuild /\ (forall r l, Permutation (ord' r l) l) /\ NoDup (flat_map dkeys hs')) ->
  exists r, hd_error (map snd (getGreen fsqrt fuel ord (Z.of_nat n) e psi op omega delta ks swm rs hs mode pm)) = Some r /\
    hd_error (map snd (getGreen fsqrt fuel ord' (Z.of_nat n) e psi' op omega delta ks swm rs hs' mode' pm')) = Some r.
Proof.
  intros Hw Hr Hf Hv HP ord ord' hs hs' mode mode' pm pm' Hm Hm' Hh Hne Hh' Hne' Hp Hp'.
  assert (Hv' : valid_psi n psi').
  { assert (Hk : Permutation (dkeys psi) (dkeys psi')) by (apply Permutation_map; auto).
    destruct Hv as [H1 H2]. split; [eapply Permutation_NoDup; eauto|]. intros k Hi. apply H2. apply Permutation_sym in Hk. eapply Permutation_in; eauto. }
  exists (gval fsqrt n op rs fuel omega delta ks swm e psi). split; [apply green_rank0; auto|].
  rewrite (gval_perm fsqrt n op rs fuel omega delta ks swm e psi psi') by auto. apply green_rank0; auto.
Qed.
