(* From the matrix in the generated basis to the whole Fock space; the theorems on getGreen. *)
From Coq Require Import Lia List Bool Permutation Field Ring.
From Verif Require Import M_Prelude M_Scalar M_PSR M_Ladder M_State M_Mpi M_Hamiltonian M_Lanczos S_Fock S_Ham S_Ops S_Green
  L_PSR L_Ladder L_Scalar L_Dict L_Sum L_Fock L_State L_Ops L_FockP L_Ham L_Expand L_ExpandP L_FromH L_HamP L_Vec L_CFrac L_Lanczos L_Lanczos2 L_Lanczos3 L_Green L_Green2.
Import ListNotations.
Local Open Scope cx_scope.

Section LGreen3.
Context {F : ofield}.
Add Field Ff : (f_field F).
Add Ring Cring : (@c_ring F).
Add Field Cf : (@c_field F).

Lemma csum_support_dec {A} (dec : forall x y : A, {x = y} + {x <> y}) (f : A -> cx F) l m : NoDup l -> NoDup m ->
  (forall a, In a l -> In a m) -> (forall a, In a m -> ~ In a l -> f a = c0) -> csum f m = csum f l.
Proof.
  intros Hl Hm Hin Hz. set (p := fun a => if in_dec dec a l then true else false).
  assert (Hp : forall a, p a = true <-> In a l) by (intros a; unfold p; destruct (in_dec dec a l); split; auto; discriminate).
  transitivity (csum f (filter p m)).
  - rewrite csum_filter. apply csum_ext. intros a Ha. destruct (p a) eqn:E; auto. apply Hz; auto. intros H. apply Hp in H. congruence.
  - apply csum_perm. apply NoDup_Permutation; auto; [apply NoDup_filter; auto|].
    intros a. rewrite filter_In, Hp. split; [tauto|]. auto.
Qed.
Lemma configs_of n basis : Forall (valid_key n) basis -> exists cs, basis = map key cs /\ Forall (fun c => length c = n) cs.
Proof.
  induction 1 as [|k l (c & Lc & ->) _ (cs & -> & Hc)]; [exists []; auto|]. exists (c :: cs). auto.
Qed.
Definition cfg_dec (x y : config) : {x = y} + {x <> y} := list_eq_dec Bool.bool_dec x y.

Section RF.
Variable n : nat.
Variable op : op_t F.
Variable rs : option restrictions_t.
Hypothesis Hw : wf_op n op.
Hypothesis Hh : assert_hermitian op = Ok tt.
Variable psi : psi_t F.
Hypothesis Hall : forall c, length c = n -> In (key c) (dkeys psi) -> allowed_opt rs c.
Variable h : config -> config -> cx F.
Hypothesis HR : restricted_op n op rs h.
Variable z : cx F.
Hypothesis Hz : im z <> 0%F.

Lemma h_disallowed t s : length t = n -> length s = n -> ~ allowed_opt rs t -> h t s = c0.
Proof. intros Lt Ls Ht. apply HR; auto. intros (_ & H & _). auto. Qed.
Lemma h_herm t s : length t = n -> length s = n -> allowed_opt rs t -> allowed_opt rs s -> h t s = cconj (h s t).
Proof.
  intros Lt Ls At As. destruct (HR t s Lt Ls) as [H1 H2]. destruct (HR s t Ls Lt) as [H3 H4].
  assert (Eo : opelem op t s = cconj (opelem op s t)) by (apply herm_opelem; auto; apply Hw).
  destruct (linked_dec n op rs s t) as [D|D].
  - rewrite H1 by auto. rewrite H3; auto. destruct D as (_ & _ & D). split; auto. split; auto. rewrite Eo, cabs2_conj in D. auto.
  - rewrite H2 by auto. rewrite H4; [symmetry; apply cconj_0|]. intros (_ & _ & D'). apply D. split; auto. split; auto.
    rewrite Eo, cabs2_conj. auto.
Qed.
Lemma z_neq0 : z <> c0.
Proof. intros ->. apply Hz. reflexivity. Qed.
Lemma amp_disallowed t : length t = n -> ~ allowed_opt rs t -> amp psi t = c0.
Proof.
  intros Lt Ht. unfold amp. destruct (dget psi (key t)) as [a|] eqn:E; auto. exfalso. apply Ht, Hall; auto.
  apply dget_Some_key. eauto.
Qed.
Lemma sol_disallowed x t : fock_solves n z h x psi -> length t = n -> ~ allowed_opt rs t -> x t = c0.
Proof.
  intros Hx Lt Ht. specialize (Hx t Lt). rewrite amp_disallowed in Hx by auto.
  rewrite csum_zero in Hx.
  - assert (E : z * x t = c0) by (rewrite <- Hx; ring). transitivity ((z * x t) / z); [field; apply z_neq0|rewrite E; field; apply z_neq0].
  - intros s Hs. apply allcfg_In in Hs. rewrite h_disallowed by auto. ring.
Qed.
Lemma fock_unique x x' : fock_solves n z h x psi -> fock_solves n z h x' psi -> forall t, length t = n -> x t = x' t.
Proof.
  intros Hx Hx' t Lt. set (cs := allcfg n). set (c i := nth i cs []).
  set (M := fun i j => if allowed_opt_dec rs (c i) then if allowed_opt_dec rs (c j) then h (c i) (c j) else c0 else c0).
  assert (Lc : forall i, (i < length cs)%nat -> length (c i) = n) by (intros i Hi; apply allcfg_In, nth_In; auto).
  assert (HM : hermitian (length cs) M).
  { intros i j Hi Hj. unfold M. destruct (allowed_opt_dec rs (c i)), (allowed_opt_dec rs (c j)); rewrite ?cconj_0; auto. apply h_herm; auto. }
  assert (G : forall y, fock_solves n z h y psi -> solves (length cs) z M (fun i => y (c i)) (fun i => amp psi (c i))).
  { intros y Hy i Hi. rewrite <- Hy by auto. f_equal. unfold mv. fold cs. rewrite <- (csum_seq_nth (fun s => h (c i) s * y s) cs []).
    apply csum_ext. intros j Hj. apply in_seq in Hj. fold (c j). unfold M. destruct (allowed_opt_dec rs (c i)).
    - destruct (allowed_opt_dec rs (c j)) as [|D]; auto. rewrite (sol_disallowed y (c j)); auto; [ring|apply Lc; lia].
    - rewrite h_disallowed; auto. apply Lc; lia. }
  assert (Hin : In t cs) by (apply allcfg_In; auto). apply (In_nth _ _ []) in Hin as (i & Hi & <-).
  apply (solves_unique (length cs) M HM z (fun i => x' (c i)) (fun i => x (c i)) (fun i => amp psi (c i))); auto.
Qed.

Variable basis : list pybytes.
Hypothesis HC : is_closure n op rs (dkeys psi) basis.
Variable m : nat -> nat -> cx F.
Hypothesis Hm : restricted_matrix n op rs basis m.

(* a vector in the basis as a function on the configurations *)
Definition lift (x : nat -> cx F) (t : config) : cx F := match dget (basis_index basis) (key t) with Some i => x i | None => c0 end.
Lemma lift_solves x : solves (length basis) z m x (amp_at basis psi) ->
  fock_solves n z h (lift x) psi /\ csum (fun t => cconj (amp psi t) * lift x t) (allcfg n) = ip (length basis) (amp_at basis psi) x.
Proof.
  intros Hx. pose proof HC as (_ & Hn & HRe).
  destruct (configs_of n basis (closure_valid _ _ _ _ _ HC)) as (cs & Eb & Hcs). rewrite Forall_forall in Hcs.
  assert (Lb : length basis = length cs) by (rewrite Eb; apply map_length).
  assert (Hncs : NoDup cs) by (rewrite Eb in Hn; apply NoDup_map_inv in Hn; auto).
  pose (X := lift x).
  assert (Ekey : forall i, (i < length cs)%nat -> nth_error basis i = Some (key (nth i cs []))).
  { intros i Hi. rewrite Eb, (nth_error_nth' _ (key [])) by (rewrite map_length; auto). f_equal. apply map_nth. }
  assert (HX : forall i, (i < length cs)%nat -> X (nth i cs []) = x i).
  { intros i Hi. unfold X, lift. rewrite (basis_index_nodup basis i) by auto. auto. }
  assert (Hmem : forall t, length t = n -> In (key t) basis -> In t cs).
  { intros t Lt Hi. rewrite Eb in Hi. apply in_map_iff in Hi as (c & E & Hc). apply key_inj in E; [subst; auto|rewrite Hcs; auto]. }
  assert (HX0 : forall t, length t = n -> ~ In t cs -> X t = c0).
  { intros t Lt Ht. unfold X, lift. destruct (dget (basis_index basis) (key t)) eqn:E; auto. exfalso. apply Ht, Hmem; auto.
    apply basis_index_spec in E. eapply nth_error_In; eauto. }
  assert (Hsum : forall f, csum (fun s => f s * X s) (allcfg n) = csum (fun i => f (nth i cs []) * x i) (seq 0 (length cs))).
  { intros f. rewrite (csum_support_dec cfg_dec _ cs); auto; [|apply allcfg_NoDup|intros a Ha; apply allcfg_In; auto|].
    - rewrite <- (csum_seq_nth (fun s => f s * X s) cs []). apply csum_ext. intros i Hi. apply in_seq in Hi. rewrite HX by lia. auto.
    - intros a Ha Hna. rewrite HX0; auto; [ring|apply allcfg_In; auto]. }
  assert (Hamp : forall i, (i < length cs)%nat -> amp_at basis psi i = amp psi (nth i cs [])).
  { intros i Hi. unfold amp_at. rewrite Ekey by auto. reflexivity. }
  assert (HS : fock_solves n z h X psi).
  { intros t Lt. rewrite Hsum. destruct (in_dec cfg_dec t cs) as [Hin|Hnin].
    - apply (In_nth _ _ []) in Hin as (i & Hi & <-). rewrite HX by auto. rewrite <- Hamp by auto.
      rewrite <- (Hx i) by (rewrite Lb; exact Hi). f_equal. unfold mv. rewrite Lb. apply csum_ext. intros j Hj. apply in_seq in Hj. f_equal.
      assert (Lj : length (nth j cs []) = n) by (apply Hcs, nth_In; lia).
      destruct (HR (nth i cs []) (nth j cs []) Lt Lj) as [H1 H2].
      destruct (Hm i j (nth i cs []) (nth j cs [])) as [H3 H4]; auto; try (apply Ekey; lia).
      destruct (linked_dec n op rs (nth j cs []) (nth i cs [])).
      + etransitivity; [apply H1|symmetry; apply H3]; auto.
      + etransitivity; [apply H2|symmetry; apply H4]; auto.
    - rewrite HX0 by auto. rewrite csum_zero.
      + assert (E : amp psi t = c0); [|rewrite E; ring]. unfold amp. destruct (dget psi (key t)) as [a|] eqn:E; auto. exfalso.
        apply Hnin, Hmem; auto. apply (closure_in n op rs psi basis HC). apply dget_Some_key. eauto.
      + intros j Hj. apply in_seq in Hj. assert (Lj : length (nth j cs []) = n) by (apply Hcs, nth_In; lia).
        destruct (HR t (nth j cs []) Lt Lj) as [_ H2]. rewrite H2; [ring|]. intros D. apply Hnin, Hmem; auto. apply HRe.
        exists t. split; auto. apply (ReachS n op rs (dkeys psi) (nth j cs [])); auto.
        assert (Hk : In (key (nth j cs [])) basis) by (rewrite Eb; apply in_map, nth_In; lia).
        apply HRe in Hk as (c' & Ek & Hre'). apply key_inj in Ek; [rewrite Ek; auto|].
        rewrite Lj. symmetry. inversion Hre'; subst; auto. unfold linked in *. tauto. }
  split; [exact HS|]. fold X.
  rewrite (Hsum (fun t => cconj (amp psi t))). unfold ip. rewrite Lb. apply csum_ext. intros i Hi. apply in_seq in Hi. rewrite Hamp by lia. auto.
Qed.
Lemma resolvent_fock g : resolvent (length basis) z m (amp_at basis psi) g -> fock_green n z h psi g.
Proof.
  intros (x & Hx & Hg & _). destruct (lift_solves x Hx) as [HS HG]. exists (lift x). split; [auto|]. split; [congruence|].
  intros x' Hx' t Lt. apply fock_unique; auto.
Qed.
End RF.
End LGreen3.
