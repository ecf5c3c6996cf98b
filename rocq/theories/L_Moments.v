(* Moments of the tridiagonal matrix of the Lanczos recursion. *)
From Coq Require Import Lia List Bool Permutation Field Ring.
From Verif Require Import M_Prelude M_Scalar M_PSR M_Ladder M_State M_Mpi M_Hamiltonian M_Lanczos S_Fock S_Ham S_Ops S_Green S_Moments
  L_PSR L_Ladder L_Scalar L_Dict L_Sum L_Fock L_State L_Ops L_FockP L_Ham L_Expand L_ExpandP L_FromH L_HamP L_Vec L_CFrac L_Lanczos L_Lanczos2 L_Lanczos3 L_Green L_Green2 L_Green3.
Import ListNotations.
Local Open Scope cx_scope.

Section A.
Context {F : ofield}.
Add Field Ff : (f_field F).
Add Ring Cring : (@c_ring F).
Add Field Cf : (@c_field F).

Section Gen.
Variable N : nat.
Variable M : nat -> nat -> cx F.
Lemma mpow_ext p (x y : nat -> cx F) : (forall i, (i < N)%nat -> x i = y i) -> forall i, (i < N)%nat -> mpow N M p x i = mpow N M p y i.
Proof. intros H. induction p as [|p IH]; intros i Hi; cbn [mpow]; [auto|]. apply mv_ext. auto. Qed.
Lemma moment_ext p (x y : nat -> cx F) : (forall i, (i < N)%nat -> x i = y i) -> moment N M x p = moment N M y p.
Proof. intros H. unfold moment. apply ip_ext; [auto|]. apply mpow_ext; auto. Qed.
Lemma mpow_S p y i : mpow N M (S p) y i = mpow N M p (mv N M y) i.
Proof. revert i. induction p as [|p IH]; intros i; cbn [mpow]; [reflexivity|]. apply mv_ext. intros m _. apply IH. Qed.
Hypothesis HM : hermitian N M.
Lemma moment_split p q y : moment N M y (p + q) = ip N (mpow N M p y) (mpow N M q y).
Proof.
  revert q. induction p as [|p IH]; intros q; [reflexivity|].
  replace (S p + q)%nat with (p + S q)%nat by lia. rewrite IH. cbn [mpow]. rewrite (ip_mv N M HM). reflexivity.
Qed.
End Gen.

Section Rec.
Variable n : nat.
Variable M : nat -> nat -> cx F.
Hypothesis HM : hermitian n M.
Variables (j : nat) (V : nat -> nat -> cx F) (A B : nat -> F) (w : vec F) (al be : list F).
Hypothesis HI : LInv n M j V A B w.
Hypothesis HA : forall i, (i <= j)%nat -> nth i al 0%F = A i.
Hypothesis HB : forall i, (i < j)%nat -> nth i be 0%F = B i.
Let T := tridiag al be.
Let k := S j.
Definition yp (p : nat) : nat -> cx F := mpow k T p unit0.

Lemma tri_col i m : (i < j)%nat -> (m < n)%nat -> mv n M (V i) m = csum (fun i' => T i' i * V i' m) (seq 0 k).
Proof.
  intros Hi Hm. unfold T, k. rewrite (tridiag_col al be (fun i' => V i' m)) by lia. rewrite HA by lia.
  destruct (Nat.ltb_spec (S i) (S j)); [|lia]. rewrite HB by lia. rewrite (li_tri _ _ _ _ _ _ _ HI i m) by lia. f_equal.
  destruct i; auto. simpl. rewrite HB by lia. auto.
Qed.
Lemma yp_support p i : (p < i)%nat -> yp p i = c0.
Proof.
  revert i. induction p as [|p IH]; intros i Hi.
  - unfold yp. cbn [mpow]. unfold unit0. destruct (Nat.eqb_spec i 0); [lia|reflexivity].
  - unfold yp. cbn [mpow]. apply csum_zero. intros a Ha. fold (yp p). destruct (Nat.lt_ge_cases p a) as [H|H]; [rewrite IH by auto; ring|].
    replace (T i a) with (@c0 F); [ring|]. unfold T, tridiag. destruct (Nat.eqb_spec i a); [lia|]. destruct (Nat.eqb_spec a (S i)); [lia|]. destruct (Nat.eqb_spec i (S a)); [lia|reflexivity].
Qed.
Lemma mpow_V p m : (p <= j)%nat -> (m < n)%nat -> mpow n M p (V 0%nat) m = csum (fun i => yp p i * V i m) (seq 0 k).
Proof.
  revert m. induction p as [|p IH]; intros m Hp Hm.
  - cbn [mpow]. rewrite (csum_ext _ (fun i => V i m * (if Nat.eqb i 0 then c1 else c0))).
    + symmetry. apply (csum_mul_delta (fun _ => c0) (fun i => V i m)). unfold k. lia.
    + intros i _. unfold yp. cbn [mpow]. unfold unit0. ring.
  - cbn [mpow]. rewrite (mv_ext n M _ (fun m => csum (fun i => yp p i * V i m) (seq 0 k))) by (intros; apply IH; auto; lia).
    rewrite mv_csum. rewrite (csum_ext _ (fun i => csum (fun i' => yp p i * (T i' i * V i' m)) (seq 0 k))).
    2:{ intros i Hi. rewrite csum_mul_l. destruct (Nat.lt_ge_cases p i) as [H|H]; [rewrite yp_support by auto; ring|]. rewrite tri_col by lia. reflexivity. }
    rewrite (csum_swap (fun i i' => yp p i * (T i' i * V i' m))). apply csum_ext. intros i' _.
    unfold yp at 2. cbn [mpow]. unfold mv. rewrite <- csum_mul_r. apply csum_ext. intros a _. fold (yp p). ring.
Qed.
Lemma ip_V (x y : nat -> cx F) (G : nat -> nat -> cx F) (X : nat -> nat -> cx F) : (forall i i', (i < k)%nat -> (i' < k)%nat -> ip n (V i) (X i') = G i i') ->
  ip n (fun m => csum (fun i => x i * V i m) (seq 0 k)) (fun m => csum (fun i => y i * X i m) (seq 0 k)) =
  ip k x (fun i => csum (fun i' => G i i' * y i') (seq 0 k)).
Proof.
  intros HG. rewrite ip_csum_r. rewrite (csum_ext _ (fun i' => csum (fun i => cconj (x i) * (G i i' * y i')) (seq 0 k))).
  - rewrite (csum_swap (fun i' i => cconj (x i) * (G i i' * y i'))). unfold ip. apply csum_ext. intros i _. apply csum_mul_l.
  - intros i' Hi'. apply in_seq in Hi'. rewrite ip_conj, ip_csum_r. rewrite <- csum_conj.
    rewrite <- csum_mul_l. apply csum_ext. intros i Hi. apply in_seq in Hi. rewrite cconj_mul, <- ip_conj, HG by lia. ring.
Qed.
Lemma li_moments p : (p < 2 * k)%nat -> moment k T unit0 p = moment n M (V 0%nat) p.
Proof.
  assert (G1 : forall p q, (p <= j)%nat -> (q <= j)%nat -> ip n (mpow n M p (V 0%nat)) (mpow n M q (V 0%nat)) = ip k (yp p) (yp q)).
  { intros a b Ha Hb. rewrite (ip_ext n _ _ (fun m => csum (fun i => yp a i * V i m) (seq 0 k)) (fun m => csum (fun i => yp b i * V i m) (seq 0 k))) by (intros; apply mpow_V; auto).
    rewrite (ip_V _ _ (fun i i' => if Nat.eqb i i' then c1 else c0)).
    - apply ip_ext; [auto|]. intros i Hi. rewrite (csum_ext _ (fun i' => yp b i' * (if Nat.eqb i' i then c1 else c0))) by (intros; rewrite (Nat.eqb_sym i); ring).
      apply (csum_mul_delta (fun _ => c0) (yp b)); auto.
    - intros i i' Hi Hi'. apply (li_on _ _ _ _ _ _ _ HI); auto. }
  assert (G2 : forall p q, (p <= j)%nat -> (q <= j)%nat -> ip n (mpow n M p (V 0%nat)) (mv n M (mpow n M q (V 0%nat))) = ip k (yp p) (mv k T (yp q))).
  { intros a b Ha Hb. rewrite (ip_ext n _ _ (fun m => csum (fun i => yp a i * V i m) (seq 0 k)) (fun m => csum (fun i => yp b i * mv n M (V i) m) (seq 0 k))).
    - rewrite (ip_V _ _ T); [reflexivity|]. intros i i' Hi Hi'. apply (li_elems n M HM j V A B w al be); auto; unfold k in *; lia.
    - intros; apply mpow_V; auto.
    - intros m Hm. rewrite <- mv_csum. apply mv_ext. intros; apply mpow_V; auto. }
  intros Hp. destruct (Nat.le_gt_cases p (2 * j)) as [H|H].
  - replace p with (Nat.min p j + (p - Nat.min p j))%nat by lia. rewrite !moment_split; [|exact HM|apply tridiag_hermitian].
    symmetry. apply G1; lia.
  - replace p with (j + S j)%nat by (unfold k in *; lia). rewrite !moment_split; [|exact HM|apply tridiag_hermitian].
    symmetry. cbn [mpow]. apply G2; lia.
Qed.
End Rec.

Section Krylov.
Variable fsqrt : F -> F.
Hypothesis HS : sqrt_laws fsqrt.
Lemma krylov_moments n M (HM : hermitian n M) dot (Hdl : forall v, length v = n -> length (dot v) = n)
  (Hd : forall v i, length v = n -> (i < n)%nat -> vf (dot v) i = mv n M (vf v) i) psi0 (Hl : length psi0 = n) (Hn1 : ip n (vf psi0) (vf psi0) = c1) ks al be :
  krylov fsqrt dot psi0 ks = Ok (al, be) -> Z.of_nat (length al) = Z.min ks (Z.of_nat n) /\ length al = S (length be) /\
  forall p, (p < 2 * length al)%nat -> moment (length al) (tridiag al be) unit0 p = moment n M (vf psi0) p.
Proof.
  intros E. pose proof (krylov_inv fsqrt HS n M HM dot Hdl Hd psi0 Hl Hn1 ks) as H. rewrite E in H. destruct H as (j & V & A & B & w & Hk & La & Lb & HI & HV & HA & HB).
  split; [rewrite La; auto|]. split; [lia|]. intros p Hp. rewrite La, <- HV in *. apply (li_moments n M HM j V A B w al be HI HA HB p Hp).
Qed.
End Krylov.

(* ---- the Fock space ---- *)
Section Fock.
Variable n : nat.
Variable op : op_t F.
Variable rs : option restrictions_t.
Variable psi : psi_t F.
Variable h : config -> config -> cx F.
Hypothesis HR : restricted_op n op rs h.
Variable basis : list pybytes.
Hypothesis HC : is_closure n op rs (dkeys psi) basis.
Variable m : nat -> nat -> cx F.
Hypothesis Hm : restricted_matrix n op rs basis m.
Let N := length basis.
Notation lift := (@L_Green3.lift F basis).
Lemma lift_mv : (forall x t, length t = n -> csum (fun s => h t s * lift x s) (allcfg n) = lift (mv N m x) t) /\
  (forall t, length t = n -> amp psi t = lift (amp_at basis psi) t) /\
  (forall x, csum (fun t => cconj (amp psi t) * lift x t) (allcfg n) = ip N (amp_at basis psi) x).
Proof.
  pose proof HC as (_ & Hn & HRe).
  destruct (configs_of n basis (closure_valid _ _ _ _ _ HC)) as (cs & Eb & Hcs). rewrite Forall_forall in Hcs.
  assert (Lb : N = length cs) by (unfold N; rewrite Eb; apply map_length).
  assert (Hncs : NoDup cs) by (rewrite Eb in Hn; apply NoDup_map_inv in Hn; auto).
  assert (Ekey : forall i, (i < length cs)%nat -> nth_error basis i = Some (key (nth i cs []))).
  { intros i Hi. rewrite Eb, (nth_error_nth' _ (key [])) by (rewrite map_length; auto). f_equal. apply map_nth. }
  assert (HX : forall (x : nat -> cx F) i, (i < length cs)%nat -> lift x (nth i cs []) = x i).
  { intros x i Hi. unfold L_Green3.lift. rewrite (basis_index_nodup basis i) by auto. auto. }
  assert (Hmem : forall t, length t = n -> In (key t) basis -> In t cs).
  { intros t Lt Hi. rewrite Eb in Hi. apply in_map_iff in Hi as (c & E & Hc). apply key_inj in E; [subst; auto|rewrite Hcs; auto]. }
  assert (HX0 : forall (x : nat -> cx F) t, length t = n -> ~ In t cs -> lift x t = c0).
  { intros x t Lt Ht. unfold L_Green3.lift. destruct (dget (basis_index basis) (key t)) eqn:E; auto. exfalso. apply Ht, Hmem; auto.
    apply basis_index_spec in E. eapply nth_error_In; eauto. }
  assert (Hsum : forall x f, csum (fun s => f s * lift x s) (allcfg n) = csum (fun i => f (nth i cs []) * x i) (seq 0 (length cs))).
  { intros x f. rewrite (csum_support_dec cfg_dec _ cs); auto; [|apply allcfg_NoDup|intros a Ha; apply allcfg_In; auto|].
    - rewrite <- (csum_seq_nth (fun s => f s * lift x s) cs []). apply csum_ext. intros i Hi. apply in_seq in Hi. rewrite HX by lia. auto.
    - intros a Ha Hna. rewrite HX0; auto; [ring|apply allcfg_In; auto]. }
  assert (Hamp : forall i, (i < length cs)%nat -> amp_at basis psi i = amp psi (nth i cs [])).
  { intros i Hi. unfold amp_at. rewrite Ekey by auto. reflexivity. }
  split; [|split].
  - intros x t Lt. rewrite Hsum. destruct (in_dec cfg_dec t cs) as [Hin|Hnin].
    + apply (In_nth _ _ []) in Hin as (i & Hi & <-). rewrite HX by auto. unfold mv. rewrite Lb. apply csum_ext. intros a Ha. apply in_seq in Ha. f_equal.
      assert (Lj : length (nth a cs []) = n) by (apply Hcs, nth_In; lia).
      destruct (HR (nth i cs []) (nth a cs []) Lt Lj) as [H1 H2].
      destruct (Hm i a (nth i cs []) (nth a cs [])) as [H3 H4]; auto; try (apply Ekey; lia).
      destruct (linked_dec n op rs (nth a cs []) (nth i cs [])).
      * etransitivity; [apply H1|symmetry; apply H3]; auto.
      * etransitivity; [apply H2|symmetry; apply H4]; auto.
    + rewrite HX0 by auto. apply csum_zero.
      intros a Ha. apply in_seq in Ha. assert (Lj : length (nth a cs []) = n) by (apply Hcs, nth_In; lia).
      destruct (HR t (nth a cs []) Lt Lj) as [_ H2]. rewrite H2; [ring|]. intros D. apply Hnin, Hmem; auto. apply HRe.
      exists t. split; auto. apply (ReachS n op rs (dkeys psi) (nth a cs [])); auto.
      assert (Hk : In (key (nth a cs [])) basis) by (rewrite Eb; apply in_map, nth_In; lia).
      apply HRe in Hk as (c' & Ek & Hre'). apply key_inj in Ek; [rewrite Ek; auto|].
      rewrite Lj. symmetry. inversion Hre'; subst; auto. unfold linked in *. tauto.
  - intros t Lt. destruct (in_dec cfg_dec t cs) as [Hin|Hnin].
    + apply (In_nth _ _ []) in Hin as (i & Hi & <-). rewrite HX, Hamp by auto. reflexivity.
    + rewrite HX0 by auto. unfold amp. destruct (dget psi (key t)) as [a|] eqn:E; auto. exfalso.
      apply Hnin, Hmem; auto. apply (closure_in n op rs psi basis HC). apply dget_Some_key. eauto.
  - intros x. rewrite (Hsum x (fun t => cconj (amp psi t))). unfold ip. rewrite Lb. apply csum_ext. intros i Hi. apply in_seq in Hi. rewrite Hamp by lia. auto.
Qed.
Lemma fock_moment_eq p : fock_moment n h psi p = moment N m (amp_at basis psi) p.
Proof.
  destruct lift_mv as (H1 & H2 & H3). unfold fock_moment, moment. rewrite <- H3. apply csum_ext. intros t Ht. apply allcfg_In in Ht. f_equal.
  revert t Ht. induction p as [|p IH]; intros t Ht; cbn [fpow mpow]; [auto|]. rewrite <- H1 by auto. apply csum_ext. intros s Hs. apply allcfg_In in Hs. rewrite IH by auto. reflexivity.
Qed.
End Fock.
End A.
