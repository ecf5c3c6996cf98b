(* Commutators of one-particle and two-particle operators on Fock space. *)
From Coq Require Import Ring Field.
From Verif Require Import M_Prelude M_Scalar M_PSR M_State M_Basis M_Expect M_Operators S_Fock S_Ops S_Basis S_Expect S_Operators S_Symmetry.
From Verif Require Import L_Scalar L_Sum L_Dict L_Fock L_State L_Ops L_Index L_Expect L_Expect4 L_Operators L_Operators4.
Local Open Scope Z_scope.

Section A.
Context {F : ofield}.
Add Field Ff : (f_field F).
Add Ring Cring : (@c_ring F).
Implicit Types v : config -> cx F.
Variable n : nat.

(* a product of ladder operators on a vector *)
Fixpoint pvec (p : process) v : config -> cx F :=
  match p with [] => v | l :: p' => vpull (flip (negb (Ascii.eqb (snd l) lab_c)) (Z.to_nat (fst l))) (pvec p' v) end.
Lemma vpull_ext' g h v t : g t = h t -> vpull g v t = vpull h v t.
Proof. intros E. unfold vpull. rewrite E. reflexivity. Qed.
Lemma pvec_dag p v : Forall good_label p -> forall t, pvec p v t = vpull (proc_act (dag p)) v t.
Proof.
  induction p as [|l p IH]; intros Hg t.
  - cbn. unfold vpull. cbn. rewrite cofZ_1. ring.
  - apply Forall_cons_iff in Hg as [Hl Hg]. cbn [pvec].
    transitivity (vpull (flip (negb (Ascii.eqb (snd l) lab_c)) (Z.to_nat (fst l))) (vpull (proc_act (dag p)) v) t).
    + unfold vpull at 1 2. destruct (flip _ _ t) as [[s a]|]; auto. rewrite IH; auto.
    + rewrite vpull_vpull. apply vpull_ext'. change (l :: p) with ([l] ++ p). rewrite dag_app, proc_act_app. cbn [dag rev app map proc_act].
      unfold comp. rewrite lad_flip by apply dag_ladder_good.
      assert (E : Ascii.eqb (snd (dag_ladder l)) "c" = negb (Ascii.eqb (snd l) lab_c) /\ fst (dag_ladder l) = fst l).
      { destruct l as [i x]. destruct Hl as [E|E]; cbn in E; subst x; auto. }
      destruct E as [-> ->]. destruct (flip _ _ t) as [[s a]|]; auto.
      replace (a * 1) with a by lia. destruct (proc_act (dag p) s) as [[u b]|]; auto. do 2 f_equal. lia.
Qed.
Lemma pvec_sum p v t : Forall good_label p -> length t = n -> csum (fun s => cofZ (pelem p t s) * v s)%C (allcfg n) = pvec p v t.
Proof.
  intros Hg Ht. rewrite pvec_dag by auto. rewrite (vpull_sum n).
  - apply csum_ext. intros s _. f_equal. f_equal. rewrite <- (dag_inv p) at 1 by auto. rewrite pelem_dag by apply dag_good.
    unfold pelem, delem. reflexivity.
  - intros s sg E. apply proc_act_length in E. congruence.
Qed.
Lemma opv_pvec (op : op_t F) v t : good_labels op -> length t = n -> opv n op v t = csum (fun pv => snd pv * pvec (fst pv) v t)%C op.
Proof.
  intros Hg Ht. unfold opv, opelem.
  transitivity (csum (fun s => csum (fun ph => snd ph * (cofZ (pelem (fst ph) t s) * v s))%C op) (allcfg n)).
  - apply csum_ext. intros s _. rewrite <- csum_mul_r. apply csum_ext. intros [p h] _. cbn [fst snd]. ring.
  - rewrite csum_swap. apply csum_ext. intros [p h] Hi. rewrite csum_mul_l. f_equal. cbn [fst]. apply pvec_sum; auto.
    unfold good_labels in Hg. rewrite Forall_forall in Hg. apply (Hg _ Hi).
Qed.
Lemma opv_ext (op : op_t F) v (w : config -> cx F) : veq n v w -> forall t, opv n op v t = opv n op w t.
Proof. intros H t. unfold opv. apply csum_ext. intros s Hs. apply allcfg_In in Hs. rewrite H; auto. Qed.
Lemma opv_add (op : op_t F) v (w : config -> cx F) t : opv n op (fun s => v s + w s)%C t = (opv n op v t + opv n op w t)%C.
Proof. unfold opv. rewrite <- csum_add. apply csum_ext. intros s _. ring. Qed.

(* ---- one-particle generator ---- *)
Variable nb : nbaths_t.
Hypothesis Hwf : wf_nbaths nb.
Hypothesis Hn : n = n_orb nb.
Variable O : list spinorb.
Hypothesis HO : NoDup O.
Hypothesis HOk : Forall (coord_ok nb) O.
Variable M : spinorb -> spinorb -> cx F.
Notation c_ x := (C_ (ix nb x)).
Notation a_ x := (A_ (ix nb x)).
Lemma ix_n x : coord_ok nb x -> (ix nb x < n)%nat.
Proof. intros H. subst n. apply (ix_ok nb Hwf x H). Qed.
Lemma O_ok x : In x O -> coord_ok nb x.
Proof. intros H. rewrite Forall_forall in HOk. auto. Qed.
Definition X v : config -> cx F := fun t => csum (fun x => csum (fun y => M x y * c_ x (a_ y v) t)%C O) O.
Lemma generator_vec v t : length t = n -> opv n (generator nb O M) v t = X v t.
Proof.
  intros Ht. unfold generator. rewrite opv_pvec; auto.
  - unfold one_body. rewrite csum_map, csum_flat_map. unfold X. apply csum_ext. intros x Hx. rewrite csum_map. apply csum_ext. intros y Hy.
    cbn [fst snd hop pvec]. reflexivity.
  - unfold good_labels, one_body. apply Forall_map. apply Forall_forall. intros [[x y] h] _. cbn [fst snd]. unfold hop.
    apply Forall_cons; [right; reflexivity|]. apply Forall_cons; [left; reflexivity|constructor].
Qed.
Lemma X_ext v (w : config -> cx F) : veq n v w -> veq n (X v) (X w).
Proof.
  intros H t Ht. unfold X. apply csum_ext. intros x _. apply csum_ext. intros y _. f_equal. apply (C_ext n); auto. apply A_ext. auto.
Qed.
(* linearity *)
Lemma pull_lin b i (l : list spinorb) (c : spinorb -> cx F) (f : spinorb -> config -> cx F) v t :
  vpull (flip b i) (fun s => v s + csum (fun x => c x * f x s) l)%C t = (vpull (flip b i) v t + csum (fun x => c x * vpull (flip b i) (f x) t) l)%C.
Proof.
  rewrite vpull_add. f_equal. rewrite (vpull_csum b i (fun x s => c x * f x s)%C). apply csum_ext. intros x _. apply vpull_scale.
Qed.
Lemma pull_X b i v t : vpull (flip b i) (X v) t = csum (fun x => csum (fun y => M x y * vpull (flip b i) (c_ x (a_ y v)) t)%C O) O.
Proof.
  unfold X. rewrite (vpull_csum b i (fun x s => csum (fun y => M x y * c_ x (a_ y v) s)%C O)). apply csum_ext. intros x _.
  rewrite (vpull_csum b i (fun y s => M x y * c_ x (a_ y v) s)%C). apply csum_ext. intros y _. apply vpull_scale.
Qed.
Lemma CAC x y i v t : (x < n)%nat -> (y < n)%nat -> (i < n)%nat -> length t = n ->
  C_ x (A_ y (C_ i v)) t = (C_ i (C_ x (A_ y v)) t + (if Nat.eqb i y then C_ x v t else c0))%C.
Proof.
  intros Hx Hy Hi Ht.
  assert (E : veq n (A_ y (C_ i v)) (fun s => (if Nat.eqb i y then v s else c0) + - c1 * C_ i (A_ y v) s)%C).
  { intros s Hs. rewrite <- (car_CA n i y v s) by auto. ring. }
  rewrite (C_ext n x _ _ E t Ht). unfold C_ at 1. rewrite vpull_add, vpull_scale. change (vpull (flip false x) (C_ i (A_ y v)) t) with (C_ x (C_ i (A_ y v)) t).
  rewrite (car_CC n x i) by auto. destruct (Nat.eqb i y).
  - change (vpull (flip false x) (fun s => v s) t) with (C_ x v t). ring.
  - unfold vpull. destruct (flip false x t) as [[s a]|]; ring.
Qed.
Lemma CAA x y i v t : (x < n)%nat -> (y < n)%nat -> (i < n)%nat -> length t = n ->
  C_ x (A_ y (A_ i v)) t = (A_ i (C_ x (A_ y v)) t + (if Nat.eqb x i then - A_ y v t else c0))%C.
Proof.
  intros Hx Hy Hi Ht.
  assert (E : veq n (A_ y (A_ i v)) (fun s => - c1 * A_ i (A_ y v) s)%C).
  { intros s Hs. rewrite (car_AA n y i) by auto. ring. }
  rewrite (C_ext n x _ _ E t Ht). unfold C_ at 1. rewrite vpull_scale. change (vpull (flip false x) (A_ i (A_ y v)) t) with (C_ x (A_ i (A_ y v)) t).
  pose proof (car_CA n x i (A_ y v) t Hx Hi Ht) as H. 
  transitivity (A_ i (C_ x (A_ y v)) t - (C_ x (A_ i (A_ y v)) t + A_ i (C_ x (A_ y v)) t))%C; [ring|]. rewrite H. destruct (Nat.eqb x i); ring.
Qed.
Lemma X_C x0 v t : In x0 O -> length t = n -> X (c_ x0 v) t = (c_ x0 (X v) t + csum (fun x => M x x0 * c_ x v t) O)%C.
Proof.
  intros H0 Ht. unfold C_ at 1. change (vpull (flip false (ix nb x0)) v) with (c_ x0 v). unfold X at 1.
  change (c_ x0 (X v) t) with (vpull (flip false (ix nb x0)) (X v) t). rewrite pull_X, <- csum_add. apply csum_ext. intros x Hx.
  rewrite (csum_ext _ (fun y => M x y * vpull (flip false (ix nb x0)) (c_ x (a_ y v)) t + (if eqb x0 y then M x x0 * c_ x v t else c0))%C).
  - rewrite csum_add. f_equal. rewrite (csum_single _ O x0); auto; [rewrite eqb_refl; auto|].
    intros y _ Hne. destruct (eqb_spec x0 y); congruence.
  - intros y Hy. change (vpull (flip false (ix nb x0)) (c_ x (a_ y v)) t) with (c_ x0 (c_ x (a_ y v)) t).
    rewrite CAC by (auto using ix_n, O_ok). rewrite (ix_eqb nb Hwf) by (auto using O_ok). destruct (eqb_spec x0 y) as [<-|]; ring.
Qed.
Lemma X_A z0 v t : In z0 O -> length t = n -> X (a_ z0 v) t = (a_ z0 (X v) t + csum (fun y => - M z0 y * a_ y v t) O)%C.
Proof.
  intros H0 Ht. unfold X at 1.
  change (a_ z0 (X v) t) with (vpull (flip true (ix nb z0)) (X v) t). rewrite pull_X.
  transitivity (csum (fun x => csum (fun y => M x y * vpull (flip true (ix nb z0)) (c_ x (a_ y v)) t) O + (if eqb x z0 then csum (fun y => - M z0 y * a_ y v t) O else c0))%C O).
  - apply csum_ext. intros x Hx.
    rewrite (csum_ext _ (fun y => M x y * vpull (flip true (ix nb z0)) (c_ x (a_ y v)) t + (if eqb x z0 then - M z0 y * a_ y v t else c0))%C).
    + rewrite csum_add. f_equal. destruct (eqb x z0); auto. apply csum_zero. auto.
    + intros y Hy. change (vpull (flip true (ix nb z0)) (c_ x (a_ y v)) t) with (a_ z0 (c_ x (a_ y v)) t).
      rewrite CAA by (auto using ix_n, O_ok). rewrite (ix_eqb nb Hwf) by (auto using O_ok). destruct (eqb_spec x z0) as [->|]; ring.
  - rewrite csum_add. f_equal. rewrite (csum_single _ O z0); auto; [rewrite eqb_refl; auto|].
    intros y _ Hne. destruct (eqb_spec y z0); congruence.
Qed.
(* products of two and four *)
Definition T2 x y v := c_ x (a_ y v).
Definition T4 x y z t v := c_ x (c_ y (a_ z (a_ t v))).
Lemma X_A2 z t v s : In z O -> In t O -> length s = n ->
  X (a_ z (a_ t v)) s = (a_ z (a_ t (X v)) s + csum (fun w => - M t w * a_ z (a_ w v) s) O + csum (fun w => - M z w * a_ w (a_ t v) s) O)%C.
Proof.
  intros Hz Ht Hs. rewrite X_A by auto. f_equal.
  transitivity (a_ z (fun s => a_ t (X v) s + csum (fun w => - M t w * a_ w v s) O)%C s).
  - apply (A_ext n); auto. intros s' Hs'. apply X_A; auto.
  - unfold A_ at 1. rewrite pull_lin. reflexivity.
Qed.
Lemma X_T2 x y v s : In x O -> In y O -> length s = n ->
  X (T2 x y v) s = (T2 x y (X v) s + csum (fun w => M w x * T2 w y v s) O - csum (fun w => M y w * T2 x w v s) O)%C.
Proof.
  intros Hx Hy Hs. unfold T2. rewrite X_C by auto.
  transitivity (c_ x (fun s => a_ y (X v) s + csum (fun w => - M y w * a_ w v s) O)%C s + csum (fun w => M w x * c_ w (a_ y v) s) O)%C.
  - f_equal. apply (C_ext n); auto. intros s' Hs'. apply X_A; auto.
  - unfold C_ at 1. rewrite (pull_lin false _ O (fun w => - M y w)%C (fun w => a_ w v) (a_ y (X v))).
    assert (E : csum (fun w => - M y w * vpull (flip false (ix nb x)) (a_ w v) s)%C O = (- csum (fun w => M y w * c_ x (a_ w v) s) O)%C).
    { rewrite <- csum_opp. apply csum_ext. intros w _. unfold C_. ring. }
    rewrite E. unfold C_. ring.
Qed.
Lemma X_T4 x y z t v s : In x O -> In y O -> In z O -> In t O -> length s = n ->
  X (T4 x y z t v) s = (T4 x y z t (X v) s + csum (fun w => M w x * T4 w y z t v s) O + csum (fun w => M w y * T4 x w z t v s) O
     - csum (fun w => M z w * T4 x y w t v s) O - csum (fun w => M t w * T4 x y z w v s) O)%C.
Proof.
  intros Hx Hy Hz Ht Hs. unfold T4. rewrite X_C by auto.
  set (v2 := a_ z (a_ t v)).
  assert (E1 : veq n (X (c_ y v2)) (fun s => c_ y (X v2) s + csum (fun w => M w y * c_ w v2 s) O)%C).
  { intros s' Hs'. apply X_C; auto. }
  rewrite (C_ext n (ix nb x) _ _ E1 s Hs). unfold C_ at 1. rewrite (pull_lin false _ O (fun w => M w y) (fun w => c_ w v2) (c_ y (X v2))).
  change (vpull (flip false (ix nb x)) (c_ y (X v2)) s) with (c_ x (c_ y (X v2)) s).
  assert (E2 : veq n (X v2) (fun s => a_ z (a_ t (X v)) s + csum (fun w => - M t w * a_ z (a_ w v) s) O + csum (fun w => - M z w * a_ w (a_ t v) s) O)%C).
  { intros s' Hs'. apply X_A2; auto. }
  assert (E3 : veq n (c_ y (X v2)) (fun s => c_ y (a_ z (a_ t (X v))) s + csum (fun w => - M t w * c_ y (a_ z (a_ w v)) s) O + csum (fun w => - M z w * c_ y (a_ w (a_ t v)) s) O)%C).
  { intros s' Hs'. rewrite (C_ext n (ix nb y) _ _ E2 s' Hs'). unfold C_ at 1.
    rewrite (pull_lin false _ O (fun w => - M z w)%C (fun w => a_ w (a_ t v)) (fun s => a_ z (a_ t (X v)) s + csum (fun w => - M t w * a_ z (a_ w v) s) O)%C).
    rewrite (pull_lin false _ O (fun w => - M t w)%C (fun w => a_ z (a_ w v)) (a_ z (a_ t (X v)))). reflexivity. }
  rewrite (C_ext n (ix nb x) _ _ E3 s Hs). unfold C_ at 1.
  rewrite (pull_lin false _ O (fun w => - M z w)%C (fun w => c_ y (a_ w (a_ t v))) (fun s => c_ y (a_ z (a_ t (X v))) s + csum (fun w => - M t w * c_ y (a_ z (a_ w v)) s) O)%C).
  rewrite (pull_lin false _ O (fun w => - M t w)%C (fun w => c_ y (a_ z (a_ w v))) (c_ y (a_ z (a_ t (X v))))).
  assert (E4 : forall (c : spinorb -> cx F) f, csum (fun w => - c w * f w)%C O = (- csum (fun w => c w * f w) O)%C).
  { intros c f. rewrite <- csum_opp. apply csum_ext. intros w _. ring. }
  rewrite (E4 (M t) (fun w => vpull (flip false (ix nb x)) (c_ y (a_ z (a_ w v))) s)).
  rewrite (E4 (M z) (fun w => vpull (flip false (ix nb x)) (c_ y (a_ w (a_ t v))) s)).
  unfold v2, C_. ring.
Qed.
End A.
