(* daggerOp, assert_hermitian, addOps, get_job_tasks. *)
From Coq Require Import Permutation Ring Field Sorted.
From Verif Require Import M_Prelude M_Scalar M_PSR M_Ladder M_State S_Occ S_Routes S_Fock S_Ops.
From Verif Require Import L_Scalar L_Sum L_Dict L_PSR L_PSR2 L_Ladder L_Ladder2 L_Fock L_State L_ApplyOp.
Local Open Scope Z_scope.

Lemma dag_ladder_inv {A} (l : A * ascii) : good_label l -> dag_ladder (dag_ladder l) = l.
Proof. destruct l as [i x]. intros [E|E]; simpl in E; subst x; reflexivity. Qed.
Lemma dag_ladder_good {A} (l : A * ascii) : good_label (dag_ladder l).
Proof. unfold good_label, dag_ladder. simpl. destruct (Ascii.eqb (snd l) "a"); auto. Qed.
Lemma dag_good {A} (p : list (A * ascii)) : Forall good_label (dag p).
Proof. unfold dag. apply Forall_map. apply Forall_forall. intros x _. apply dag_ladder_good. Qed.
Lemma dag_inv {A} (p : list (A * ascii)) : Forall good_label p -> dag (dag p) = p.
Proof.
  intros H. unfold dag. rewrite <- map_rev, rev_involutive, map_map.
  rewrite <- (map_id p) at 2. apply map_ext_in. intros l Hl. apply dag_ladder_inv. rewrite Forall_forall in H. auto.
Qed.
Lemma dag_app {A} (p q : list (A * ascii)) : dag (p ++ q) = dag q ++ dag p.
Proof. unfold dag. rewrite rev_app_distr, map_app. reflexivity. Qed.

Lemma map_res_ok {A B} (f : A -> res B) g l : (forall a, In a l -> f a = Ok (g a)) -> map_res f l = Ok (map g l).
Proof.
  induction l as [|a l IH]; simpl; intros H; auto. rewrite H by auto. simpl. rewrite IH by auto. reflexivity.
Qed.
Lemma map_res_err {A B} (f : A -> res B) e l : (forall a, In a l -> f a = Err e \/ exists b, f a = Ok b) ->
  (exists a, In a l /\ f a = Err e) -> map_res f l = Err e.
Proof.
  induction l as [|a l IH]; simpl; intros H [x [Hx Ex]]; [tauto|].
  destruct (H a (or_introl eq_refl)) as [E|[b E]]; rewrite E; simpl; auto.
  rewrite IH; auto. destruct Hx as [->|Hx]; [congruence|eauto].
Qed.
Lemma dag_ladder_step {A} (l : A * ascii) : good_label l ->
  (if Ascii.eqb (snd l) lab_a then Ok (fst l, lab_c)
   else if Ascii.eqb (snd l) lab_c then Ok (fst l, lab_a) else Err GenericException) = Ok (dag_ladder l).
Proof. destruct l as [i x]. intros [E|E]; simpl in E; subst x; reflexivity. Qed.
Lemma dagger_process_ok {A} (p : list (A * ascii)) : Forall good_label p -> dagger_process p = Ok (dag p).
Proof.
  intros H. unfold dagger_process, dag. apply map_res_ok. intros l Hl. apply dag_ladder_step.
  rewrite Forall_forall in H. apply H. apply in_rev. auto.
Qed.
Lemma good_label_dec {A} (l : A * ascii) : {good_label l} + {~ good_label l}.
Proof.
  unfold good_label. destruct (ascii_dec (snd l) "a"); auto. destruct (ascii_dec (snd l) "c"); auto.
  right. intros [H|H]; auto.
Qed.
Lemma dagger_process_err {A} (p : list (A * ascii)) : ~ Forall good_label p -> dagger_process p = Err GenericException.
Proof.
  intros H. unfold dagger_process. apply map_res_err.
  - intros [i x] _. simpl. destruct (Ascii.eqb x lab_a), (Ascii.eqb x lab_c); eauto.
  - assert (Hx : exists l, In l p /\ ~ good_label l).
    { destruct (Forall_dec good_label good_label_dec p) as [|_]; [tauto|].
      clear -H. induction p as [|l p IH]; [exfalso; apply H; constructor|].
      destruct (good_label_dec l) as [Hg|Hg]; [|exists l; split; auto; left; auto].
      destruct IH as (x & Hx & Hn). { intros Hf. apply H. constructor; auto. }
      exists x. split; auto. right; auto. }
    destruct Hx as ([i x] & Hl & Hn). exists (i, x). split; [apply -> in_rev; auto|]. simpl.
    unfold good_label in Hn. simpl in Hn.
    destruct (Ascii.eqb_spec x lab_a) as [->|]; [exfalso; apply Hn; auto|].
    destruct (Ascii.eqb_spec x lab_c) as [->|]; [exfalso; apply Hn; auto|]. auto.
Qed.

(* the adjoint process is the inverse partial map with the same sign *)

Section Gen.
Context {F : ofield} {A : Type} {EA : EqB A}.
Add Field Ffg : (f_field F).
Add Ring Cringg : (@c_ring F).
Implicit Types op : gop A F.
Definition dagl (op : gop A F) : gop A F := map (fun ph => (dag (fst ph), cconj (snd ph))) op.

Lemma dag_inj (p q : list (A * ascii)) : Forall good_label p -> Forall good_label q -> dag p = dag q -> p = q.
Proof. intros Hp Hq E. rewrite <- (dag_inv p), <- (dag_inv q) by auto. congruence. Qed.

Lemma daggerOp_gen op : forall acc, good_labels op -> NoDup (dkeys acc ++ dkeys (dagl op)) ->
  fold_res (fun opDagger pv => do p <- dagger_process (fst pv); Ok (dset opDagger p (cconj (snd pv)))) op acc
  = Ok (acc ++ dagl op).
Proof.
  induction op as [|[p h] op IH]; intros acc Hg Hn; simpl.
  - rewrite app_nil_r. auto.
  - apply Forall_cons_iff in Hg as [Hp Hg]. rewrite dagger_process_ok by auto. cbn [bind].
    simpl in Hn.
    rewrite dset_notin by (intros Hi; apply NoDup_remove_2 in Hn; apply Hn, in_or_app; auto).
    rewrite IH; auto.
    + rewrite <- app_assoc. reflexivity.
    + unfold dkeys in *. rewrite map_app, <- app_assoc. exact Hn.
Qed.
Lemma NoDup_dagl op : good_labels op -> NoDup (dkeys op) -> NoDup (dkeys (dagl op)).
Proof.
  intros Hg Hn. unfold dkeys, dagl. rewrite map_map. cbn [fst].
  rewrite <- map_map with (g := dag) (f := fst). apply NoDup_map_on; auto.
  intros p q Hp Hq. unfold good_labels in Hg. rewrite Forall_forall in Hg.
  apply in_map_iff in Hp as (x & <- & Hx). apply in_map_iff in Hq as (y & <- & Hy). apply dag_inj; auto.
Qed.
Lemma daggerOp_ok op : good_labels op -> NoDup (dkeys op) -> daggerOp op = Ok (dagl op).
Proof. intros Hg Hn. apply (daggerOp_gen op []); auto. apply NoDup_dagl; auto. Qed.
Lemma daggerOp_err op : ~ good_labels op -> daggerOp op = Err GenericException.
Proof.
  unfold daggerOp. generalize ([] : gop A F) as acc. induction op as [|[p h] op IH]; intros acc Hg.
  - exfalso. apply Hg. constructor.
  - cbn [fold_res fst snd]. destruct (Forall_dec good_label good_label_dec p) as [Hp|Hp].
    + rewrite dagger_process_ok by auto. cbn [bind]. apply IH. intros H. apply Hg. constructor; auto.
    + rewrite dagger_process_err by auto. reflexivity.
Qed.
Lemma good_labels_dec op : {good_labels op} + {~ good_labels op}.
Proof. apply Forall_dec. intros ph. apply Forall_dec, good_label_dec. Qed.
Lemma daggerOp_ok_inv op d : NoDup (dkeys op) -> daggerOp op = Ok d -> good_labels op /\ d = dagl op.
Proof.
  intros Hn E. destruct (good_labels_dec op) as [Hg|Hg].
  - rewrite daggerOp_ok in E by auto. split; congruence.
  - rewrite daggerOp_err in E by auto. discriminate.
Qed.
Lemma good_dagl op : good_labels (dagl op).
Proof. unfold good_labels, dagl. apply Forall_map. apply Forall_forall. intros x _. apply dag_good. Qed.
Lemma dagl_inv op : good_labels op -> dagl (dagl op) = op.
Proof.
  intros Hg. unfold dagl. rewrite map_map. cbn [fst snd]. rewrite <- (map_id op) at 2.
  apply map_ext_in. intros [p h] Hi. cbn [fst snd]. rewrite cconj_conj, dag_inv; auto.
  unfold good_labels in Hg. rewrite Forall_forall in Hg. apply (Hg _ Hi).
Qed.
Lemma daggerOp_involution op d : NoDup (dkeys op) -> daggerOp op = Ok d -> daggerOp d = Ok op.
Proof.
  intros Hn E. apply daggerOp_ok_inv in E as [Hg ->]; auto.
  rewrite daggerOp_ok; [|apply good_dagl|apply NoDup_dagl; auto]. rewrite dagl_inv by auto. auto.
Qed.
Lemma dict_eqb_perm {K} `{EqB K} (d e : dict K (cx F)) : NoDup (dkeys d) -> dict_eqb d e = true -> Permutation d e.
Proof.
  intros Hn E. unfold dict_eqb in E. apply andb_true_iff in E as [El Ef]. apply Nat.eqb_eq in El.
  rewrite forallb_forall in Ef. apply NoDup_Permutation_bis.
  - apply NoDup_map_inv with (f := fst). exact Hn.
  - lia.
  - intros [k v] Hi. specialize (Ef _ Hi). cbn [fst snd] in Ef. destruct (dget e k) as [w|] eqn:Eg; [|discriminate].
    destruct (ceqb_spec v w) as [->|]; [|discriminate]. apply dget_In; auto.
Qed.
Lemma perm_dict_eqb {K} `{EqB K} (d e : dict K (cx F)) : NoDup (dkeys d) -> Permutation d e -> dict_eqb d e = true.
Proof.
  intros Hn Hp. unfold dict_eqb. apply andb_true_iff. split.
  - apply Nat.eqb_eq, Permutation_length; auto.
  - apply forallb_forall. intros [k v] Hi. cbn [fst snd].
    rewrite <- (dget_perm d e k) by auto. rewrite (In_dget d k v) by auto.
    destruct (ceqb_spec v v); congruence.
Qed.
Lemma assert_hermitian_perm op : NoDup (dkeys op) ->
  assert_hermitian op = Ok tt <-> good_labels op /\ Permutation (dagl op) op.
Proof.
  intros Hn. unfold assert_hermitian. destruct (good_labels_dec op) as [Hg|Hg].
  - rewrite daggerOp_ok by auto. cbn [bind]. pose proof (NoDup_dagl op Hg Hn) as Hnd.
    destruct (dict_eqb (dagl op) op) eqn:E.
    + split; auto. intros _. split; auto. apply dict_eqb_perm; auto.
    + split; [discriminate|]. intros [_ Hp]. apply perm_dict_eqb in Hp; auto. congruence.
  - rewrite daggerOp_err by auto. split; [discriminate|tauto].
Qed.
Lemma dget_dagl op p : good_labels op -> NoDup (dkeys op) -> Forall good_label p ->
  dget (dagl op) (dag p) = option_map cconj (dget op p).
Proof.
  intros Hg Hn Hp. destruct (dget op p) as [h|] eqn:E; simpl.
  - apply In_dget; [apply NoDup_dagl; auto|]. apply dget_In in E.
    apply (in_map (fun ph => (dag (fst ph), cconj (snd ph)))) in E. exact E.
  - apply dget_None. intros Hi. unfold dkeys, dagl in Hi. rewrite map_map in Hi. apply in_map_iff in Hi as ([q h] & Eq & Hi).
    cbn [fst] in Eq. unfold good_labels in Hg. rewrite Forall_forall in Hg. pose proof (Hg _ Hi) as Hq.
    apply dag_inj in Eq; auto. subst q. apply dget_None in E. apply E. apply (in_map fst) in Hi. exact Hi.
Qed.
Lemma assert_hermitian_iff op : NoDup (dkeys op) -> assert_hermitian op = Ok tt <-> herm_op op.
Proof.
  intros Hn. rewrite assert_hermitian_perm by auto. unfold herm_op. split.
  - intros [Hg Hp]. split; auto. intros p h E.
    assert (Hpg : Forall good_label p).
    { unfold good_labels in Hg. rewrite Forall_forall in Hg. apply dget_In in E. apply (Hg _ E). }
    rewrite <- (dget_perm (dagl op) op) by (auto; apply NoDup_dagl; auto). rewrite dget_dagl by auto. rewrite E. auto.
  - intros [Hg H]. split; auto. apply NoDup_Permutation_bis.
    + apply NoDup_map_inv with (f := fst). apply (NoDup_dagl op); auto.
    + unfold dagl. rewrite map_length. lia.
    + intros [q g] Hi. unfold dagl in Hi. apply in_map_iff in Hi as ([p h] & E & Hi). cbn [fst snd] in E.
      injection E as <- <-. apply dget_In. apply H. apply In_dget; auto.
Qed.
Lemma assert_hermitian_cases op : NoDup (dkeys op) ->
  assert_hermitian op = (if good_labels_dec op then (if dict_eqb (dagl op) op then Ok tt else Err AssertionError)
                         else Err GenericException).
Proof.
  intros Hn. unfold assert_hermitian. destruct (good_labels_dec op).
  - rewrite daggerOp_ok by auto. reflexivity.
  - rewrite daggerOp_err by auto. reflexivity.
Qed.
Lemma addOps_foldadd (ops : list (gop A F)) :
  addOps ops = foldadd (filter (fun sv => negb (ceqb (snd sv) c0)) (concat ops)) [].
Proof.
  unfold addOps. generalize ([] : gop A F) as acc.
  induction ops as [|op ops IH]; intros acc; cbn [fold_left concat]; auto.
  rewrite filter_app', foldadd_app, <- IH. f_equal. clear IH.
  revert acc; induction op as [|[p h] op IH]; intros acc; cbn [fold_left filter]; auto.
  cbn [snd fst]. destruct (ceqb h c0); cbn [negb]; rewrite IH; reflexivity.
Qed.
Lemma ksum_nonzero {K} `{EqB K} (l : list (K * cx F)) k :
  ksum (filter (fun sv => negb (ceqb (snd sv) c0)) l) k = ksum l k.
Proof.
  unfold ksum. rewrite csum_filter. apply csum_ext. intros [q h] _. cbn [fst snd].
  destruct (ceqb_spec h c0) as [->|]; cbn [negb]; auto. destruct (eqb k q); auto.
Qed.
Lemma ksum_val op p : NoDup (dkeys op) -> ksum op p = val op p.
Proof.
  intros Hn. unfold val, ksum. destruct (dget op p) as [h|] eqn:E.
  - rewrite (csum_single _ op (p, h)).
    + cbn [fst snd]. rewrite eqb_refl. auto.
    + apply NoDup_map_inv with (f := fst). exact Hn.
    + apply dget_In; auto.
    + intros [q g] Hi Hne. cbn [fst snd]. destruct (eqb_spec p q) as [<-|]; auto.
      rewrite (In_dget op p g) in E by auto. congruence.
  - apply csum_zero. intros [q g] Hi. cbn [fst snd]. destruct (eqb_spec p q) as [<-|]; auto.
    apply dget_None in E. exfalso. apply E. apply (in_map fst) in Hi. exact Hi.
Qed.
Lemma csum_concat {B} (f : B -> cx F) l : csum f (concat l) = csum (fun x => csum f x) l.
Proof. induction l as [|a l IH]; simpl; auto. rewrite csum_app, IH. auto. Qed.
Lemma val_foldadd (l : list (list (A * ascii) * cx F)) p : val (foldadd l []) p = ksum l p.
Proof.
  unfold val. rewrite dget_foldadd_nil. destruct (inb p (map fst l)) eqn:E; auto.
  symmetry. apply ksum_notin; auto.
Qed.
Lemma addOps_val (ops : list (gop A F)) p : Forall (fun op => NoDup (dkeys op)) ops ->
  val (addOps ops) p = csum (fun op => val op p) ops.
Proof.
  intros Hn. rewrite addOps_foldadd, val_foldadd, ksum_nonzero. unfold ksum. rewrite csum_concat.
  apply csum_ext. intros op Ho. rewrite Forall_forall in Hn. apply (ksum_val op p); auto.
Qed.
Lemma addOps_NoDup (ops : list (gop A F)) : NoDup (dkeys (addOps ops)).
Proof. rewrite addOps_foldadd. apply NoDup_foldadd. constructor. Qed.
Lemma addOps_keys (ops : list (gop A F)) p : Forall (fun op => NoDup (dkeys op)) ops ->
  In p (dkeys (addOps ops)) <-> exists op, In op ops /\ val op p <> c0.
Proof.
  intros Hn. rewrite addOps_foldadd, keys_foldadd. rewrite Forall_forall in Hn. split.
  - intros [[]|Hi]. apply in_map_iff in Hi as ([q h] & <- & Hi). apply filter_In in Hi as [Hi Hz].
    apply in_concat in Hi as (op & Ho & Hi). exists op. split; auto. cbn [fst snd] in *.
    unfold val. rewrite (In_dget op q h) by auto. destruct (ceqb_spec h c0); [discriminate|auto].
  - intros (op & Ho & Hv). right. unfold val in Hv. destruct (dget op p) as [h|] eqn:E; [|congruence].
    apply in_map_iff. exists (p, h). split; auto. apply filter_In. split.
    + apply in_concat. exists op. split; auto. apply dget_In; auto.
    + cbn [snd]. destruct (ceqb_spec h c0); [congruence|auto].
Qed.
Lemma csum_dadd {K} `{EqB K} (g : K -> cx F) (d : dict K (cx F)) k v :
  csum (fun ph => snd ph * g (fst ph))%C (dadd d k v) = (csum (fun ph => snd ph * g (fst ph))%C d + v * g k)%C.
Proof.
  unfold dadd. induction d as [|[k0 v0] d IH]; cbn [dget].
  - cbn [dset csum fst snd]. ring.
  - destruct (eqb_spec k k0) as [->|Hne].
    + cbn [dset]. rewrite eqb_refl. cbn [csum fst snd]. ring.
    + destruct (dget d k) as [w|]; cbn [dset]; rewrite (eqb_neq k k0) by auto; cbn [csum fst snd]; rewrite IH; ring.
Qed.
Lemma csum_foldadd {K} `{EqB K} (g : K -> cx F) (l : list (K * cx F)) : forall d,
  csum (fun ph => snd ph * g (fst ph))%C (foldadd l d) =
  (csum (fun ph => snd ph * g (fst ph))%C d + csum (fun ph => snd ph * g (fst ph))%C l)%C.
Proof.
  induction l as [|[k v] l IH]; intros d; cbn [csum fst snd].
  - simpl. ring.
  - change (foldadd ((k, v) :: l) d) with (foldadd l (dadd d k v)). rewrite IH, csum_dadd. ring.
Qed.
Lemma addOps_hermitian (ops : list (gop A F)) :
  Forall (fun op => NoDup (dkeys op) /\ assert_hermitian op = Ok tt) ops -> assert_hermitian (addOps ops) = Ok tt.
Proof.
  intros H. assert (Hn : Forall (fun op => NoDup (dkeys op)) ops)
    by (eapply Forall_impl; [|exact H]; intros op Ho; apply Ho).
  rewrite Forall_forall in H.
  apply assert_hermitian_iff; [apply addOps_NoDup|].
  assert (Hval : forall op p, In op ops -> Forall good_label p -> val op (dag p) = cconj (val op p)).
  { intros op p Ho Hp. destruct (H op Ho) as [Hnd Hh]. apply assert_hermitian_iff in Hh as [Hg Hh]; auto.
    unfold val. destruct (dget op p) as [h|] eqn:E.
    - rewrite (Hh _ _ E). auto.
    - rewrite cconj_0. destruct (dget op (dag p)) as [g|] eqn:E'; auto.
      apply Hh in E'. rewrite dag_inv in E' by auto. congruence. }
  assert (Hgood : forall p, In p (dkeys (addOps ops)) -> Forall good_label p).
  { intros p Hi. apply addOps_keys in Hi as (op & Ho & Hv); auto.
    destruct (H op Ho) as [Hnd Hh]. apply assert_hermitian_iff in Hh as [Hg Hh]; auto.
    unfold val in Hv. destruct (dget op p) as [g|] eqn:E; [|congruence]. apply dget_In in E.
    unfold good_labels in Hg. rewrite Forall_forall in Hg. apply (Hg _ E). }
  split.
  - apply Forall_forall. intros [p h] Hi. cbn [fst]. apply Hgood. apply (in_map fst) in Hi. exact Hi.
  - intros p h E.
    assert (Hi : In p (dkeys (addOps ops))) by (apply dget_Some_key; eauto).
    pose proof (Hgood p Hi) as Hp.
    assert (Hi' : In (dag p) (dkeys (addOps ops))).
    { apply addOps_keys in Hi as (op & Ho & Hv); auto. apply addOps_keys; auto. exists op. split; auto.
      rewrite Hval by auto. intros C. apply Hv. apply cconj_inj. rewrite C, cconj_0. auto. }
    apply dget_Some_key in Hi' as [g Eg].
    assert (V : val (addOps ops) (dag p) = cconj (val (addOps ops) p)).
    { rewrite !addOps_val by auto. rewrite <- csum_conj. apply csum_ext. intros op Ho. auto. }
    unfold val in V. rewrite Eg, E in V. rewrite Eg, V. auto.
Qed.
End Gen.

Lemma lad_flip l c : good_label l -> lad l c = flip (Ascii.eqb (snd l) "c") (Z.to_nat (fst l)) c.
Proof.
  destruct l as [i x]. intros [E|E]; simpl in E; subst x; unfold lad; simpl.
  - apply ann_flip.
  - apply cre_flip.
Qed.
Lemma lad_inv l c d s : good_label l -> lad l c = Some (d, s) -> lad (dag_ladder l) d = Some (c, s).
Proof.
  intros Hg E. rewrite lad_flip in E |- * by (auto using dag_ladder_good). apply flip_inv in E.
  destruct l as [i x]. destruct Hg as [Eg|Eg]; simpl in Eg; subst x; exact E.
Qed.
Lemma proc_act_inv p : Forall good_label p -> forall c d s, proc_act p c = Some (d, s) -> proc_act (dag p) d = Some (c, s).
Proof.
  induction p as [|l p IH]; intros Hg c d s; simpl.
  - intros [= <- <-]. reflexivity.
  - apply Forall_cons_iff in Hg as [Hl Hg].
    destruct (proc_act p c) as [[c1 s1]|] eqn:E1; [|discriminate].
    destruct (lad l c1) as [[c2 s2]|] eqn:E2; [|discriminate]. intros [= <- <-].
    change (l :: p) with ([l] ++ p). rewrite dag_app, proc_act_app. cbn [dag rev app map proc_act].
    rewrite (lad_inv _ _ _ _ Hl E2). rewrite (IH Hg _ _ _ E1). f_equal. f_equal. ring.
Qed.
Lemma pelem_dag p t s : Forall good_label p -> pelem (dag p) t s = pelem p s t.
Proof.
  intros Hg. unfold pelem.
  destruct (proc_act (dag p) s) as [[t' g]|] eqn:E1.
  - apply proc_act_inv in E1; [|apply dag_good]. rewrite dag_inv in E1 by auto.
    destruct (list_eqb_spec t t') as [<-|Hne].
    + rewrite E1. destruct (list_eqb_spec s s); congruence.
    + destruct (proc_act p t) as [[s' g']|] eqn:E2; auto.
      destruct (list_eqb_spec s s') as [<-|]; auto.
      apply proc_act_inv in E2; auto. apply proc_act_inv in E1; auto. congruence.
  - destruct (proc_act p t) as [[s' g']|] eqn:E2; auto.
    destruct (list_eqb_spec s s') as [<-|]; auto. apply proc_act_inv in E2; auto. congruence.
Qed.


Section Op.
Context {F : ofield}.
Add Field Ff : (f_field F).
Add Ring Cring : (@c_ring F).
Implicit Types op : op_t F.
Implicit Types psi phi : psi_t F.
Lemma opelem_dagl op t s : good_labels op -> opelem (dagl op) t s = cconj (opelem op s t).
Proof.
  intros Hg. unfold opelem, dagl. rewrite csum_map, <- csum_conj. apply csum_ext. intros [p h] Hi. cbn [fst snd].
  rewrite cconj_mul, cconj_cofZ. rewrite pelem_dag; auto.
  unfold good_labels in Hg. rewrite Forall_forall in Hg. apply (Hg _ Hi).
Qed.
Lemma wf_good n op : wf_op n op -> good_labels op.
Proof.
  intros [_ Hw]. unfold good_labels. eapply Forall_impl; [|exact Hw]. intros [p h] Hp.
  eapply Forall_impl; [|exact Hp]. intros l [_ Hl]. exact Hl.
Qed.
Lemma wf_dagl n op : wf_op n op -> wf_op n (dagl op).
Proof.
  intros Hw. pose proof (wf_good n op Hw) as Hg. destruct Hw as [Hn Hw]. split; [apply NoDup_dagl; auto|].
  unfold dagl. apply Forall_map. eapply Forall_impl; [|exact Hw]. intros [p h] Hp. cbn [fst] in *.
  unfold dag. apply Forall_map. apply Forall_rev. eapply Forall_impl; [|exact Hp].
  intros l [Hl _]. split; auto. apply dag_ladder_good.
Qed.

Lemma cut_nonpos (swm : F) x : (swm <= 0)%F -> cut swm x = x.
Proof.
  intros H. unfold cut. destruct (cabs2 x <? swm)%F eqn:E; auto. exfalso.
  pose proof (flt_le_trans _ _ _ E H) as C. pose proof (cabs2_nonneg x) as C'. congruence.
Qed.
(* <phi| op psi> = <op^dagger phi| psi> for applyOp without cutoff *)
Lemma applyOp_adjoint n op d psi phi swm : (swm <= 0)%F -> wf_op n op -> daggerOp op = Ok d ->
  valid_psi n psi -> valid_psi n phi ->
  exists psi' phi', applyOp (Z.of_nat n) op psi swm None None = (None, Ok psi') /\
    applyOp (Z.of_nat n) d phi swm None None = (None, Ok phi') /\ inner phi psi' = inner phi' psi.
Proof.
  intros Hs Hw Hd Hpsi Hphi. apply daggerOp_ok_inv in Hd as [Hg ->]; [|apply Hw].
  destruct (applyOp_amp n op psi swm None Hw Hpsi) as (psi' & E & Hv & _ & Ha).
  destruct (applyOp_amp n (dagl op) phi swm None (wf_dagl n op Hw) Hphi) as (phi' & E' & Hv' & _ & Ha').
  exists psi', phi'. split; [auto|split;[auto|]]. rewrite !(inner_vinner n) by auto. unfold vinner.
  transitivity (csum (fun t => csum (fun s => cconj (amp phi t) * (opelem op t s * amp psi s))%C (allcfg n)) (allcfg n)).
  - apply csum_ext. intros t Ht. apply allcfg_In in Ht. rewrite Ha by auto. simpl okr. cbn iota.
    rewrite cut_nonpos by auto. rewrite csum_mul_l. reflexivity.
  - rewrite csum_swap. apply csum_ext. intros s Hs'. apply allcfg_In in Hs'. rewrite Ha' by auto. simpl okr. cbn iota.
    rewrite cut_nonpos by auto. unfold op_vec. rewrite <- csum_conj, <- csum_mul_r.
    apply csum_ext. intros t _. rewrite cconj_mul, opelem_dagl, cconj_conj by auto. ring.
Qed.

Lemma opelem_perm op op' t s : Permutation op op' -> opelem op t s = opelem op' t s.
Proof. apply csum_perm. Qed.
Lemma herm_opelem op t s : NoDup (dkeys op) -> assert_hermitian op = Ok tt -> opelem op t s = cconj (opelem op s t).
Proof.
  intros Hn E. apply assert_hermitian_perm in E as [Hg Hp]; auto. rewrite <- opelem_dagl by auto.
  symmetry. apply opelem_perm. auto.
Qed.

Lemma opelem_addOps (ops : list (op_t F)) t s : opelem (addOps ops) t s = csum (fun op => opelem op t s) ops.
Proof.
  unfold opelem. rewrite addOps_foldadd, (csum_foldadd (fun p => cofZ (pelem p t s))).
  rewrite csum_filter. cbn [csum].
  etransitivity; [|apply (csum_concat (fun ph : process * cx F => snd ph * cofZ (pelem (fst ph) t s))%C ops)].
  rewrite <- (csum_ext (fun ph => snd ph * cofZ (pelem (fst ph) t s))%C
     (fun a => if negb (ceqb (snd a) c0) then (snd a * cofZ (pelem (fst a) t s))%C else c0)).
  - unfold process, ladder. ring.
  - intros [p h] _. cbn [fst snd]. destruct (ceqb_spec h c0) as [->|]; cbn [negb]; auto. ring.
Qed.
Lemma wf_addOps n (ops : list (op_t F)) : Forall (wf_op n) ops -> wf_op n (addOps ops).
Proof.
  intros H. split; [apply addOps_NoDup|]. apply Forall_forall. intros [p h] Hi. cbn [fst].
  apply (in_map fst) in Hi. cbn [fst] in Hi.
  apply addOps_keys in Hi as (op & Ho & Hv).
  - rewrite Forall_forall in H. unfold val in Hv. destruct (dget op p) as [g|] eqn:E; [|congruence].
    apply dget_In in E. eapply wf_op_in; eauto.
  - eapply Forall_impl; [|exact H]. intros op Ho. apply Ho.
Qed.
(* applying the sum = summing the applied operators *)
Lemma op_vec_addOps n (ops : list (op_t F)) psi t :
  op_vec n (addOps ops) psi t = csum (fun op => op_vec n op psi t) ops.
Proof.
  unfold op_vec. rewrite csum_swap. apply csum_ext. intros s _. rewrite csum_mul_r, opelem_addOps. reflexivity.
Qed.
End Op.

(* ---- get_job_tasks ---- *)
Lemma skipn_skipn {A} (x y : nat) (l : list A) : skipn x (skipn y l) = skipn (x + y) l.
Proof.
  revert l; induction y as [|y IH]; intros l; [rewrite Nat.add_0_r; auto|].
  destruct l as [|a l]; [rewrite !skipn_nil; auto|]. rewrite Nat.add_succ_r. simpl. apply IH.
Qed.
Lemma flat_map_nil {A B} (f : A -> list B) l : (forall a, In a l -> f a = []) -> flat_map f l = [].
Proof. induction l as [|a l IH]; simpl; intros H; auto. rewrite H, IH; auto. Qed.
Lemma map_res_nth {A} (l : list A) : forall k m, (k + m <= length l)%nat ->
  map_res (fun i => match nth_error l i with Some x => Ok x | None => Err IndexError end) (seq k m)
  = Ok (firstn m (skipn k l)).
Proof.
  intros k m. revert k; induction m as [|m IH]; intros k Hk; [reflexivity|]. cbn [seq map_res].
  destruct (nth_error l k) as [x|] eqn:E; [|apply nth_error_None in E; lia].
  cbn [bind]. rewrite IH by lia. cbn [bind]. f_equal.
  assert (Ec : skipn k l = x :: skipn (S k) l).
  { clear -E. revert k E. induction l as [|a l IH]; intros [|k]; simpl; intros E; try discriminate.
    - injection E as ->; auto.
    - apply IH; auto. }
  rewrite Ec. reflexivity.
Qed.
Definition extra {A} (ranks : nat) (l : list A) (rank : nat) : list A :=
  firstn (if Nat.ltb rank (Nat.modulo (length l) ranks) then 1 else 0)
    (skipn (length l - Nat.modulo (length l) ranks + rank) l).
Definition chunk {A} (ranks : nat) (l : list A) (rank : nat) : list A :=
  firstn (Nat.div (length l) ranks) (skipn (Nat.div (length l) ranks * rank) l).
Lemma get_job_tasks_eq {A} (l : list A) rank ranks : (rank < ranks)%nat ->
  get_job_tasks rank ranks l = Ok (chunk ranks l rank ++ extra ranks l rank).
Proof.
  intros Hr. unfold get_job_tasks. destruct (Nat.eqb_spec ranks 0); [lia|].
  pose proof (Nat.div_mod (length l) ranks ltac:(lia)) as D.
  pose proof (Nat.mod_upper_bound (length l) ranks ltac:(lia)) as U.
  set (q := Nat.div (length l) ranks) in *. set (r := Nat.modulo (length l) ranks) in *.
  rewrite map_res_nth by nia. cbn [bind]. unfold chunk, extra. fold q r.
  destruct (Nat.ltb_spec rank r) as [H|H].
  - destruct (nth_error l (length l - r + rank)) as [x|] eqn:E; [|apply nth_error_None in E; lia].
    cbn [bind]. f_equal. f_equal.
    pose proof (map_res_nth l (length l - r + rank) 1 ltac:(lia)) as M. cbn [seq map_res] in M.
    rewrite E in M. cbn [bind] in M. congruence.
  - simpl. rewrite app_nil_r. auto.
Qed.
Lemma flat_map_chunk {A} q (l : list A) : forall m k, 
  flat_map (fun r => firstn q (skipn (q * r) l)) (seq k m) = firstn (q * m) (skipn (q * k) l).
Proof.
  induction m as [|m IH]; intros k; cbn [seq flat_map].
  - rewrite Nat.mul_0_r. reflexivity.
  - rewrite IH. replace (q * S m)%nat with (q + q * m)%nat by lia.
    replace (q * S k)%nat with (q + q * k)%nat by lia.
    generalize (q * k)%nat as a. generalize (q * m)%nat as b. intros b a.
    rewrite <- skipn_skipn. generalize (skipn a l) as l'. intros l'.
    rewrite firstn_skipn_comm.
    transitivity (firstn q (firstn (q + b) l') ++ skipn q (firstn (q + b) l')).
    + rewrite firstn_firstn, Nat.min_l by lia. reflexivity.
    + apply firstn_skipn.
Qed.
Lemma flat_map_app_perm {A B} (f g : A -> list B) l :
  Permutation (flat_map (fun a => f a ++ g a) l) (flat_map f l ++ flat_map g l).
Proof.
  induction l as [|a l IH]; simpl; auto. rewrite <- !app_assoc. apply Permutation_app_head.
  eapply Permutation_trans; [apply Permutation_app_head, IH|].
  rewrite !app_assoc. apply Permutation_app_tail. apply Permutation_app_comm.
Qed.
Lemma flat_map_extra {A} (l : list A) r ranks : (r <= ranks)%nat -> (r <= length l)%nat ->
  flat_map (fun k => firstn (if Nat.ltb k r then 1 else 0) (skipn (length l - r + k) l)) (seq 0 ranks)
  = skipn (length l - r) l.
Proof.
  intros Hr Hl. replace ranks with (r + (ranks - r))%nat by lia. rewrite seq_app, flat_map_app.
  assert (E2 : flat_map (fun k => firstn (if Nat.ltb k r then 1 else 0) (skipn (length l - r + k) l)) (seq (0 + r) (ranks - r)) = []).
  { apply flat_map_nil. intros k Hk. apply in_seq in Hk.
    destruct (Nat.ltb_spec k r); [lia|reflexivity]. }
  rewrite E2, app_nil_r.
  transitivity (flat_map (fun k => firstn 1 (skipn (1 * k) (skipn (length l - r) l))) (seq 0 r)).
  - rewrite !flat_map_concat_map. f_equal. apply map_ext_in. intros k Hk. apply in_seq in Hk.
    destruct (Nat.ltb_spec k r); [|lia]. rewrite skipn_skipn. do 2 f_equal. lia.
  - rewrite flat_map_chunk. rewrite Nat.mul_0_r, Nat.mul_1_l. simpl skipn at 1.
    apply firstn_all2. rewrite skipn_length. lia.
Qed.
Lemma job_tasks_partition {A} (l : list A) ranks : (1 <= ranks)%nat ->
  Permutation (flat_map (fun r => chunk ranks l r ++ extra ranks l r) (seq 0 ranks)) l.
Proof.
  intros Hr. pose proof (Nat.div_mod (length l) ranks ltac:(lia)) as D.
  pose proof (Nat.mod_upper_bound (length l) ranks ltac:(lia)) as U.
  eapply Permutation_trans; [apply flat_map_app_perm|]. unfold chunk, extra.
  rewrite flat_map_chunk. rewrite flat_map_extra by lia.
  rewrite Nat.mul_0_r. simpl skipn at 1.
  replace (length l / ranks * ranks)%nat with (length l - length l mod ranks)%nat by lia.
  rewrite firstn_skipn. auto.
Qed.
Lemma length_job {A} (l : list A) rank ranks : (rank < ranks)%nat ->
  length (chunk ranks l rank ++ extra ranks l rank) =
  (Nat.div (length l) ranks + if Nat.ltb rank (Nat.modulo (length l) ranks) then 1 else 0)%nat.
Proof.
  intros Hr. pose proof (Nat.div_mod (length l) ranks ltac:(lia)) as D.
  pose proof (Nat.mod_upper_bound (length l) ranks ltac:(lia)) as U.
  unfold chunk, extra. rewrite app_length, !firstn_length, !skipn_length.
  set (q := Nat.div (length l) ranks) in *. set (r := Nat.modulo (length l) ranks) in *.
  destruct (Nat.ltb_spec rank r); nia.
Qed.
Lemma map_nth_error_seq {A} (l : list A) : forall m k, (k + m <= length l)%nat ->
  map (nth_error l) (seq k m) = map Some (firstn m (skipn k l)).
Proof.
  induction m as [|m IH]; intros k Hk; [reflexivity|]. cbn [seq map].
  destruct (nth_error l k) as [x|] eqn:E; [|apply nth_error_None in E; lia].
  rewrite IH by lia.
  assert (Ec : skipn k l = x :: skipn (S k) l).
  { clear -E. revert k E. induction l as [|a l IH]; intros [|k]; simpl; intros E; try discriminate.
    - injection E as ->; auto.
    - apply IH; auto. }
  rewrite Ec. reflexivity.
Qed.
Lemma sorted_snoc l x : StronglySorted lt l -> Forall (fun y => (y < x)%nat) l -> StronglySorted lt (l ++ [x]).
Proof.
  induction l as [|a l IH]; simpl; intros Hs Hf; [repeat constructor|].
  apply StronglySorted_inv in Hs as [Hs Ha]. apply Forall_cons_iff in Hf as [Hax Hf].
  constructor; [auto|]. apply Forall_app. auto.
Qed.
Lemma job_tasks_order {A} (l : list A) rank ranks : (rank < ranks)%nat ->
  exists idx, StronglySorted lt idx /\
    map (nth_error l) idx = map Some (chunk ranks l rank ++ extra ranks l rank).
Proof.
  intros Hr. pose proof (Nat.div_mod (length l) ranks ltac:(lia)) as D.
  pose proof (Nat.mod_upper_bound (length l) ranks ltac:(lia)) as U.
  unfold chunk, extra.
  set (q := Nat.div (length l) ranks) in *. set (r := Nat.modulo (length l) ranks) in *.
  assert (Hq : StronglySorted lt (seq (q * rank) q)) by apply seq_sorted.
  destruct (Nat.ltb_spec rank r) as [H|H].
  - exists (seq (q * rank) q ++ [(length l - r + rank)%nat]). split.
    + apply sorted_snoc; auto. apply Forall_forall. intros y Hy. apply in_seq in Hy. nia.
    + rewrite !map_app. rewrite (map_nth_error_seq l) by nia.
      f_equal. rewrite <- (map_nth_error_seq l) by lia. reflexivity.
  - exists (seq (q * rank) q). split; auto. simpl firstn at 2. rewrite app_nil_r.
    apply map_nth_error_seq. nia.
Qed.
Lemma job_tasks_balance {A} (l : list A) r r' ranks : (r < ranks)%nat -> (r' < ranks)%nat ->
  (length (chunk ranks l r ++ extra ranks l r) <= S (length (chunk ranks l r' ++ extra ranks l r')))%nat.
Proof.
  intros Hr Hr'. rewrite !length_job by auto.
  destruct (Nat.ltb r _), (Nat.ltb r' _); lia.
Qed.
