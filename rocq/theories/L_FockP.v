(* Statements of C08 - C19 in the form used by P_Fock.v. *)
From Coq Require Import Permutation Ring Field Sorted.
From Verif Require Import M_Prelude M_Scalar M_PSR M_Ladder M_State S_Occ S_Routes S_Fock S_Ops.
From Verif Require Import L_Scalar L_Sum L_Dict L_PSR L_PSR2 L_Ladder L_Ladder2 L_Fock L_State L_ApplyOp L_Ops.
Local Open Scope Z_scope.

Section PF.
Context {F : ofield}.
Add Field Ff : (f_field F).
Add Ring Cring : (@c_ring F).
Implicit Types psi phi : psi_t F.
Implicit Types op : op_t F.

Lemma car_aa n i j psi : (i < n)%nat -> (j < n)%nat -> valid_psi n psi ->
  exists p1 p2 q1 q2,
    op_a (Z.of_nat n) (Z.of_nat j) psi = Ok p1 /\ op_a (Z.of_nat n) (Z.of_nat i) p1 = Ok p2 /\
    op_a (Z.of_nat n) (Z.of_nat i) psi = Ok q1 /\ op_a (Z.of_nat n) (Z.of_nat j) q1 = Ok q2 /\
    forall t, length t = n -> (amp p2 t + amp q2 t)%C = c0.
Proof.
  intros Hi Hj Hv. destruct (anticommute false false n i j psi Hi Hj Hv) as (p1 & p2 & q1 & q2 & H).
  exists p1, p2, q1, q2. simpl in H. rewrite Bool.andb_false_r in H. exact H.
Qed.
Lemma car_cc n i j psi : (i < n)%nat -> (j < n)%nat -> valid_psi n psi ->
  exists p1 p2 q1 q2,
    op_c (Z.of_nat n) (Z.of_nat j) psi = Ok p1 /\ op_c (Z.of_nat n) (Z.of_nat i) p1 = Ok p2 /\
    op_c (Z.of_nat n) (Z.of_nat i) psi = Ok q1 /\ op_c (Z.of_nat n) (Z.of_nat j) q1 = Ok q2 /\
    forall t, length t = n -> (amp p2 t + amp q2 t)%C = c0.
Proof.
  intros Hi Hj Hv. destruct (anticommute true true n i j psi Hi Hj Hv) as (p1 & p2 & q1 & q2 & H).
  exists p1, p2, q1, q2. simpl in H. rewrite Bool.andb_false_r in H. exact H.
Qed.
Lemma car_ac n i j psi : (i < n)%nat -> (j < n)%nat -> valid_psi n psi ->
  exists p1 p2 q1 q2,
    op_c (Z.of_nat n) (Z.of_nat j) psi = Ok p1 /\ op_a (Z.of_nat n) (Z.of_nat i) p1 = Ok p2 /\
    op_a (Z.of_nat n) (Z.of_nat i) psi = Ok q1 /\ op_c (Z.of_nat n) (Z.of_nat j) q1 = Ok q2 /\
    forall t, length t = n -> (amp p2 t + amp q2 t)%C = if Nat.eqb i j then amp psi t else c0.
Proof.
  intros Hi Hj Hv. destruct (anticommute false true n i j psi Hi Hj Hv) as (p1 & p2 & q1 & q2 & H).
  exists p1, p2, q1, q2. simpl in H. rewrite Bool.andb_true_r in H. exact H.
Qed.
Lemma adjoint_c n i phi psi : (i < n)%nat -> valid_psi n phi -> valid_psi n psi ->
  exists psi' phi', op_c (Z.of_nat n) (Z.of_nat i) psi = Ok psi' /\
    op_a (Z.of_nat n) (Z.of_nat i) phi = Ok phi' /\ inner phi psi' = inner phi' psi.
Proof. apply (adjoint_ac true). Qed.
Lemma adjoint_a n i phi psi : (i < n)%nat -> valid_psi n phi -> valid_psi n psi ->
  exists psi' phi', op_a (Z.of_nat n) (Z.of_nat i) psi = Ok psi' /\
    op_c (Z.of_nat n) (Z.of_nat i) phi = Ok phi' /\ inner phi psi' = inner phi' psi.
Proof. apply (adjoint_ac false). Qed.

Lemma inner_defined n phi psi : valid_psi n psi ->
  inner phi psi = csum (fun s => cconj (amp phi s) * amp psi s)%C (allcfg n).
Proof. apply inner_vinner. Qed.

(* ---- applyOp ---- *)
Lemma applyOp_plain_amp n op psi swm : (swm <= 0)%F -> wf_op n op -> valid_psi n psi ->
  exists psi', applyOp (Z.of_nat n) op psi swm None None = (None, Ok psi') /\ valid_psi n psi' /\
    forall t, length t = n -> amp psi' t = csum (fun s => opelem op t s * amp psi s)%C (allcfg n).
Proof.
  intros Hs Hw Hv. destruct (applyOp_amp n op psi swm None Hw Hv) as (psi' & E & Hv' & _ & Ha).
  exists psi'. repeat (split; auto). intros t Ht. rewrite Ha by auto. simpl. apply cut_nonpos; auto.
Qed.
Lemma applyOp_linear n op psi1 psi2 mul swm : (swm <= 0)%F -> wf_op n op -> valid_psi n psi1 -> valid_psi n psi2 ->
  exists r r1 r2,
    applyOp (Z.of_nat n) op (add psi1 psi2 mul) swm None None = (None, Ok r) /\
    applyOp (Z.of_nat n) op psi1 swm None None = (None, Ok r1) /\
    applyOp (Z.of_nat n) op psi2 swm None None = (None, Ok r2) /\
    forall t, length t = n -> amp r t = (amp r1 t + mul * amp r2 t)%C.
Proof.
  intros Hs Hw H1 H2. rewrite add_addToFirst.
  destruct (applyOp_plain_amp n op _ swm Hs Hw (valid_addToFirst n psi1 psi2 mul H1 H2)) as (r & E & _ & Ha).
  destruct (applyOp_plain_amp n op psi1 swm Hs Hw H1) as (r1 & E1 & _ & Ha1).
  destruct (applyOp_plain_amp n op psi2 swm Hs Hw H2) as (r2 & E2 & _ & Ha2).
  exists r, r1, r2. repeat (split; auto). intros t Ht. rewrite Ha, Ha1, Ha2 by auto.
  rewrite <- csum_mul_l, <- csum_add. apply csum_ext. intros s _. rewrite addToFirst_amp by apply H2. ring.
Qed.
Lemma applyOp_sum_ops n (ops : list (op_t F)) psi swm : (swm <= 0)%F -> Forall (wf_op n) ops -> valid_psi n psi ->
  exists r, applyOp (Z.of_nat n) (addOps ops) psi swm None None = (None, Ok r) /\
  exists rs, Forall2 (fun op ri => applyOp (Z.of_nat n) op psi swm None None = (None, Ok ri)) ops rs /\
    forall t, length t = n -> amp r t = csum (fun ri => amp ri t) rs.
Proof.
  intros Hs Hw Hv.
  destruct (applyOp_plain_amp n (addOps ops) psi swm Hs (wf_addOps n ops Hw) Hv) as (r & E & _ & Ha).
  exists r. split; auto.
  assert (H : exists rs, Forall2 (fun op ri => applyOp (Z.of_nat n) op psi swm None None = (None, Ok ri)) ops rs /\
    forall t, length t = n -> csum (fun op => op_vec n op psi t) ops = csum (fun ri => amp ri t) rs).
  { clear -Hs Hw Hv. induction Hw as [|op ops Ho Hw IH]; [exists []; split; [constructor|reflexivity]|].
    destruct IH as (rs & Hf & Hx). destruct (applyOp_plain_amp n op psi swm Hs Ho Hv) as (ri & Ei & _ & Hai).
    exists (ri :: rs). split; [constructor; auto|]. intros t Ht. cbn [csum]. rewrite Hx, Hai by auto. reflexivity. }
  destruct H as (rs & Hf & Hx). exists rs. split; auto. intros t Ht. rewrite Ha by auto.
  rewrite <- Hx by auto. apply (op_vec_addOps n ops psi t).
Qed.

Lemma all_contribs_okf n rs op psi : all_contribs n rs op psi = okf rs (all_contribs n None op psi).
Proof.
  unfold all_contribs. induction psi as [|[k a] psi IH]; cbn [flat_map]; auto. rewrite IH, okf_app. f_equal.
  cbn [fst snd]. unfold okf, scale at 1 2. induction (contribs op (bytes2bitarray k (Z.of_nat n))) as [|[d v] l IHl]; auto.
  cbn [filter fst okr map]. destruct (okr rs d) eqn:E; cbn [map]; rewrite IHl; auto.
Qed.
(* restricted result = unrestricted result without the forbidden product states *)
Lemma applyOp_restricted n op psi swm rs : wf_op n op -> valid_psi n psi -> wf_restr rs ->
  exists psi_r psi_u, applyOp (Z.of_nat n) op psi swm rs None = (None, Ok psi_r) /\
    applyOp (Z.of_nat n) op psi swm None None = (None, Ok psi_u) /\ valid_psi n psi_r /\
    forall t, length t = n -> (allowed_opt rs t -> dget psi_r (key t) = dget psi_u (key t)) /\
                              (~ allowed_opt rs t -> dget psi_r (key t) = None).
Proof.
  intros Hw Hv Hr.
  destruct (applyOp_spec n op psi swm rs Hw Hv) as (psi_r & E & Hvr & Hok & _).
  rewrite applyOp_uncached in E by (apply Hw || apply Hv). injection E as E.
  exists psi_r. eexists. split; [rewrite applyOp_uncached by (apply Hw || apply Hv); rewrite E; auto|].
  split; [apply applyOp_uncached; (apply Hw || apply Hv)|]. split; auto.
  intros t Ht. split.
  - intros Ha. apply okr_allowed in Ha; auto. rewrite <- E.
    rewrite !dget_cutoff by (apply NoDup_foldadd; constructor). rewrite !dget_foldadd_nil.
    rewrite !ksum_all by auto. rewrite Ha. cbn [okr]. rewrite all_contribs_okf.
    set (l := all_contribs n None op psi).
    assert (Ei : inb (key t) (map fst (kc (okf rs l))) = inb (key t) (map fst (kc l))).
    { apply Bool.eq_iff_eq_true. rewrite !inb_In. unfold kc. rewrite !map_map. cbn [fst]. rewrite !in_map_iff.
      split; intros ([d v] & Ek & Hi).
      - exists (d, v). split; auto. apply in_okf in Hi. tauto.
      - exists (d, v). split; auto. apply in_okf. split; auto. cbn [fst] in Ek.
        assert (Hd : length d = n) by (eapply (all_contribs_length n None op psi (proj2 Hv)); exact Hi).
        assert (d = t) by (apply key_inj; congruence). congruence. }
    rewrite Ei. reflexivity.
  - intros Hna. eapply dget_okkeys_none; eauto. destruct (okr rs t) eqn:Eo; auto.
    exfalso. apply Hna. apply okr_allowed; auto.
Qed.
(* cutoff *)
Lemma applyOp_cutoff n op psi swm rs : (0 < swm)%F -> wf_op n op -> valid_psi n psi -> wf_restr rs ->
  exists psi', applyOp (Z.of_nat n) op psi swm rs None = (None, Ok psi') /\ valid_psi n psi' /\
    forall t, length t = n ->
      let x := csum (fun s => opelem op t s * amp psi s)%C (allcfg n) in
      (In (key t) (dkeys psi') <-> allowed_opt rs t /\ (swm <= cabs2 x)%F) /\
      (In (key t) (dkeys psi') -> dget psi' (key t) = Some x).
Proof.
  intros Hs Hw Hv Hr. destruct (applyOp_spec n op psi swm rs Hw Hv) as (psi' & E & Hv' & Hok & Hg).
  exists psi'. split; auto. split; auto. intros t Ht x. specialize (Hg t Ht). fold (op_vec n op psi t) in x.
  rewrite dget_Some_key. destruct (dget psi' (key t)) as [y|] eqn:Ed.
  - destruct Hg as (Ho & Hy & Hc). subst y. split; [|auto]. split; [|eauto]. intros _.
    split; [apply okr_allowed; auto|exact Hc].
  - split; [|intros [v C]; discriminate]. split; [intros [v C]; discriminate|]. intros [Ha Hc].
    apply okr_allowed in Ha; auto. unfold x in Hc. change (csum _ _) with (op_vec n op psi t) in Hc.
    destruct Hg as [Hg|[Hg|Hg]]; try congruence. rewrite Hg in Hc.
    assert (E0 : cabs2 (@c0 F) = 0%F) by (apply cabs2_zero; auto). rewrite E0 in Hc. congruence.
Qed.

(* ---- cache, in specification terms ---- *)
(* a column is the restricted, cut action of op on configuration c *)
Definition cache_entry_ok n op swm rs (c : config) (col : psi_t F) : Prop :=
  valid_psi n col /\
  (forall t, length t = n -> In (key t) (dkeys col) -> allowed_opt rs t) /\
  (forall t, length t = n -> allowed_opt rs t ->
     amp col t = if (cabs2 (opelem op t c) <? swm)%F then c0 else opelem op t c).
Definition cache_ok n op swm rs (cache : cache_t F) : Prop :=
  forall k col, dget cache k = Some col -> exists c, length c = n /\ k = key c /\ cache_entry_ok n op swm rs c col.

Lemma cache_entry_iff n op swm rs c col : wf_restr rs -> cache_entry_ok n op swm rs c col <-> col_ok n op swm rs c col.
Proof.
  intros Hr. split.
  - intros (Hv & Hk & Ha). split; auto. split.
    + intros k Hi. destruct (proj2 Hv k Hi) as (d & Hd & ->). exists d. repeat split; auto.
      apply okr_allowed; auto.
    + intros t Ht. destruct (okr rs t) eqn:E.
      * apply okr_allowed in E; auto. rewrite Ha; auto.
      * unfold amp. destruct (dget col (key t)) eqn:Ed; auto. exfalso.
        assert (Hi : In (key t) (dkeys col)) by (apply dget_Some_key; eauto).
        apply Hk in Hi; auto. apply okr_allowed in Hi; auto. congruence.
  - intros (Hv & Hk & Ha). split; auto. split.
    + intros t Ht Hi. apply Hk in Hi as (d & Hd & E & Ho). apply okr_allowed; auto.
      assert (t = d) by (apply key_inj; congruence). congruence.
    + intros t Ht Hal. apply okr_allowed in Hal; auto. rewrite Ha, Hal by auto. reflexivity.
Qed.
Lemma cache_ok_iff n op swm rs cache : wf_restr rs -> cache_ok n op swm rs cache <-> coherent n op swm rs cache.
Proof.
  intros Hr. unfold cache_ok, coherent. split; intros H k col E; destruct (H k col E) as (c & Hc & Ek & He);
    exists c; (split; [auto|split; [auto|]]); apply cache_entry_iff; auto.
Qed.
Lemma applyOp_cache_coherent n op psi swm rs cache : wf_restr rs -> wf_op n op -> valid_psi n psi ->
  cache_ok n op swm rs cache ->
  exists cache' psi', applyOp (Z.of_nat n) op psi swm rs (Some cache) = (Some cache', Ok psi') /\
    cache_ok n op swm rs cache' /\
    (forall k col, dget cache k = Some col -> dget cache' k = Some col) /\
    (forall k, In k (dkeys cache') <-> In k (dkeys cache) \/ In k (dkeys psi)).
Proof.
  intros Hr Hw Hv Hc. apply cache_ok_iff in Hc; auto.
  destruct (applyOp_cached n op psi swm rs cache Hw Hv Hc) as (cache' & psi' & E & Hc' & Ho & Hk & _).
  exists cache', psi'. split; [auto|]. split; [apply cache_ok_iff; auto|]. auto.
Qed.
(* same amplitudes as without a cache if no column of the cache was truncated *)
Lemma applyOp_cache_same n op psi swm rs cache : wf_restr rs -> wf_op n op -> valid_psi n psi ->
  cache_ok n op swm rs cache ->
  (forall s t, length s = n -> length t = n -> In (key s) (dkeys cache) -> allowed_opt rs t ->
     opelem op t s = c0 \/ (swm <= cabs2 (opelem op t s))%F) ->
  exists cache' r r0, applyOp (Z.of_nat n) op psi swm rs (Some cache) = (Some cache', Ok r) /\
    applyOp (Z.of_nat n) op psi swm rs None = (None, Ok r0) /\
    forall t, length t = n -> amp r t = amp r0 t.
Proof.
  intros Hr Hw Hv Hc Ht. apply cache_ok_iff in Hc; auto.
  destruct (applyOp_cached n op psi swm rs cache Hw Hv Hc) as (cache' & r & E & _ & _ & _ & _ & _ & Ha).
  destruct (applyOp_amp n op psi swm rs Hw Hv) as (r0 & E0 & _ & _ & Ha0).
  exists cache', r, r0. split; [auto|]. split; [auto|]. intros t Hl. rewrite Ha, Ha0 by auto.
  destruct (okr rs t) eqn:Eo; auto. f_equal. apply csum_ext. intros s Hs. apply allcfg_In in Hs. f_equal.
  unfold elem_cached. destruct (dmem cache (key s)) eqn:Em; auto. unfold cut.
  apply dmem_In in Em. apply okr_allowed in Eo; auto.
  destruct (Ht s t Hs Hl Em Eo) as [->|Hx].
  - destruct (cabs2 c0 <? swm)%F; auto.
  - rewrite Hx. auto.
Qed.
Lemma cache_ok_nil n op swm rs : cache_ok n op swm rs [].
Proof. intros k col E. discriminate. Qed.

(* a process whose first acting label is unknown is rejected *)
Lemma applyOp_first_label n op psi swm rs p i x h op' k a psi' :
  op = (p ++ [(i, x)], h) :: op' -> psi = (k, a) :: psi' -> x <> "a"%char -> x <> "c"%char ->
  snd (applyOp n op psi swm rs None) = Err UnboundLocalError.
Proof.
  intros -> -> Ha Hc.
  assert (E : forall b, proc_loop (rev (p ++ [(i, x)])) b 1 None = Err UnboundLocalError).
  { intros b. rewrite rev_app_distr. cbn [rev app proc_loop].
    destruct (Ascii.eqb_spec x lab_a) as [E|]; [exfalso; exact (Ha E)|].
    destruct (Ascii.eqb_spec x lab_c) as [E|]; [exfalso; exact (Hc E)|]. reflexivity. }
  unfold applyOp. cbn [snd]. destruct rs as [rs|]; unfold applyOp_restr, applyOp_plain; cbn [fold_res fst snd];
    rewrite E; reflexivity.
Qed.

(* C58 *)
Lemma sum_rule n i psi : (i < n)%nat -> valid_psi n psi ->
  exists pa pc, op_a (Z.of_nat n) (Z.of_nat i) psi = Ok pa /\ op_c (Z.of_nat n) (Z.of_nat i) psi = Ok pc /\
    (norm2 pa + norm2 pc)%F = norm2 psi.
Proof.
  intros Hi Hv.
  destruct (car_ac n i i psi Hi Hi Hv) as (p1 & p2 & q1 & q2 & E1 & E2 & E3 & E4 & H).
  exists q1, p1. split; [auto|]. split; [auto|].
  destruct (op_ac_get true n i psi Hi Hv) as (x & Ex & Hp1 & _). cbn [op_ac] in Ex.
  rewrite E1 in Ex. injection Ex as <-.
  destruct (op_ac_get false n i psi Hi Hv) as (x & Ex & Hq1 & _). cbn [op_ac] in Ex.
  rewrite E3 in Ex. injection Ex as <-.
  destruct (op_ac_get false n i p1 Hi Hp1) as (x & Ex & Hp2 & _). cbn [op_ac] in Ex.
  rewrite E2 in Ex. injection Ex as <-.
  destruct (op_ac_get true n i q1 Hi Hq1) as (x & Ex & Hq2 & _). cbn [op_ac] in Ex.
  rewrite E4 in Ex. injection Ex as <-.
  destruct (adjoint_a n i psi p1 Hi Hv Hp1) as (x & y & Ex & Ey & A1).
  rewrite E2 in Ex. rewrite E1 in Ey. injection Ex as <-. injection Ey as <-.
  destruct (adjoint_c n i psi q1 Hi Hv Hq1) as (x & y & Ex & Ey & A2).
  rewrite E4 in Ex. rewrite E3 in Ey. injection Ex as <-. injection Ey as <-.
  apply creal_inj. rewrite creal_add, !norm2_inner by (apply Hv || apply Hp1 || apply Hq1).
  rewrite <- A1, <- A2, !(inner_vinner n) by auto. unfold vinner. rewrite <- csum_add.
  apply csum_ext. intros s Hs. apply allcfg_In in Hs. specialize (H s Hs). rewrite Nat.eqb_refl in H.
  rewrite <- H. ring.
Qed.
End PF.
