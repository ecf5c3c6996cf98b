(* getRIXSmap: without cut elements of the outgoing operator the map is a function of the arguments alone *)
From Coq Require Import Lia List Bool Permutation Field Ring.
From Verif Require Import M_Prelude M_Scalar M_PSR M_Ladder M_State M_Mpi M_Hamiltonian M_Lanczos M_Spectra M_RIXS S_Fock S_Ham S_Ops S_Green S_Spectra S_RIXS
  L_PSR L_Ladder L_Scalar L_Dict L_Sum L_Fock L_State L_ApplyOp L_Ops L_FockP L_Ham L_Expand L_ExpandP L_FromH L_HamP L_Vec L_Lanczos2 L_Green L_Green2 L_Green3 L_Green4 L_Spectra L_Spectra2 L_Spectra3 L_Expect2 L_Perm L_RIXS L_RIXS2 L_RIXS3 L_RIXS4 L_RIXS5.
Import ListNotations.
Local Open Scope cx_scope.

Lemma Permutation_filter' {A} (f : A -> bool) l l' : Permutation l l' -> Permutation (filter f l) (filter f l').
Proof.
  induction 1; simpl; auto.
  - destruct (f x); auto.
  - destruct (f x), (f y); auto. constructor.
  - eapply perm_trans; eauto.
Qed.
Lemma seq_split L pre i post : seq 0 L = pre ++ i :: post -> i = length pre /\ pre = seq 0 i.
Proof.
  intros E. assert (Hi : i = length pre).
  { assert (X : nth (length pre) (seq 0 L) 0%nat = i) by (rewrite E, app_nth2, Nat.sub_diag by lia; reflexivity).
    rewrite seq_nth in X; [simpl in X; auto|]. apply (f_equal (@length _)) in E. rewrite seq_length, app_length in E. simpl in E. lia. }
  split; [auto|]. assert (X : firstn i (seq 0 L) = pre) by (rewrite E, Hi, firstn_app, Nat.sub_diag, firstn_all; simpl; apply app_nil_r).
  assert (Hle : (i <= L)%nat) by (apply (f_equal (@length _)) in E; rewrite seq_length, app_length in E; simpl in E; lia).
  rewrite <- X. replace L with (i + (L - i))%nat by lia. rewrite seq_app, firstn_app, seq_length, Nat.sub_diag. simpl. rewrite app_nil_r.
  rewrite <- (seq_length i 0) at 1. apply firstn_all.
Qed.

Section LRIXS6.
Context {F : ofield}.
Add Field Ff : (f_field F).
Add Ring Cring : (@c_ring F).
Add Field Cf : (@c_field F).
Variable fsqrt : F -> F.
Variable bicgstab : list (vec F) -> vec F -> vec F.

Lemma norm2_perm (p p' : psi_t F) : Permutation p p' -> norm2 p = norm2 p'.
Proof. intros H. unfold norm2. rewrite !(fold_left_fsum (fun sa : pybytes * cx F => cabs2 (snd sa))). rewrite (fsum_perm _ _ _ H). auto. Qed.
Lemma normalise_perm (p p' : psi_t F) : Permutation p p' ->
  match normalise fsqrt p, normalise fsqrt p' with
  | Ok (q, r), Ok (q', r') => Permutation q q' /\ r = r'
  | Err x, Err y => x = y
  | _, _ => False
  end.
Proof.
  intros H. unfold normalise. rewrite <- (norm2_perm p p' H). destruct p as [|a p].
  - apply Permutation_nil in H. subst p'. auto.
  - destruct p' as [|a' p']; [apply Permutation_sym, Permutation_nil in H; discriminate|].
    destruct (feqb _ _); auto. split; auto. apply Permutation_map. auto.
Qed.

Variable n : nat.
Variable hOp : op_t F.
Variable rs : option restrictions_t.
Hypothesis Hw : wf_op n hOp.
Hypothesis Hr : wf_restr rs.
Variable fuel : nat.
Hypothesis Hf : (2 ^ n < fuel)%nat.
Variables (wIns wLoss : list F) (delta1 delta2 : F).
Variable ks : Z.
Variable swm : F.
Variables (tOpsIn : list (op_t F)) (psis : list (psi_t F)) (es : list F).
Hypothesis HtIn : Forall (wf_op n) tOpsIn.
Hypothesis Hpsis : Forall (valid_psi n) psis.
Variable op0 : op_t F.
Hypothesis Hop0 : wf_op n op0.
Hypothesis Hno : no_small n op0 swm rs.
Variable M : nat.
Let outs := repeat op0 M.
Let gv := gval fsqrt n hOp rs fuel wLoss delta2 ks swm.

(* ---- psi2 ---- *)
Definition is_psi2 (psi1 : psi_t F) (e wIn : F) (psi2 : psi_t F) : Prop := exists basis m y, Exp n hOp rs (dkeys psi1) 0 basis /\
  is_closure n hOp rs (dkeys psi1) basis /\ restricted_matrix n hOp rs basis m /\ psi_vec (basis_index basis) psi1 = Ok y /\
  psi2_at bicgstab (m, basis_index basis, y) wIn delta1 e = Ok psi2.
Lemma is_psi2_fun psi1 e wIn a b : is_psi2 psi1 e wIn a -> is_psi2 psi1 e wIn b -> a = b.
Proof.
  intros (ba & m & y & HE & HC & Hm & Ey & E) (ba' & m' & y' & HE' & HC' & Hm' & Ey' & E').
  assert (ba' = ba) by (eapply Exp_fun; eauto). subst ba'. assert (y' = y) by congruence. subst y'.
  unfold psi2_at in E, E'. assert (Ea : a_rows (length (basis_index ba)) (mkC (wIn + e)%F delta1) m = a_rows (length (basis_index ba)) (mkC (wIn + e)%F delta1) m').
  { unfold a_rows. apply map_ext_in. intros i Hi. apply map_ext_in. intros j Hj. apply in_seq in Hi, Hj. f_equal.
    rewrite length_basis_index in Hi, Hj by apply HC.
    apply (restricted_matrix_fun n hOp rs ba); auto; [eapply closure_valid; eauto|lia|lia]. }
  rewrite Ea in E. congruence.
Qed.
Lemma basis_state_in idx i (k : pybytes) : dget (basis_state idx) i = Some k -> In k (dkeys idx).
Proof.
  unfold basis_state. assert (G : forall (l : dict pybytes nat) acc, dget (fold_left (fun (d : dict nat pybytes) ki => dset d (snd ki) (fst ki)) l acc) i = Some k ->
    In k (dkeys l) \/ dget acc i = Some k).
  { induction l as [|[k1 i1] l IH]; intros acc E; simpl in *; auto. apply IH in E as [E|E]; auto.
    rewrite dget_dset in E. destruct (eqb i i1); auto. injection E as <-. auto. }
  intros E. apply G in E as [E|E]; auto. discriminate.
Qed.
Lemma psi2_of_valid basis (x : vec F) psi2 : Forall (valid_key n) basis -> psi2_of (basis_index basis) x = Ok psi2 -> valid_psi n psi2.
Proof.
  intros Hv E. unfold psi2_of in E.
  apply (fold_res_inv' _ (fun p : psi_t F => NoDup (dkeys p) /\ forall k, In k (dkeys p) -> valid_key n k)) in E; auto.
  2:{ split; [constructor|intros k []]. }
  - intros s [i a] s' [H1 H2] _ Es. cbn [fst snd] in Es. destruct (ceqb a c0); [injection Es as <-; auto|].
    unfold dgetitem in Es. destruct (dget (basis_state (basis_index basis)) i) as [ps|] eqn:Ed; [|discriminate]. cbn [bind] in Es. injection Es as <-.
    split; [apply NoDup_dset; auto|]. intros k Hk. apply in_dkeys_dset in Hk as [->|Hk]; auto.
    apply basis_state_in in Ed. rewrite Forall_forall in Hv. apply Hv. apply dget_Some_key in Ed as [j Ej]. apply basis_index_spec in Ej. eapply nth_error_In; eauto.
Qed.
Lemma is_psi2_valid psi1 e wIn psi2 : is_psi2 psi1 e wIn psi2 -> valid_psi n psi2.
Proof. intros (ba & m & y & HE & HC & Hm & Ey & E). eapply psi2_of_valid; [eapply closure_valid; eauto|exact E]. Qed.

(* ---- psi3 ---- *)
Definition heap_st (heap : list (cache_t F)) : Prop := exists c, heap = [c] /\ stored_cols n op0 swm rs c.
Definition cn (psi2 : psi_t F) : res (psi_t F * F) :=
  do (hp, p, nrm) <- out_state fsqrt (Z.of_nat n) rs swm [op0] [[]] 0 op0 psi2; Ok (p, nrm).
Lemma out_canon heap t psi2 : heap_st heap -> valid_psi n psi2 -> (t < M)%nat ->
  match out_state fsqrt (Z.of_nat n) rs swm outs heap t op0 psi2, cn psi2 with
  | Ok (heap', p, nrm), Ok (p', nrm') => heap_st heap' /\ nrm = nrm' /\ Permutation p p' /\ valid_psi n p
  | Err x, Err y => x = y
  | _, _ => False
  end.
Proof.
  intros (c & -> & Hc) Hv Ht.
  destruct (apply_any_cache n op0 psi2 swm rs c Hr Hop0 Hv Hno Hc) as (c' & p & c0' & p0 & E & Hc' & E0 & HP & Hvp).
  assert (Ecn : cn psi2 = (do (q, r) <- normalise fsqrt p0; Ok (drop_small swm q, r))).
  { unfold cn, out_state. change (nth_res (tOut_refs (length [op0])) 0) with (@Ok nat 0%nat). cbn [bind]. change (nth_res [([] : cache_t F)] 0) with (Ok ([] : cache_t F)). cbn [bind].
    replace (applyOp (Z.of_nat n) op0 psi2 swm rs (Some ([] : cache_t F))) with (Some c0', Ok p0). cbn [bind]. destruct (normalise fsqrt p0) as [[q r]|]; reflexivity. }
  rewrite Ecn. unfold out_state.
  assert (Ec : nth_res (tOut_refs (length outs)) t = Ok 0%nat).
  { unfold nth_res, tOut_refs, outs. rewrite repeat_length. rewrite (nth_error_nth' _ 0%nat) by (rewrite repeat_length; auto). rewrite nth_repeat. reflexivity. }
  rewrite Ec. cbn [bind]. change (nth_res [c] 0) with (Ok c). cbn [bind]. rewrite E. cbn [bind]. pose proof (normalise_perm p p0 HP) as HN.
  destruct (normalise fsqrt p) as [[q r]|] eqn:En, (normalise fsqrt p0) as [[q0 r0]|] eqn:En0; try contradiction; cbn [bind]; auto.
  destruct HN as [HN <-]. split; [exists c'; auto|]. split; [auto|]. split; [apply Permutation_filter'; auto|].
  pose proof (valid_norm fsqrt n _ _ _ Hvp En) as [V1 V2]. unfold drop_small. split.
  - clear -V1. induction q as [|a q IH]; simpl; auto. inversion V1. subst. destruct (negb _); simpl; auto. constructor; auto.
    intros Hi. apply H1. unfold dkeys in *. apply in_map_iff in Hi as (x & <- & Hx). apply filter_In in Hx as [Hx _]. apply in_map. auto.
  - intros k Hk. apply V2. unfold dkeys in *. apply in_map_iff in Hk as (x & <- & Hx). apply filter_In in Hx as [Hx _]. apply in_map. auto.
Qed.
Lemma gv_perm e p p' : valid_psi n p -> Permutation p p' -> gv e p = gv e p'.
Proof. intros. apply gval_perm; auto. Qed.

(* ---- psi1 ---- *)
Definition tb_step (tOpIn : op_t F) (tb : cache_t F) (i : nat) : res (cache_t F) :=
  do (tb', e, psi1) <- core_hole (Z.of_nat n) rs swm psis es tOpIn tb i; Ok tb'.
Definition tb_at (tOpIn : op_t F) (pre : list nat) (tb : cache_t F) : Prop := fold_res (tb_step tOpIn) pre [] = Ok tb.
Definition hole (tOpIn : op_t F) (iE : nat) (e : F) (psi1 : psi_t F) : Prop := exists tb0 tb, tb_at tOpIn (seq 0 iE) tb0 /\
  core_hole (Z.of_nat n) rs swm psis es tOpIn tb0 iE = Ok (tb, e, psi1).
Lemma hole_fun tOpIn iE e psi1 e' psi1' : hole tOpIn iE e psi1 -> hole tOpIn iE e' psi1' -> e = e' /\ psi1 = psi1'.
Proof.
  intros (a & b & E1 & E2) (a' & b' & E1' & E2'). unfold tb_at in *. assert (Ea : a = a') by congruence. subst a'.
  assert (X := eq_trans (eq_sym E2) E2'). injection X as _ -> ->. auto.
Qed.
Definition krow6 (tOpIn : op_t F) (iE : nat) (wIn : F) (v : vec F) : Prop :=
  exists e psi1 psi2 p nrm g, hole tOpIn iE e psi1 /\ is_psi2 psi1 e wIn psi2 /\ cn psi2 = Ok (p, nrm) /\ gv e p = Ok g /\ v = vmul (nrm * nrm)%F g.
Lemma krow6_fun tOpIn iE wIn v v' : krow6 tOpIn iE wIn v -> krow6 tOpIn iE wIn v' -> v = v'.
Proof.
  intros (e & psi1 & psi2 & p & nrm & g & H1 & H2 & H3 & H4 & ->) (e' & psi1' & psi2' & p' & nrm' & g' & K1 & K2 & K3 & K4 & ->).
  destruct (hole_fun _ _ _ _ _ _ H1 K1) as [<- <-]. assert (psi2 = psi2') by (eapply is_psi2_fun; eauto). subst psi2'. congruence.
Qed.

(* the matrix in modes serial and H_build *)
Lemma ebh_any6 pm ord (psi1 : psi_t F) hs : pm = Serial \/ pm = HBuild -> ord_ok pm ord -> valid_psi n psi1 -> hs_ok n hOp rs pm hs -> hs <> [] ->
  let ebh := expand_basis_and_hamiltonian fuel (Z.of_nat n) hOp rs ord pm false (dkeys psi1) hs in
  length ebh = length hs /\ hs_ok n hOp rs pm (map fst ebh) /\
  forall o m idx, In o ebh -> snd o = Ok (m, idx) -> exists basis, idx = basis_index basis /\ Exp n hOp rs (dkeys psi1) 0 basis /\ is_closure n hOp rs (dkeys psi1) basis /\ restricted_matrix n hOp rs basis m.
Proof.
  intros Hpm Ho [Hv1 Hv2] [Hh1 Hh2] Hne ebh. unfold ebh. clear ebh. destruct Hpm as [->| ->].
  - destruct (ebh_serial n hOp rs Hw Hr fuel ord (dkeys psi1) hs Hh1 Hv1) as (final & HC & HE & HF2); [apply Forall_forall, Hv2|lia|auto|].
    set (ebh := expand_basis_and_hamiltonian _ _ _ _ _ _ _ _ _) in *. clearbody ebh. split; [symmetry; eapply Forall2_len; eauto|]. split; [split; [|discriminate]|].
    + apply Forall_forall. intros x Hx. apply in_map_iff in Hx as (o & <- & Hi). apply (Forall2_in_r _ _ _ _ HF2) in Hi as (? & _ & h' & m & -> & Hx & _). exact Hx.
    + intros o m idx Hi E. apply (Forall2_in_r _ _ _ _ HF2) in Hi as (? & _ & h' & m' & -> & _ & _ & Hm). cbn [snd] in E. injection E as <- <-. exists final. auto.
  - destruct (ebh_hbuild n hOp rs Hw Hr fuel ord (dkeys psi1) hs (Ho eq_refl) Hne Hh1 (Hh2 eq_refl) Hv1) as (final & hs' & m & ms & HC & HE & Hx & Hext & Hnd & _ & E & _ & Hm & _); [apply Forall_forall, Hv2|lia|].
    rewrite E, map_length, map_map. cbn [fst]. rewrite map_id. split; [symmetry; eapply Forall2_len; eauto|]. split; [split; auto|].
    intros o m' idx Hi Es. apply in_map_iff in Hi as (h' & <- & _). cbn [snd] in Es. injection Es as <- <-. exists final. auto.
Qed.
Definition sys6 (psi1 : psi_t F) (sys : system) : Prop := exists basis m y, sys = (m, basis_index basis, y) /\
  Exp n hOp rs (dkeys psi1) 0 basis /\ is_closure n hOp rs (dkeys psi1) basis /\ restricted_matrix n hOp rs basis m /\ psi_vec (basis_index basis) psi1 = Ok y.
Lemma sys6_psi2 psi1 sys wIn e psi2 : sys6 psi1 sys -> psi2_at bicgstab sys wIn delta1 e = Ok psi2 -> is_psi2 psi1 e wIn psi2.
Proof. intros (basis & m & y & -> & H) E. exists basis, m, y. tauto. Qed.

Section Step.
Variables (tOpIn : op_t F) (iE : nat) (psi1 : psi_t F) (e : F).
Hypothesis Hh : hole tOpIn iE e psi1.
Variable sys : @system F.
Hypothesis Hsys : sys6 psi1 sys.
Definition rank6 (rk : list (cache_t F) * hdict_t F) : Prop := heap_st (fst rk) /\ hdict_exact n hOp rs (snd rk).
Definition rows6 (iw : nat) (rows : list (vec F)) : Prop := length rows = M /\ exists wIn, nth_error wIns iw = Some wIn /\ Forall (krow6 tOpIn iE wIn) rows.
Lemma win_outs6 ord wIn psi2 heap hg st' : is_psi2 psi1 e wIn psi2 -> rank6 (heap, hg) ->
  fold_res (win_out fsqrt fuel (Z.of_nat n) hOp wLoss delta2 rs ks swm outs ord e psi2) (enumerate outs) (heap, hg, []) = Ok st' ->
  rank6 (fst st') /\ length (snd st') = M /\ Forall (krow6 tOpIn iE wIn) (snd st').
Proof.
  intros H2 Hrk E. assert (Hv2 := is_psi2_valid _ _ _ _ H2).
  assert (G : forall l st st', (forall to, In to l -> snd to = op0 /\ (fst to < M)%nat) -> rank6 (fst st) -> Forall (krow6 tOpIn iE wIn) (snd st) ->
    fold_res (win_out fsqrt fuel (Z.of_nat n) hOp wLoss delta2 rs ks swm outs ord e psi2) l st = Ok st' ->
    rank6 (fst st') /\ length (snd st') = (length (snd st) + length l)%nat /\ Forall (krow6 tOpIn iE wIn) (snd st')).
  { induction l as [|to l IH]; intros [[hp hg1] rows] st2 Hto Hk Hrows Ef; cbn [fold_res] in Ef.
    - injection Ef as <-. split; [auto|]. split; [simpl; lia|auto].
    - unfold win_out in Ef at 1. destruct (Hto to (or_introl eq_refl)) as [Hto1 Hto2]. rewrite Hto1 in Ef.
      destruct Hk as [Hk1 Hk2]. cbn [fst snd] in Hk1, Hk2, Hrows.
      pose proof (out_canon hp (fst to) psi2 Hk1 Hv2 Hto2) as HO.
      destruct (out_state _ _ _ _ _ _ _ _ _) as [[[hp' p3] nrm]|] eqn:Eo; [|discriminate]. cbn [bind] in Ef.
      destruct (cn psi2) as [[p' nrm']|] eqn:Ecn; [|contradiction]. destruct HO as (Hhp & <- & HP & Hv3).
      destruct (GG_serial fsqrt n hOp rs Hw Hr fuel Hf wLoss delta2 ks swm ord e p3 hg1 Hv3 Hk2) as (hg2 & EG & Hhg).
      unfold GG in EG. match type of Ef with context [getGreen ?a1 ?a2 ?a3 ?a4 ?a5 ?a6 ?a7 ?a8 ?a9 ?b1 ?b2 ?b3 ?b4 ?b5 ?b6] => set (G0 := getGreen a1 a2 a3 a4 a5 a6 a7 a8 a9 b1 b2 b3 b4 b5 b6) in Ef end.
      assert (EG0 : G0 = [(hg2, gv e p3)]) by exact EG. rewrite EG0 in Ef. clear G0 EG EG0. rewrite (gv_perm e p3 p' Hv3 HP) in Ef. destruct (gv e p') as [g|] eqn:Eg; [|discriminate]. cbn [bind] in Ef.
      apply IH in Ef as (H1 & H3 & H4).
      + cbn [snd] in *. rewrite app_length in H3. split; [auto|]. split; [simpl in *; lia|auto].
      + intros; apply Hto; right; auto.
      + split; auto.
      + cbn [snd]. apply Forall_app. split; [auto|]. constructor; [|constructor]. exists e, psi1, psi2, p', nrm, g. auto. }
  apply G in E; auto.
  - destruct E as (H1 & H3 & H4). split; [auto|]. split; [|auto]. unfold enumerate, outs in H3. rewrite combine_length, seq_length, repeat_length in H3. simpl in H3. lia.
  - intros [t o] Hi. cbn [fst snd]. split; [apply enum_snd in Hi; cbn [snd] in *; apply repeat_spec in Hi; auto|].
    apply enumerate_nth in Hi. assert (X : (t < length outs)%nat) by (apply nth_error_Some; congruence). unfold outs in X. rewrite repeat_length in X. auto.
  - constructor.
Qed.
Lemma win_rank6 ord r R rk out : (r < R)%nat -> rank6 rk ->
  win_rank fsqrt bicgstab fuel (Z.of_nat n) hOp wIns wLoss delta1 delta2 rs ks swm outs ord e sys r R rk = Ok out ->
  rank6 (fst out) /\ (forall iw, In iw (jobs_of (length wIns) R r) -> In iw (map fst (snd out))) /\
  (forall iw rows, In (iw, rows) (snd out) -> rows6 iw rows).
Proof.
  intros HR Hrk E. unfold win_rank in E. rewrite get_job_tasks_eq in E by auto. cbn [bind] in E. fold (jobs_of (length wIns) R r) in E.
  assert (G : forall l st, rank6 (fst st) -> (forall iw rows, In (iw, rows) (snd st) -> rows6 iw rows) ->
    fold_res (win_energy fsqrt bicgstab fuel (Z.of_nat n) hOp wIns wLoss delta1 delta2 rs ks swm outs ord e sys) l st = Ok out ->
    rank6 (fst out) /\ (forall iw, In iw l \/ In iw (map fst (snd st)) -> In iw (map fst (snd out))) /\ (forall iw rows, In (iw, rows) (snd out) -> rows6 iw rows)).
  { induction l as [|iw l IH]; intros [[hp hg] g] Hk Hrows Ef; cbn [fold_res] in Ef.
    - injection Ef as <-. split; [auto|]. split; [intros i [[]|Hi]; auto|auto].
    - unfold win_energy in Ef at 1. destruct (nth_res wIns iw) as [wIn|] eqn:Ew; [|discriminate]. cbn [bind] in Ef.
      destruct (psi2_at bicgstab sys wIn delta1 e) as [psi2|] eqn:E2; [|discriminate]. cbn [bind] in Ef. apply (sys6_psi2 psi1) in E2; auto.
      destruct (fold_res _ (enumerate outs) _) as [[[hp' hg'] rows]|] eqn:Eo; [|discriminate]. cbn [bind] in Ef.
      apply (win_outs6 ord wIn) in Eo as (H1 & H2 & H3); auto. cbn [fst snd] in H1, H2, H3, Hrows.
      apply IH in Ef as (I1 & I2 & I3).
      + split; [auto|]. split; [|auto]. intros i Hi. apply I2. cbn [snd] in *. destruct Hi as [[->|Hi]|Hi]; auto.
        * right. apply in_dkeys_dset. auto.
        * right. apply in_dkeys_dset. auto.
      + auto.
      + cbn [snd]. intros i rws Hi. apply in_dset in Hi as [[Hi ->]|[[-> ->]|Hi]]; auto.
        * apply Nat.eqb_eq in Hi. subst i. split; [auto|]. exists wIn. split; [apply nth_res_some; auto|auto].
        * split; [auto|]. exists wIn. split; [apply nth_res_some; auto|auto]. }
  apply G in E as (H1 & H2 & H3); auto.
  - intros iw rows [].
Qed.
End Step.

Definition gs6 (done : nat -> nat -> Prop) (gs : garr4 F) : Prop :=
  forall tIn iE tOpIn iw wIn tOut, done tIn iE -> nth_error tOpsIn tIn = Some tOpIn -> (iE < length es)%nat ->
    nth_error wIns iw = Some wIn -> (tOut < M)%nat -> krow6 tOpIn iE wIn (gs iE tIn tOut iw).
Lemma core6 tOpIn tb iE tb' e psi1 : wf_op n tOpIn -> cache_ok n tOpIn swm rs tb ->
  core_hole (Z.of_nat n) rs swm psis es tOpIn tb iE = Ok (tb', e, psi1) -> cache_ok n tOpIn swm rs tb' /\ valid_psi n psi1.
Proof.
  intros Ht Hc E. unfold core_hole in E. destruct (nth_res psis iE) as [psi|] eqn:Ep; [|discriminate]. cbn [bind] in E.
  destruct (nth_res es iE) as [e'|] eqn:Ee; [|discriminate]. cbn [bind] in E. apply nth_res_some in Ep.
  assert (Hv : valid_psi n psi) by (rewrite Forall_forall in Hpsis; apply Hpsis; eapply nth_error_In; eauto).
  apply cache_ok_iff in Hc; auto.
  destruct (applyOp_cached n tOpIn psi swm rs tb Ht Hv Hc) as (c' & p1 & EA & Hc' & _ & _ & Hv1 & _).
  rewrite EA in E. cbn [bind] in E. injection E as <- <- <-. split; [apply cache_ok_iff; auto|auto].
Qed.

Section Win.
Variable pm : pmode.
Hypothesis Hpm : pm = Serial \/ pm = HBuild.
Record win_inv6 (R : nat) (tOpIn : op_t F) (pre : list nat) (done : nat -> nat -> Prop) (st : win_state) : Prop := {
  w6_tb : cache_ok n tOpIn swm rs (wi_tbig st); w6_at : tb_at tOpIn pre (wi_tbig st);
  w6_ex : hs_ok n hOp rs pm (wi_ex st); w6_len : length (wi_ex st) = R;
  w6_rk : Forall rank6 (wi_rk st); w6_rlen : length (wi_rk st) = R;
  w6_gs : exists gs, wi_gs st = repeat gs R /\ gs6 done gs }.
Lemma win_step6 R (ord : nat -> set_order) tIn tOpIn done st iE st' : (1 <= R)%nat -> ord_ok pm ord -> nth_error tOpsIn tIn = Some tOpIn ->
  win_inv6 R tOpIn (seq 0 iE) done st ->
  win_step fsqrt bicgstab fuel (Z.of_nat n) hOp wIns wLoss delta1 delta2 rs ks swm outs psis es pm ord tIn tOpIn st iE = Run st' ->
  win_inv6 R tOpIn (seq 0 iE ++ [iE]) (fun t i => done t i \/ (t = tIn /\ i = iE)) st'.
Proof.
  intros HR Ho Ht [I1 I1' I2 I3 I4 I5 (gs & I6 & I7)] E. unfold win_step in E. cbv zeta in E.
  assert (Hwt : wf_op n tOpIn) by (rewrite Forall_forall in HtIn; apply HtIn; eapply nth_error_In; eauto).
  destruct (core_hole _ _ _ _ _ _ _ _) as [[[tb e] psi1]|] eqn:Ec; [|discriminate]. cbn [all_ranks rbind] in E.
  assert (Hhole : hole tOpIn iE e psi1) by (exists (wi_tbig st), tb; auto).
  assert (Hat : tb_at tOpIn (seq 0 iE ++ [iE]) tb).
  { unfold tb_at in *. rewrite fold_res_app, I1'. cbn [bind fold_res]. unfold tb_step. rewrite Ec. reflexivity. }
  apply core6 in Ec as (Htb & Hs1); auto.
  assert (Hne : wi_ex st <> []) by (intros C; rewrite C in I3; simpl in I3; lia).
  destruct (ebh_any6 pm ord psi1 (wi_ex st) Hpm Ho Hs1 I2 Hne) as (Le & Hex & Hm).
  set (ebh := expand_basis_and_hamiltonian _ _ _ _ _ _ _ _ _) in *. clearbody ebh.
  match type of E with rbind (together (map ?f0 _)) _ = _ => set (f := f0) in E end.
  destruct (together (map f (enumerate (combine ebh (wi_rk st))))) as [l|] eqn:Et; [|discriminate]. cbn [rbind] in E. injection E as <-.
  apply together_run in Et.
  assert (Le' : length ebh = R) by (rewrite <- I3; exact Le).
  assert (Lc : length (combine ebh (wi_rk st)) = R) by (rewrite combine_length, Le', I5; apply Nat.min_id).
  assert (Ll : length l = R).
  { apply (f_equal (@length _)) in Et. rewrite !map_length in Et. unfold enumerate in Et. rewrite combine_length, seq_length in Et. lia. }
  assert (Hall : forall r o, nth_error l r = Some o -> (r < R)%nat /\ rank6 (fst o) /\
      (forall iw, In iw (jobs_of (length wIns) R r) -> In iw (map fst (snd o))) /\ (forall iw rows, In (iw, rows) (snd o) -> rows6 tOpIn iE iw rows)).
  { intros r o Er. assert (Hr' : (r < R)%nat) by (rewrite <- Ll; apply nth_error_Some; congruence). split; [auto|].
    destruct (nth_error (combine ebh (wi_rk st)) r) as [x|] eqn:Ex; [|apply nth_error_None in Ex; lia].
    assert (Ex' : nth_error (enumerate (combine ebh (wi_rk st))) r = Some (r, x)).
    { unfold enumerate. clear -Ex. assert (G : forall (l : list ((hdict_t F * res (mat F * dict pybytes nat)) * (list (cache_t F) * hdict_t F))) s r, nth_error l r = Some x -> nth_error (combine (seq s (length l)) l) r = Some ((s + r)%nat, x)).
      { clear. induction l as [|a l IH]; intros s [|r] E; simpl in *; try discriminate; [injection E as ->; rewrite Nat.add_0_r; reflexivity|].
        rewrite (IH (S s) r E). rewrite <- plus_n_Sm. reflexivity. }
      rewrite (G _ 0%nat r Ex). reflexivity. }
    destruct (nth_map_ok _ _ _ _ _ Et Ex') as (o' & Eo' & Ef). rewrite Er in Eo'. injection Eo' as <-.
    unfold f in Ef. destruct x as [ob rk]. cbn [fst snd] in Ef. apply nth_error_In in Ex.
    assert (Hob := in_combine_l _ _ _ _ Ex). assert (Hrk := in_combine_r _ _ _ _ Ex).
    destruct (snd ob) as [[m idx]|] eqn:Es; [|discriminate]. cbn [bind] in Ef.
    destruct (Hm ob m idx Hob Es) as (basis & -> & HE & HC & HRm).
    destruct (psi_vec (basis_index basis) psi1) as [y|] eqn:Ey; [|discriminate]. cbn [bind] in Ef.
    assert (Ef' : win_rank fsqrt bicgstab fuel (Z.of_nat n) hOp wIns wLoss delta1 delta2 rs ks swm outs ord e (m, basis_index basis, y) r R rk = Ok o) by (rewrite <- I3; exact Ef).
    rewrite Forall_forall in I4. eapply (win_rank6 tOpIn iE psi1 e Hhole (m, basis_index basis, y)); [|exact Hr'|apply I4; exact Hrk|exact Ef'].
    exists basis, m, y. auto. }
  constructor; cbn [wi_tbig wi_ex wi_rk wi_gs]; auto.
  - rewrite map_length. auto.
  - apply Forall_forall. intros rk Hrk. apply in_map_iff in Hrk as (o & <- & Hi). apply In_nth_error in Hi as (r & Er). apply (Hall r o Er).
  - rewrite map_length. auto.
  - exists (win_collect iE tIn (map snd l) gs). split.
    + rewrite I6. clear. induction R; simpl; congruence.
    + intros t i tO iw wIn tOut Hdone E1 E2 E4 HtO. unfold win_collect.
      rewrite (fold_left_concat (fun gs iv => g4set_rows gs iE tIn (fst iv) (snd iv))).
      destruct (collect_cases iE tIn (concat (map snd l)) gs i t tOut iw) as [[Hn Eg]|(-> & -> & rows & Hin & Eg)].
      * cbv zeta in Eg. rewrite Eg. destruct Hdone as [Hdone|[-> ->]]; [eapply I7; eauto|]. exfalso. apply Hn. split; [auto|]. split; [auto|].
        assert (Hiw : (iw < length wIns)%nat) by (apply nth_error_Some; congruence).
        destruct (jobs_partition (length wIns) R iw HR Hiw) as (r & Hr' & Hj).
        destruct (nth_error l r) as [o|] eqn:Er; [|apply nth_error_None in Er; lia].
        destruct (Hall r o Er) as (_ & _ & Hj' & _). specialize (Hj' iw Hj).
        rewrite concat_map. apply in_concat. exists (map fst (snd o)). split; [|auto]. rewrite map_map.
        apply in_map_iff. exists o. split; [auto|]. eapply nth_error_In; eauto.
      * cbv zeta in Eg. rewrite Eg. apply in_concat in Hin as (g & Hg & Hin). apply in_map_iff in Hg as (o & <- & Ho').
        apply In_nth_error in Ho' as (r & Er). destruct (Hall r o Er) as (_ & _ & _ & Hrows). destruct (Hrows iw rows Hin) as (HL & wIn' & Ew & HF).
        assert (wIn' = wIn) by congruence. subst wIn'. rewrite Forall_forall in HF.
        replace tO with tOpIn by congruence. apply HF. apply nth_In. lia.
Qed.
Lemma gs6_ext (P Q : nat -> nat -> Prop) gs : (forall t i, (i < length es)%nat -> Q t i -> P t i) -> gs6 P gs -> gs6 Q gs.
Proof. intros H HP t i tO iw wi tOut HQ E1 E2. apply (HP t i); auto. Qed.
Lemma win_run6 (ord : nat -> nat -> nat -> set_order) hg st : (forall t i, ord_ok pm (ord t i)) -> hg <> [] -> Forall (hdict_exact n hOp rs) hg ->
  win_run fsqrt bicgstab fuel (Z.of_nat n) hOp wIns wLoss delta1 delta2 rs ks swm tOpsIn outs psis es pm ord hg = Run st ->
  exists gs, wi_gs st = repeat gs (length hg) /\ gs6 (fun t i => True) gs.
Proof.
  intros Ho Hne Hhg E. set (R := length hg). assert (HR : (1 <= R)%nat) by (unfold R; destruct hg; [congruence|simpl; lia]).
  pose (inv0 := fun (done : nat -> nat -> Prop) (st : win_state) => hs_ok n hOp rs pm (wi_ex st) /\ length (wi_ex st) = R /\ Forall rank6 (wi_rk st) /\ length (wi_rk st) = R /\
     exists gs, wi_gs st = repeat gs R /\ gs6 done gs).
  unfold win_run in E.
  apply (fold_run_inv _ (fun pre st => inv0 (fun t i => In t (map fst pre)) st)) in E.
  - destruct E as (_ & _ & _ & _ & gs & Eg & Hg). exists gs. split; [exact Eg|].
    intros t i tO iw wi tOut _ E1 E2. apply (Hg t i tO iw wi tOut); auto.
    apply nth_enumerate in E1. apply (in_map fst) in E1. auto.
  - intros pre [t tOp] post s s' El (H1 & H2 & H3 & H4 & gs & H5 & H6) Er. cbn [fst snd] in Er.
    assert (Et : nth_error tOpsIn t = Some tOp) by (apply enumerate_nth; rewrite El; apply in_or_app; right; left; auto).
    apply (fold_run_inv _ (fun pre2 st => win_inv6 R tOp pre2 (fun t' i => In t' (map fst pre) \/ (t' = t /\ In i pre2)) st)) in Er.
    + destruct Er as [I1 I1' I2 I3 I4 I5 (gs' & I6 & I7)]. split; [auto|]. split; [auto|]. split; [auto|]. split; [auto|]. exists gs'. split; [auto|].
      apply (fun H => gs6_ext _ _ gs' H I7); intros t' i Hi Hq.
      rewrite map_app, in_app_iff in Hq. simpl in Hq. destruct Hq as [Hq|[<-|[]]]; [left; auto|right]. split; [auto|]. apply in_seq. lia.
    + intros pre2 iE post2 s1 s2 El2 HI Es. destruct (seq_split _ _ _ _ El2) as [_ Epre]. rewrite Epre in HI |- *.
      apply (win_step6 R (ord t iE) t tOp _ s1 iE s2 HR (Ho t iE) Et HI) in Es.
      destruct Es as [I1 I1' I2 I3 I4 I5 (gs' & I6 & I7)]. constructor; auto. exists gs'. split; [auto|].
      apply (fun H => gs6_ext _ _ gs' H I7); intros t' i _ Hq. rewrite in_app_iff in Hq. simpl in Hq. intuition.
    + constructor; cbn [wi_tbig wi_ex wi_rk wi_gs]; auto; [apply cache_ok_nil|reflexivity|]. exists gs. split; [auto|].
      apply (fun H => gs6_ext _ _ gs H H6); intros t' i _ Hq. simpl in Hq. tauto.
  - unfold inv0. cbn [wi_tbig wi_ex wi_rk wi_gs]. rewrite !map_length. split; [|split; [auto|split; [|split; [auto|]]]].
    + split; [apply Forall_forall; intros x Hx; apply in_map_iff in Hx as (? & <- & _); apply exact_nil|]. intros _. clear. induction hg; simpl; [constructor|auto].
    + apply Forall_forall. intros x Hx. apply in_map_iff in Hx as (hx & <- & Hx). rewrite Forall_forall in Hhg. split; [|apply Hhg; auto].
      exists []. split; [reflexivity|]. intros k col Ek. discriminate.
    + exists (g4zeros (length wLoss)). split; [unfold R; clear; induction hg; simpl; congruence|]. intros t i tO iw wi tOut [].
Qed.
End Win.

Section HB.
Variable pm : pmode.
Hypothesis Hpm : pm = Serial \/ pm = HBuild.
Definition gs64 (done : nat -> nat -> nat -> nat -> Prop) (gs : garr4 F) : Prop :=
  forall tIn iE tOpIn iw wIn tOut, done tIn iE iw tOut -> nth_error tOpsIn tIn = Some tOpIn -> (iE < length es)%nat ->
    nth_error wIns iw = Some wIn -> (tOut < M)%nat -> krow6 tOpIn iE wIn (gs iE tIn tOut iw).
Record hb_inv6 (tOpIn : op_t F) (pre : list nat) (done : nat -> nat -> nat -> nat -> Prop) (st : hb4_state) : Prop := {
  h6_tb : cache_ok n tOpIn swm rs (h4_tbig st); h6_at : tb_at tOpIn pre (h4_tbig st);
  h6_ex : hs_ok n hOp rs pm (h4_ex st); h6_ne : h4_ex st <> [];
  h6_heap : heap_st (h4_heap st); h6_gr : hs_ok n hOp rs pm (h4_gr st); h6_grne : h4_gr st <> [];
  h6_gs : exists g0 rest, h4_gs st = g0 :: rest /\ gs64 done g0 }.
Lemma gs64_ext (P Q : nat -> nat -> nat -> nat -> Prop) gs : (forall t i w o, (i < length es)%nat -> (w < length wIns)%nat -> (o < M)%nat -> Q t i w o -> P t i w o) -> gs64 P gs -> gs64 Q gs.
Proof. intros H HP t i tO iw wi tOut HQ E1 E2 E3 E4. apply (HP t i tO iw wi tOut); auto. apply H; auto. apply nth_error_Some. congruence. Qed.
Lemma hb4_out6 (ord : nat -> set_order) tIn tOpIn psi1 e iE iw wIn psi2 pre done st to st' : ord_ok pm ord ->
  nth_error tOpsIn tIn = Some tOpIn -> nth_error wIns iw = Some wIn -> hole tOpIn iE e psi1 -> is_psi2 psi1 e wIn psi2 ->
  hb_inv6 tOpIn pre done st -> snd to = op0 -> (fst to < M)%nat ->
  hb4_out fsqrt fuel (Z.of_nat n) hOp wLoss delta2 rs ks swm outs pm ord e psi2 iE tIn iw st to = Run st' ->
  hb_inv6 tOpIn pre (fun t i w o => done t i w o \/ (t = tIn /\ i = iE /\ w = iw /\ o = fst to)) st'.
Proof.
  intros Ho Et Ew Hh H2 [I1 I1' I2 I3 I4 I5 I6 (g0 & rest & I7 & I8)] Eto Lto E. unfold hb4_out in E. rewrite Eto in E.
  assert (Hv2 := is_psi2_valid _ _ _ _ H2). pose proof (out_canon (h4_heap st) (fst to) psi2 I4 Hv2 Lto) as HO.
  destruct (out_state _ _ _ _ _ _ _ _ _) as [[[hp' p3] nrm]|] eqn:Eo; [|discriminate]. cbn [all_ranks rbind] in E.
  destruct (cn psi2) as [[p' nrm']|] eqn:Ecn; [|contradiction]. destruct HO as (Hhp & <- & HP & Hv3).
  destruct (gg_any fsqrt n hOp rs Hw Hr fuel Hf wLoss delta2 ks swm pm ord e p3 (h4_gr st) Hpm Ho Hv3 I5 I6) as (rest' & EG & LG & HG).
  set (out := getGreen _ _ _ _ _ _ _ _ _ _ _ _ _ _ _) in *. clearbody out.
  destruct (together (map snd out)) as [gl|] eqn:Etg; [|discriminate]. cbn [rbind] in E. injection E as <-.
  apply together_run in Etg. rewrite EG in Etg. destruct gl as [|g gl]; [discriminate|]. simpl in Etg. injection Etg as Eg Erest.
  fold gv in Eg. rewrite (gv_perm e p3 p' Hv3 HP) in Eg.
  constructor; cbn [h4_tbig h4_ex h4_heap h4_gr h4_gs]; auto.
  - intros C. apply map_eq_nil in C. rewrite C in LG. simpl in LG. destruct (h4_gr st); [congruence|discriminate].
  - rewrite I7. cbn [combine map fst snd]. eexists. eexists. split; [reflexivity|].
    intros t i tO w wi tOut Hdone E1 E2 E4 HtO. unfold g4set.
    destruct (Nat.eqb_spec i iE), (Nat.eqb_spec t tIn), (Nat.eqb_spec tOut (fst to)), (Nat.eqb_spec w iw); simpl;
      try (destruct Hdone as [Hdone|(? & ? & ? & ?)]; [eapply I8; eauto|exfalso; congruence]).
    subst. replace tO with tOpIn by congruence. replace wi with wIn by congruence.
    exists e, psi1, psi2, p', nrm, g. auto.
Qed.
Lemma hb4_energy6 (ord : nat -> set_order) tIn tOpIn psi1 e sys iE iw wIn pre done st st' : ord_ok pm ord ->
  nth_error tOpsIn tIn = Some tOpIn -> nth_error wIns iw = Some wIn -> hole tOpIn iE e psi1 -> sys6 psi1 sys ->
  hb_inv6 tOpIn pre done st ->
  hb4_energy fsqrt bicgstab fuel (Z.of_nat n) hOp wIns wLoss delta1 delta2 rs ks swm outs pm ord e sys iE tIn st iw = Run st' ->
  hb_inv6 tOpIn pre (fun t i w o => done t i w o \/ (t = tIn /\ i = iE /\ w = iw)) st'.
Proof.
  intros Ho Et Ew Hh Hsys HI E. unfold hb4_energy in E.
  assert (Ew' : nth_res wIns iw = Ok wIn) by (unfold nth_res; rewrite Ew; auto). rewrite Ew' in E. cbn [bind] in E.
  destruct (psi2_at bicgstab sys wIn delta1 e) as [psi2|] eqn:E2; [|discriminate]. cbn [all_ranks rbind] in E. apply (sys6_psi2 psi1) in E2; auto.
  apply (fold_run_inv _ (fun pr st => hb_inv6 tOpIn pre (fun t i w o => done t i w o \/ (t = tIn /\ i = iE /\ w = iw /\ In o (map fst pr))) st)) in E.
  - destruct E as [I1 I1' I2 I3 I4 I5 I6 (g0 & rest & I7 & I8)]. constructor; auto. exists g0, rest. split; [auto|].
    apply (fun H => gs64_ext _ _ g0 H I8). intros t i w o _ _ Lo Hdone. destruct Hdone as [|(? & ? & ?)]; [auto|right].
    split; [auto|]. split; [auto|]. split; [auto|]. unfold enumerate, outs. rewrite repeat_length.
    assert (G : forall k s, map fst (combine (seq s k) (repeat op0 k)) = seq s k) by (clear; induction k; intros; simpl; f_equal; auto).
    rewrite G. apply in_seq. lia.
  - intros pr to post s1 s2 El HI1 Es.
    assert (Hi : In to (enumerate outs)) by (rewrite El; apply in_or_app; right; left; auto).
    assert (Hto : snd to = op0) by (apply (repeat_spec M op0); fold outs; apply enum_snd; auto).
    assert (Lto : (fst to < M)%nat).
    { destruct to as [t o]. apply enumerate_nth in Hi. cbn [fst]. assert (X : (t < length outs)%nat) by (apply nth_error_Some; congruence). unfold outs in X. rewrite repeat_length in X. auto. }
    pose proof (hb4_out6 ord tIn tOpIn psi1 e iE iw wIn psi2 pre _ s1 to s2 Ho Et Ew Hh E2 HI1 Hto Lto Es) as Es'. clear Es. rename Es' into Es.
    destruct Es as [I1 I1' I2 I3 I4 I5 I6 (g0 & rest & I7 & I8)]. constructor; auto. exists g0, rest. split; [auto|].
    apply (fun H => gs64_ext _ _ g0 H I8); intros t i w o _ _ _ Hq. rewrite map_app, in_app_iff in Hq. simpl in Hq. intuition.
  - destruct HI as [I1 I1' I2 I3 I4 I5 I6 (g0 & rest & I7 & I8)]. constructor; auto. exists g0, rest. split; [auto|].
    apply (fun H => gs64_ext _ _ g0 H I8); intros t i w o _ _ _ Hq. simpl in Hq. tauto.
Qed.
Lemma hb4_step6 (ord : nat -> set_order) tIn tOpIn done st iE st' : ord_ok pm ord -> nth_error tOpsIn tIn = Some tOpIn ->
  hb_inv6 tOpIn (seq 0 iE) done st ->
  hb4_step fsqrt bicgstab fuel (Z.of_nat n) hOp wIns wLoss delta1 delta2 rs ks swm outs psis es pm ord tIn tOpIn st iE = Run st' ->
  hb_inv6 tOpIn (seq 0 iE ++ [iE]) (fun t i w o => done t i w o \/ (t = tIn /\ i = iE)) st'.
Proof.
  intros Ho Et HI E. unfold hb4_step in E. cbv zeta in E.
  assert (Hwt : wf_op n tOpIn) by (rewrite Forall_forall in HtIn; apply HtIn; eapply nth_error_In; eauto).
  destruct HI as [I1 I1' I2 I3 I4 I5 I6 (g0 & rest & I7 & I8)].
  destruct (core_hole _ _ _ _ _ _ _ _) as [[[tb e] psi1]|] eqn:Ec; [|discriminate]. cbn [all_ranks rbind] in E.
  assert (Hhole : hole tOpIn iE e psi1) by (exists (h4_tbig st), tb; auto).
  assert (Hat : tb_at tOpIn (seq 0 iE ++ [iE]) tb).
  { unfold tb_at in *. rewrite fold_res_app, I1'. cbn [bind fold_res]. unfold tb_step. rewrite Ec. reflexivity. }
  apply core6 in Ec as (Htb & Hs1); auto.
  destruct (ebh_any6 pm ord psi1 (h4_ex st) Hpm Ho Hs1 I2 I3) as (Le & Hex & Hm).
  set (ebh := expand_basis_and_hamiltonian _ _ _ _ _ _ _ _ _) in *. clearbody ebh.
  match type of E with rbind (together (map ?f0 _)) _ = _ => set (f := f0) in E end.
  destruct (together (map f ebh)) as [l|] eqn:Etg; [|discriminate]. cbn [rbind] in E. apply together_run in Etg.
  destruct l as [|sys l]; [discriminate|]. destruct ebh as [|ob ebh]; [discriminate|]. simpl in Etg. injection Etg as Esys _.
  unfold f in Esys. destruct (snd ob) as [[m idx]|] eqn:Es; [|discriminate]. cbn [bind] in Esys.
  destruct (Hm ob m idx (or_introl eq_refl) Es) as (basis & -> & HE & HC & HRm).
  destruct (psi_vec (basis_index basis) psi1) as [y|] eqn:Ey; [|discriminate]. cbn [bind] in Esys. injection Esys as <-.
  assert (Hsys : sys6 psi1 (m, basis_index basis, y)) by (exists basis, m, y; auto).
  apply (fold_run_inv _ (fun pr st => hb_inv6 tOpIn (seq 0 iE ++ [iE]) (fun t i w o => done t i w o \/ (t = tIn /\ i = iE /\ In w pr)) st)) in E.
  - destruct E as [J1 J1' J2 J3 J4 J5 J6 (g1 & rest1 & J7 & J8)]. constructor; auto. exists g1, rest1. split; [auto|].
    apply (fun H => gs64_ext _ _ g1 H J8). intros t i w o _ Lw _ Hdone. destruct Hdone as [|(? & ?)]; [auto|right].
    split; [auto|]. split; [auto|]. apply in_seq. lia.
  - intros pr iw post s1 s2 El HI1 Ex. assert (Hiw : In iw (seq 0 (length wIns))) by (rewrite El; apply in_or_app; right; left; auto). apply in_seq in Hiw.
    destruct (nth_error wIns iw) as [wIn|] eqn:Ew; [|apply nth_error_None in Ew; lia].
    pose proof (hb4_energy6 ord tIn tOpIn psi1 e _ iE iw wIn _ _ s1 s2 Ho Et Ew Hhole Hsys HI1 Ex) as Ex'. clear Ex. rename Ex' into Ex.
    destruct Ex as [J1 J1' J2 J3 J4 J5 J6 (g1 & rest1 & J7 & J8)]. constructor; auto. exists g1, rest1. split; [auto|].
    apply (fun H => gs64_ext _ _ g1 H J8); intros t i w o _ _ _ Hq. rewrite in_app_iff in Hq. simpl in Hq. intuition.
  - constructor; cbn [h4_tbig h4_ex h4_heap h4_gr h4_gs]; auto; [discriminate|]. exists g0, rest. split; [auto|].
    apply (fun H => gs64_ext _ _ g0 H I8); intros t i w o _ _ _ Hq. simpl in Hq. tauto.
Qed.
Lemma hb4_run6 (ord : nat -> nat -> nat -> set_order) hg st : (forall t i, ord_ok pm (ord t i)) -> hg <> [] -> hs_ok n hOp rs pm hg ->
  hb4_run fsqrt bicgstab fuel (Z.of_nat n) hOp wIns wLoss delta1 delta2 rs ks swm tOpsIn outs psis es pm ord hg = Run st ->
  exists g0 rest, h4_gs st = g0 :: rest /\ gs6 (fun t i => True) g0.
Proof.
  intros Ho Hne Hhg E.
  pose (inv0 := fun (done : nat -> nat -> nat -> nat -> Prop) (st : hb4_state) => hs_ok n hOp rs pm (h4_ex st) /\ h4_ex st <> [] /\ heap_st (h4_heap st) /\ hs_ok n hOp rs pm (h4_gr st) /\ h4_gr st <> [] /\
     exists g0 rest, h4_gs st = g0 :: rest /\ gs64 done g0).
  unfold hb4_run in E.
  apply (fold_run_inv _ (fun pre st => inv0 (fun t i _ _ => In t (map fst pre)) st)) in E.
  - destruct E as (_ & _ & _ & _ & _ & gs & rest & Eg & Hg). exists gs, rest. split; [exact Eg|].
    intros t i tO iw wi tOut _ E1 E2. apply (Hg t i tO iw wi tOut); auto.
    apply nth_enumerate in E1. apply (in_map fst) in E1. auto.
  - intros pre [t tOp] post s s' El (H1 & H2 & H3 & H4 & H5 & gs & rest & H6 & H7) Er. cbn [fst snd] in Er.
    assert (Et : nth_error tOpsIn t = Some tOp) by (apply enumerate_nth; rewrite El; apply in_or_app; right; left; auto).
    apply (fold_run_inv _ (fun pre2 st => hb_inv6 tOp pre2 (fun t' i _ _ => In t' (map fst pre) \/ (t' = t /\ In i pre2)) st)) in Er.
    + destruct Er as [I1 I1' I2 I3 I4 I5 I6 (g0 & rest0 & I7 & I8)]. split; [auto|]. split; [auto|]. split; [auto|]. split; [auto|]. split; [auto|]. exists g0, rest0. split; [auto|].
      apply (fun H => gs64_ext _ _ g0 H I8); intros t' i w o Hi _ _ Hq.
      rewrite map_app, in_app_iff in Hq. simpl in Hq. destruct Hq as [Hq|[<-|[]]]; [left; auto|right]. split; [auto|]. apply in_seq. lia.
    + intros pre2 iE post2 s1 s2 El2 HI Es. destruct (seq_split _ _ _ _ El2) as [_ Epre]. rewrite Epre in HI |- *.
      apply (hb4_step6 (ord t iE) t tOp _ s1 iE s2 (Ho t iE) Et HI) in Es.
      destruct Es as [I1 I1' I2 I3 I4 I5 I6 (g0 & rest0 & I7 & I8)]. constructor; auto. exists g0, rest0. split; [auto|].
      apply (fun H => gs64_ext _ _ g0 H I8); intros t' i w o _ _ _ Hq. rewrite in_app_iff in Hq. simpl in Hq. intuition.
    + constructor; cbn [h4_tbig h4_ex h4_heap h4_gr h4_gs]; auto; [apply cache_ok_nil|reflexivity|]. exists gs, rest. split; [auto|].
      apply (fun H => gs64_ext _ _ gs H H7); intros t' i w o _ _ _ Hq. simpl in Hq. tauto.
  - unfold inv0. cbn [h4_tbig h4_ex h4_heap h4_gr h4_gs]. split; [|split; [|split; [|split; [auto|split; [auto|]]]]].
    + split; [apply Forall_forall; intros x Hx; apply in_map_iff in Hx as (? & <- & _); apply exact_nil|]. intros _. clear. induction hg; simpl; [constructor|auto].
    + destruct hg; [congruence|discriminate].
    + exists []. split; [reflexivity|]. intros k col Ek. discriminate.
    + destruct hg as [|h0 hg']; [congruence|]. exists (g4zeros (length wLoss)), (map (fun _ => g4zeros (length wLoss)) hg'). split; [reflexivity|]. intros t i tO iw wi tOut [].
Qed.
End HB.
End LRIXS6.

Section Top6.
Context {F : ofield}.
Lemma rixs_rows6 (fsqrt : F -> F) bicgstab n hOp rs fuel wIns wLoss delta1 delta2 ks swm tOpsIn psis es op0 :
  spectra_input n hOp rs (op0 :: tOpsIn) psis -> no_small n op0 swm rs -> (2 ^ n < fuel)%nat ->
  forall ops (ord : nat -> nat -> nat -> set_order) hg pm r gs, (forall t i q l, Permutation (ord t i q l) l) ->
  Forall (hdict_exact n hOp rs) hg -> hg <> [] ->
  pm <> ROther -> (pm = RHBuild -> r = 0%nat /\ NoDup (flat_map dkeys hg)) ->
  nth_error (getRIXSmap fsqrt bicgstab fuel (Z.of_nat n) hOp wIns wLoss delta1 delta2 rs ks swm tOpsIn (op0 :: ops) psis es ord hg pm) r = Some (Ok gs) ->
  gs6 fsqrt bicgstab n hOp rs fuel wIns wLoss delta1 delta2 ks swm tOpsIn psis es op0 (S (length ops)) (fun _ _ => True) gs.
Proof.
  intros Hin Hno Hf ops ord hg pm r gs Ho Hhg Hne Hother Hr0 E. destruct Hin as (Hw & Hr & Hts & Hps). pose proof (Forall_inv Hts) as Hop0. pose proof (Forall_inv_tail Hts) as HtIn.
  rewrite (getRIXSmap_same fsqrt bicgstab fuel (Z.of_nat n) hOp wIns wLoss delta1 delta2 rs ks swm tOpsIn psis es op0 ops (repeat op0 (length ops))) in E by (rewrite repeat_length; auto).
  change (op0 :: repeat op0 (length ops)) with (repeat op0 (S (length ops))) in E. set (M := S (length ops)) in *.
  unfold getRIXSmap in E. destruct pm; try congruence.
  - rewrite nth_error_map in E. match type of E with option_map _ ?y = _ => destruct y as [[i x]|] eqn:Ei end; cbn [option_map] in E; [|discriminate E]. cbn [option_map fst snd] in E.
    assert (Hx : In x hg) by (apply nth_error_In in Ei; apply in_combine_r in Ei; auto).
    match type of E with Some (hd _ (match ?y with _ => _ end)) = _ => destruct y as [st|l] eqn:Er end; [|destruct l; discriminate].
    apply (hb4_run6 fsqrt bicgstab n hOp rs Hw Hr fuel Hf wIns wLoss delta1 delta2 ks swm tOpsIn psis es HtIn Hps op0 Hop0 Hno M Serial) in Er;
      [|left; auto|intros t q Hc; discriminate Hc|intros Hc; discriminate Hc|split; [apply Forall_cons; [|apply Forall_nil]; rewrite Forall_forall in Hhg; apply Hhg; exact Hx|intros Hc; discriminate Hc]].
    destruct Er as (g0 & rest & E1 & G). rewrite E1 in E. cbn [map hd] in E. injection E as <-. exact G.
  - destruct (Hr0 eq_refl) as [-> Hnd]. match type of E with nth_error (match ?y with _ => _ end) _ = _ => destruct y as [st|l] eqn:Er end; [|destruct l; discriminate].
    apply (hb4_run6 fsqrt bicgstab n hOp rs Hw Hr fuel Hf wIns wLoss delta1 delta2 ks swm tOpsIn psis es HtIn Hps op0 Hop0 Hno M HBuild) in Er;
      [|right; auto|intros t q Hc; apply Ho|exact Hne|split; auto].
    destruct Er as (g0 & rest & E1 & G). rewrite E1 in E. cbn [map nth_error] in E. injection E as <-. exact G.
  - match type of E with nth_error (match ?y with _ => _ end) _ = _ => destruct y as [st|l] eqn:Er end; [|rewrite nth_error_map in E; destruct (nth_error l r); discriminate].
    apply (win_run6 fsqrt bicgstab n hOp rs Hw Hr fuel Hf wIns wLoss delta1 delta2 ks swm tOpsIn psis es HtIn Hps op0 Hop0 Hno M Serial) in Er;
      [|left; auto|intros t q Hc; discriminate Hc|exact Hne|exact Hhg].
    destruct Er as (g0 & E1 & G). rewrite E1, map_repeat in E. apply nth_error_In in E. apply repeat_spec in E. injection E as <-. exact G.
  - match type of E with nth_error (match ?y with _ => _ end) _ = _ => destruct y as [st|l] eqn:Er end; [|rewrite nth_error_map in E; destruct (nth_error l r); discriminate].
    apply (win_run6 fsqrt bicgstab n hOp rs Hw Hr fuel Hf wIns wLoss delta1 delta2 ks swm tOpsIn psis es HtIn Hps op0 Hop0 Hno M HBuild) in Er;
      [|right; auto|intros t q Hc; apply Ho|exact Hne|exact Hhg].
    destruct Er as (g0 & E1 & G). rewrite E1, map_repeat in E. apply nth_error_In in E. apply repeat_spec in E. injection E as <-. exact G.
Qed.
Lemma rixs_determined (fsqrt : F -> F) bicgstab n hOp rs fuel wIns wLoss delta1 delta2 ks swm tOpsIn psis es op0 :
  spectra_input n hOp rs (op0 :: tOpsIn) psis -> no_small n op0 swm rs -> (2 ^ n < fuel)%nat ->
  forall ops ops' (ord ord' : nat -> nat -> nat -> set_order) hg hg' pm pm' r r' gs gs',
  (forall t i q l, Permutation (ord t i q l) l) -> (forall t i q l, Permutation (ord' t i q l) l) ->
  Forall (hdict_exact n hOp rs) hg -> hg <> [] -> Forall (hdict_exact n hOp rs) hg' -> hg' <> [] ->
  pm <> ROther -> (pm = RHBuild -> r = 0%nat /\ NoDup (flat_map dkeys hg)) ->
  pm' <> ROther -> (pm' = RHBuild -> r' = 0%nat /\ NoDup (flat_map dkeys hg')) ->
  nth_error (getRIXSmap fsqrt bicgstab fuel (Z.of_nat n) hOp wIns wLoss delta1 delta2 rs ks swm tOpsIn (op0 :: ops) psis es ord hg pm) r = Some (Ok gs) ->
  nth_error (getRIXSmap fsqrt bicgstab fuel (Z.of_nat n) hOp wIns wLoss delta1 delta2 rs ks swm tOpsIn (op0 :: ops') psis es ord' hg' pm') r' = Some (Ok gs') ->
  forall iE tIn tOut iw, (iE < length es)%nat -> (tIn < length tOpsIn)%nat -> (tOut < S (length ops))%nat -> (tOut < S (length ops'))%nat -> (iw < length wIns)%nat ->
    gs iE tIn tOut iw = gs' iE tIn tOut iw.
Proof.
  intros Hin Hno Hf ops ops' ord ord' hg hg' pm pm' r r' gs gs' Ho Ho' Hhg Hne Hhg' Hne' Hm Hb Hm' Hb' E E' iE tIn tOut iw L1 L2 L3 L3' L4.
  destruct (nth_error tOpsIn tIn) as [tOpIn|] eqn:E3; [|apply nth_error_None in E3; lia]. destruct (nth_error wIns iw) as [wIn|] eqn:E4; [|apply nth_error_None in E4; lia].
  pose proof (rixs_rows6 _ _ _ _ _ _ _ _ _ _ _ _ _ _ _ _ Hin Hno Hf _ _ _ _ _ _ Ho Hhg Hne Hm Hb E tIn iE tOpIn iw wIn tOut I E3 L1 E4 L3) as K.
  pose proof (rixs_rows6 _ _ _ _ _ _ _ _ _ _ _ _ _ _ _ _ Hin Hno Hf _ _ _ _ _ _ Ho' Hhg' Hne' Hm' Hb' E' tIn iE tOpIn iw wIn tOut I E3 L1 E4 L3') as K'.
  destruct Hin as (Hw & Hr & Hts & Hps). eapply krow6_fun; [..|exact K|exact K']; eauto.
Qed.
End Top6.
