(* getSpectra in mode H_build *)
From Coq Require Import Lia List Bool Permutation Field Ring.
From Verif Require Import M_Prelude M_Scalar M_PSR M_Ladder M_State M_Mpi M_Hamiltonian M_Lanczos M_Spectra S_Fock S_Ham S_Ops S_Green
  L_PSR L_Ladder L_Scalar L_Dict L_Sum L_Fock L_State L_ApplyOp L_Ops L_FockP L_Ham L_Expand L_Green L_Green2 L_Green3 L_Green4 L_Spectra L_Spectra2 L_Spectra3 L_Spectra4.
Import ListNotations.
Local Open Scope cx_scope.

Lemma enumerate_split {A} (l : list A) pre a post : enumerate l = pre ++ a :: post -> fst a = length pre /\ nth_error l (length pre) = Some (snd a).
Proof.
  unfold enumerate. assert (G : forall (l : list A) k pre, combine (seq k (length l)) l = pre ++ a :: post -> fst a = (k + length pre)%nat /\ nth_error l (length pre) = Some (snd a)).
  { clear. induction l as [|b l IH]; intros k pre E; [destruct pre; discriminate|]. cbn [length seq combine] in E.
    destruct pre as [|p pre]; simpl in E; injection E as E1 E2; [subst a; simpl; split; [lia|auto]|].
    apply IH in E2 as [H1 H2]. simpl. split; [lia|auto]. }
  apply (G l 0%nat).
Qed.
Lemma seq_split m pre a post : seq 0 m = pre ++ a :: post -> a = length pre.
Proof.
  intros E. assert (H : nth (length pre) (seq 0 m) 0%nat = a) by (rewrite E, app_nth2, Nat.sub_diag by lia; auto).
  rewrite seq_nth in H; [auto|]. rewrite <- (seq_length m 0), E, app_length. simpl. lia.
Qed.
Lemma combine_hd {A B} (f : A * B -> A) (l : list A) (m : list B) a b l' m' : l = a :: l' -> m = b :: m' -> hd a (map f (combine l m)) = f (a, b).
Proof. intros -> ->. reflexivity. Qed.
Lemma oks_repeat {A} (a : A) k : oks (repeat (Ok a) k) = repeat a k.
Proof. induction k; simpl; [auto|]. unfold oks in *. simpl. congruence. Qed.

Section LSpectra5.
Context {F : ofield}.
Add Field Ff : (f_field F).
Add Ring Cring : (@c_ring F).
Add Field Cf : (@c_field F).
Variable fsqrt : F -> F.
Variable n : nat.
Variable op : op_t F.
Variable rs : option restrictions_t.
Hypothesis Hw : wf_op n op.
Hypothesis Hr : wf_restr rs.
Variable fuel : nat.
Hypothesis Hf : (2 ^ n < fuel)%nat.
Variable w : list F.
Variable delta : F.
Hypothesis Hd : delta <> 0%F.
Variable ks : Z.
Variable swm : F.
Variable tOps : list (op_t F).
Hypothesis HT : Forall (wf_op n) tOps.
Variable psis : list (psi_t F).
Hypothesis HP : Forall (valid_psi n) psis.
Variable es : list F.
Notation GV := (gval fsqrt n op rs fuel w delta ks swm).
Notation FG := (free_green w delta).

Definition prep (tOp : op_t F) (tb : cache_t F) (i : nat) : res (cache_t F * F * psi_t F * F) :=
    do psi <- nth_res psis i;
    do e <- nth_res es i;
    let (tb, r) := applyOp (Z.of_nat n) tOp psi swm rs (Some tb) in
    do psiR <- r;
    do (psiR, normalization) <- normalise fsqrt psiR;
    Ok (match tb with Some c => c | None => [] end, e, psiR, normalization).
(* the transition state: cached application *)
Definition prepared (tOp : op_t F) (i : nat) (e : F) (psiR psiN : psi_t F) (nrm : F) : Prop :=
  nth_error es i = Some e /\ normalise fsqrt psiR = Ok (psiN, nrm) /\ valid_psi n psiR /\ valid_psi n psiN /\
  (forall c, length c = n -> In (key c) (dkeys psiR) -> allowed_opt rs c) /\
  exists psi cache, nth_error psis i = Some psi /\ valid_psi n psi /\ coherent n tOp swm rs cache /\
    snd (applyOp (Z.of_nat n) tOp psi swm rs (Some cache)) = Ok psiR.
Lemma prep_ok tOp tb i tb' e psiN nrm : wf_op n tOp -> coherent n tOp swm rs tb -> prep tOp tb i = Ok (tb', e, psiN, nrm) ->
  coherent n tOp swm rs tb' /\ exists psiR, prepared tOp i e psiR psiN nrm.
Proof.
  intros Ht Hc E. unfold prep in E. destruct (nth_res psis i) as [psi|] eqn:Ep; [|discriminate]. destruct (nth_res es i) as [e'|] eqn:Ee; [|discriminate]. cbn [bind] in E.
  unfold nth_res in Ep, Ee. destruct (nth_error psis i) as [psi'|] eqn:Ep'; [|discriminate]. injection Ep as ->.
  destruct (nth_error es i) as [e''|] eqn:Ee'; [|discriminate]. injection Ee as ->.
  assert (Hv : valid_psi n psi) by (rewrite Forall_forall in HP; apply HP; eapply nth_error_In; eauto).
  destruct (applyOp_cached n tOp psi swm rs tb Ht Hv Hc) as (tb1 & psiR & EA & Hc1 & _ & _ & HvR & Hok & _).
  rewrite EA in E. cbn [bind] in E. destruct (normalise fsqrt psiR) as [[psiN' nrm']|] eqn:En; [|discriminate]. cbn [bind] in E.
  injection E as <- <- <- <-. split; [auto|]. exists psiR. split; [auto|]. split; [auto|]. split; [auto|]. split.
  { apply normalise_cases in En as (_ & -> & _). apply scale_valid; auto. }
  split.
  { intros c Lc Hi. apply Hok in Hi as (d & Ld & Ek & Ho). apply key_inj in Ek; [|congruence]. subst. apply okr_allowed; auto. }
  exists psi, tb. rewrite EA. auto.
Qed.

(* the entry (i, t) on all ranks *)
Definition entry_done (R t i : nat) (vals : list (vec F)) : Prop :=
  exists tOp e psiR psiN nrm g, nth_error tOps t = Some tOp /\ prepared tOp i e psiR psiN nrm /\ GV e psiN = Ok g /\
    vals = vmul (nrm * nrm)%F g :: repeat (vmul (nrm * nrm)%F (FG e psiN)) (R - 1).
Definition vals_at (st : hb_state) (i t : nat) : list (vec F) := map (fun gs : garr F => gs i t) (hb_gs st).
Definition good_st (R : nat) (st : hb_state) : Prop := good_hs n op rs (hb_hs st) /\ length (hb_hs st) = R /\ length (hb_gs st) = R.

Section Ord.
Variable ord : nat -> nat -> nat -> set_order.
Hypothesis Hord : forall t i q l, Permutation (ord t i q l) l.
Variable R : nat.
Hypothesis HR : (1 <= R)%nat.
Notation entry t tOp := (fun st i => hb_entry fsqrt fuel (Z.of_nat n) op w delta rs ks swm (ord t i) psis es t tOp st i).

Lemma hb_entry_cases t tOp st i : wf_op n tOp -> good_st R st -> coherent n tOp swm rs (hb_tbig st) ->
  match prep tOp (hb_tbig st) i with
  | Err x => entry t tOp st i = Stop (repeat x R)
  | Ok (tb', e, psiN, nrm) =>
      match GV e psiN with
      | Err x => exists others, entry t tOp st i = Stop (x :: others)
      | Ok g => exists hs', good_hs n op rs hs' /\ length hs' = R /\
          entry t tOp st i = Run (mkHB tb' hs'
            (map (fun gg => gset (fst gg) i t (snd gg)) (combine (hb_gs st) (vmul (nrm * nrm)%F g :: repeat (vmul (nrm * nrm)%F (FG e psiN)) (R - 1)))))
      end
  end.
Proof.
  intros Ht (HG & HL & HLg) Hc. unfold hb_entry. cbv zeta. rewrite HL. fold (prep tOp (hb_tbig st) i).
  destruct (prep tOp (hb_tbig st) i) as [[[[tb' e] psiN] nrm]|x] eqn:Ep; [|reflexivity].
  destruct (prep_ok tOp (hb_tbig st) i tb' e psiN nrm Ht Hc Ep) as (_ & psiR & _ & _ & _ & HvN & _).
  destruct (GG_hbuild fsqrt n op rs Hw Hr fuel Hf w delta ks swm (ord t i) e psiN (hb_hs st) HvN (Hord t i) HG) as (other & Hgo & Hlo & Hsnd & Hok & Hfree).
  { intros E. rewrite E in HL. simpl in HL. lia. }
  cbn [all_ranks rbind]. unfold GG in *. set (out := getGreen _ _ _ _ _ _ _ _ _ _ _ _ _ _ _) in *. rewrite HL in Hsnd.
  unfold together. rewrite Hsnd. destruct (GV e psiN) as [g|x] eqn:Eg.
  - rewrite (Hfree Hd eq_refl). cbn [forallb is_ok]. assert (Ef : forallb is_ok (repeat (Ok (FG e psiN)) (R - 1)) = true).
    { clear. induction (R - 1)%nat; simpl; auto. }
    rewrite Ef. cbn [rbind andb]. exists (map fst out). split; [auto|]. split; [rewrite map_length; lia|].
    f_equal. f_equal. change (oks (Ok g :: repeat (Ok (FG e psiN)) (R - 1))) with (g :: oks (repeat (Ok (FG e psiN)) (R - 1))). rewrite oks_repeat.
    assert (Er : repeat (vmul (nrm * nrm)%F (FG e psiN)) (R - 1) = map (vmul (nrm * nrm)%F) (repeat (FG e psiN) (R - 1))).
    { clear. induction (R - 1)%nat; simpl; congruence. }
    rewrite Er. change (?a :: map ?f ?l) with (map f (g :: l)).
    generalize (g :: repeat (FG e psiN) (R - 1)) as l. generalize (hb_gs st) as m. clear.
    induction m as [|a m IH]; intros [|b l]; simpl; auto. f_equal. apply IH.
  - cbn [forallb is_ok andb]. cbn [rbind map]. eauto.
Qed.

Lemma hb_entry_step t tOp st i st' : nth_error tOps t = Some tOp -> wf_op n tOp -> good_st R st -> coherent n tOp swm rs (hb_tbig st) ->
  entry t tOp st i = Run st' ->
  good_st R st' /\ coherent n tOp swm rs (hb_tbig st') /\ entry_done R t i (vals_at st' i t) /\
  (forall i' t', i' <> i \/ t' <> t -> vals_at st' i' t' = vals_at st i' t').
Proof.
  intros Hnt Ht HG Hc E. pose proof (hb_entry_cases t tOp st i Ht HG Hc) as H. cbv beta in E.
  destruct (prep tOp (hb_tbig st) i) as [[[[tb' e] psiN] nrm]|x] eqn:Ep; [|congruence].
  destruct (prep_ok tOp (hb_tbig st) i tb' e psiN nrm Ht Hc Ep) as (Hc' & psiR & Hp).
  destruct (GV e psiN) as [g|x] eqn:Eg; [|destruct H as (o & H); congruence].
  destruct H as (hs' & Hg' & Lh & E'). rewrite E' in E. injection E as <-. destruct HG as (_ & _ & Lg). cbn [hb_tbig hb_hs hb_gs].
  set (vals := vmul (nrm * nrm)%F g :: repeat (vmul (nrm * nrm)%F (FG e psiN)) (R - 1)).
  assert (Lv : length vals = R) by (unfold vals; cbn [length]; rewrite repeat_length; lia).
  split; [|split; [auto|split]].
  - split; [auto|]. split; [auto|]. cbn [hb_gs]. rewrite map_length, combine_length. fold vals. lia.
  - exists tOp, e, psiR, psiN, nrm, g. split; [auto|]. split; [auto|]. split; [auto|]. fold vals. unfold vals_at. cbn [hb_gs]. rewrite map_map.
    assert (LL : length (hb_gs st) = length vals) by lia. clear -LL. revert LL. generalize (hb_gs st) as m. clearbody vals.
    induction vals as [|v vals IH]; intros [|a m] LL; simpl in *; try lia; auto.
    f_equal; [|apply IH; lia]. unfold gset. rewrite !Nat.eqb_refl. reflexivity.
  - intros i' t' Hne. unfold vals_at. cbn [hb_gs]. rewrite map_map. fold vals.
    assert (LL : length (hb_gs st) = length vals) by lia. clear -LL Hne. revert LL. generalize (hb_gs st) as m. clearbody vals.
    induction vals as [|v vals IH]; intros [|a m] LL; simpl in *; try lia; auto.
    f_equal; [|apply IH; lia]. unfold gset. destruct (Nat.eqb_spec i' i), (Nat.eqb_spec t' t); simpl; auto. intuition congruence.
Qed.

Lemma hb_run_done st : hb_run fsqrt fuel (Z.of_nat n) op w delta rs ks swm ord psis es tOps R = Run st ->
  length (hb_gs st) = R /\ forall t i, (t < length tOps)%nat -> (i < length es)%nat -> entry_done R t i (vals_at st i t).
Proof.
  unfold hb_run. intros E.
  apply (fold_run_inv _ (fun pre st => good_st R st /\ forall t i, (t < length pre)%nat -> (i < length es)%nat -> entry_done R t i (vals_at st i t))) in E.
  - destruct E as [HG H]. split; [apply HG|]. intros t i Ht Hi. apply H; auto. unfold enumerate. rewrite combine_length, seq_length. lia.
  - intros pre [t tOp] post s s' El [HG Hdone] Es. cbn [fst snd] in Es. apply enumerate_split in El as [Et Hnt]. cbn [fst snd] in *.
    assert (Ht : wf_op n tOp) by (rewrite Forall_forall in HT; apply HT; eapply nth_error_In; eauto).
    rewrite <- Et in Hnt.
    apply (fold_run_inv _ (fun q st => good_st R st /\ coherent n tOp swm rs (hb_tbig st) /\
       (forall t' i, (t' < length pre)%nat -> (i < length es)%nat -> entry_done R t' i (vals_at st i t')) /\
       (forall i, (i < length q)%nat -> entry_done R t i (vals_at st i t)))) in Es.
    + destruct Es as (HG' & _ & H1 & H2). split; [auto|]. intros t' i Ht' Hi. rewrite app_length in Ht'. simpl in Ht'.
      destruct (Nat.eq_dec t' t) as [->|]; [apply H2; rewrite seq_length; auto|]. apply H1; auto. lia.
    + intros q i post' s1 s2 Eq (HG1 & Hc1 & H1 & H2) Ee. apply seq_split in Eq. subst i.
      destruct (hb_entry_step t tOp s1 (length q) s2 Hnt Ht HG1 Hc1 Ee) as (HG2 & Hc2 & Hnew & Hold).
      split; [auto|]. split; [auto|]. split.
      * intros t' i Ht' Hi. rewrite Hold by (right; lia). auto.
      * intros i Hi. rewrite app_length in Hi. simpl in Hi. destruct (Nat.eq_dec i (length q)) as [->|]; auto.
        rewrite Hold by auto. apply H2. lia.
    + split; [exact HG|]. cbn [hb_tbig hb_gs]. split; [intros k col C; discriminate|]. split; [exact Hdone|]. intros i Hi. simpl in Hi. lia.
  - cbn [hb_hs hb_gs]. split; [|intros t i Ht; simpl in Ht; lia]. split; [|cbn [hb_hs hb_gs]; rewrite !repeat_length; auto].
    cbn [hb_hs]. split.
    + apply Forall_forall. intros h Hh. apply repeat_spec in Hh. subst. apply exact_nil.
    + assert (E0 : forall k, flat_map dkeys (repeat ([] : hdict_t F) k) = []) by (clear; induction k; simpl; auto). rewrite E0. constructor.
Qed.
End Ord.

(* ---- rank 0 does not depend on the number of ranks ---- *)
Section Sim.
Variables ord ord' : nat -> nat -> nat -> set_order.
Hypothesis Hord : forall t i q l, Permutation (ord t i q l) l.
Hypothesis Hord' : forall t i q l, Permutation (ord' t i q l) l.
Variables R R' : nat.
Hypothesis HR : (1 <= R)%nat.
Hypothesis HR' : (1 <= R')%nat.
Definition same0 {A} (l l' : list A) : Prop := exists a m m', l = a :: m /\ l' = a :: m'.
Definition sim (st st' : hb_state) : Prop := good_st R st /\ good_st R' st' /\ hb_tbig st = hb_tbig st' /\ same0 (hb_gs st) (hb_gs st').
Definition rsim (P : hb_state -> Prop) (x x' : run hb_state) : Prop :=
  match x, x' with
  | Run st, Run st' => sim st st' /\ P st
  | Stop l, Stop l' => same0 l l'
  | _, _ => False
  end.
Lemma entry_sim t tOp st st' i : wf_op n tOp -> sim st st' -> coherent n tOp swm rs (hb_tbig st) ->
  rsim (fun s => coherent n tOp swm rs (hb_tbig s))
    (hb_entry fsqrt fuel (Z.of_nat n) op w delta rs ks swm (ord t i) psis es t tOp st i)
    (hb_entry fsqrt fuel (Z.of_nat n) op w delta rs ks swm (ord' t i) psis es t tOp st' i).
Proof.
  intros Ht (HG & HG' & Etb & (g0 & m & m' & Eg & Eg')) Hc.
  pose proof (hb_entry_cases ord Hord R HR t tOp st i Ht HG Hc) as H.
  pose proof (hb_entry_cases ord' Hord' R' HR' t tOp st' i Ht HG') as H'. rewrite <- Etb in H'. specialize (H' Hc). cbv beta in H, H'.
  destruct (prep tOp (hb_tbig st) i) as [[[[tb' e] psiN] nrm]|x] eqn:Ep.
  - destruct (prep_ok tOp (hb_tbig st) i tb' e psiN nrm Ht Hc Ep) as (Hc' & _). destruct (GV e psiN) as [g|x].
    + destruct H as (hs1 & Hg1 & L1 & ->). destruct H' as (hs2 & Hg2 & L2 & ->). cbn [rsim hb_tbig]. split; [|auto].
      destruct HG as (_ & _ & Lg). destruct HG' as (_ & _ & Lg').
      split; [|split; [|split; [reflexivity|]]].
      * split; [auto|]. split; [auto|]. cbn [hb_gs]. rewrite map_length, combine_length. cbn [length]. rewrite repeat_length. lia.
      * split; [auto|]. split; [auto|]. cbn [hb_gs]. rewrite map_length, combine_length. cbn [length]. rewrite repeat_length. lia.
      * cbn [hb_gs]. rewrite Eg, Eg'. cbn [combine map]. unfold same0. eauto.
    + destruct H as (o & ->). destruct H' as (o' & ->). cbn [rsim]. unfold same0. eauto.
  - rewrite H, H'. cbn [rsim]. destruct R as [|r]; [lia|]. destruct R' as [|r']; [lia|]. unfold same0. simpl. eauto.
Qed.
Lemma hb_run_sim : rsim (fun _ => True)
  (hb_run fsqrt fuel (Z.of_nat n) op w delta rs ks swm ord psis es tOps R)
  (hb_run fsqrt fuel (Z.of_nat n) op w delta rs ks swm ord' psis es tOps R').
Proof.
  unfold hb_run.
  assert (Gi : forall l t tOp st st', wf_op n tOp -> sim st st' -> coherent n tOp swm rs (hb_tbig st) ->
    rsim (fun s => coherent n tOp swm rs (hb_tbig s))
      (fold_run (fun st i => hb_entry fsqrt fuel (Z.of_nat n) op w delta rs ks swm (ord t i) psis es t tOp st i) l st)
      (fold_run (fun st i => hb_entry fsqrt fuel (Z.of_nat n) op w delta rs ks swm (ord' t i) psis es t tOp st i) l st')).
  { induction l as [|i l IH]; intros t tOp st st' Ht Hs Hc; cbn [fold_run]; [split; auto|].
    pose proof (entry_sim t tOp st st' i Ht Hs Hc) as H.
    destruct (hb_entry _ _ _ _ _ _ _ _ _ (ord t i) _ _ _ _ _ _) as [s|], (hb_entry _ _ _ _ _ _ _ _ _ (ord' t i) _ _ _ _ _ _) as [s'|]; cbn [rsim rbind] in *; try tauto.
    destruct H. apply IH; auto. }
  assert (Go : forall l st st', Forall (fun tt => wf_op n (snd tt)) l -> sim st st' ->
    rsim (fun _ => True)
      (fold_run (fun st ttOp => fold_run (fun st i => hb_entry fsqrt fuel (Z.of_nat n) op w delta rs ks swm (ord (fst ttOp) i) psis es (fst ttOp) (snd ttOp) st i) (seq 0 (length es)) (mkHB [] (hb_hs st) (hb_gs st))) l st)
      (fold_run (fun st ttOp => fold_run (fun st i => hb_entry fsqrt fuel (Z.of_nat n) op w delta rs ks swm (ord' (fst ttOp) i) psis es (fst ttOp) (snd ttOp) st i) (seq 0 (length es)) (mkHB [] (hb_hs st) (hb_gs st))) l st')).
  { induction l as [|[t tOp] l IH]; intros st st' HF Hs; cbn [fold_run fst snd]; [split; auto|].
    inversion HF as [|? ? H1 H2]; subst. cbn [snd] in H1.
    pose proof (Gi (seq 0 (length es)) t tOp (mkHB [] (hb_hs st) (hb_gs st)) (mkHB [] (hb_hs st') (hb_gs st')) H1) as H.
    destruct Hs as (HG & HG' & _ & Hz). specialize (H ltac:(split; [exact HG|]; split; [exact HG'|]; split; [reflexivity|exact Hz]) ltac:(intros k col C; discriminate)).
    destruct (fold_run _ (seq 0 (length es)) (mkHB [] (hb_hs st) (hb_gs st))) as [s|], (fold_run _ (seq 0 (length es)) (mkHB [] (hb_hs st') (hb_gs st'))) as [s'|]; cbn [rsim rbind] in *; try tauto.
    destruct H. apply IH; auto. }
  apply Go.
  - apply Forall_forall. intros [t tOp] Hi. cbn [snd]. apply in_combine_r in Hi. rewrite Forall_forall in HT. auto.
  - assert (H0 : forall k, good_hs n op rs (repeat [] k)).
    { intros k. split.
      + apply Forall_forall. intros h Hh. apply repeat_spec in Hh. subst. apply exact_nil.
      + assert (E0 : forall k, flat_map dkeys (repeat ([] : hdict_t F) k) = []) by (clear; induction k; simpl; auto). rewrite E0. constructor. }
    split; [|split; [|split; [reflexivity|]]]; try (split; [apply H0|cbn [hb_hs hb_gs]; rewrite !repeat_length; auto]).
    cbn [hb_gs]. destruct R as [|r]; [lia|]. destruct R' as [|r']; [lia|]. unfold same0. simpl. eauto.
Qed.
End Sim.
End LSpectra5.
