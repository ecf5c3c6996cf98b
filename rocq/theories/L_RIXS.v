(* getRIXSmap: signs; the outgoing operators after the first one are never used *)
From Coq Require Import Lia List Bool Permutation Field Ring.
From Verif Require Import M_Prelude M_Scalar M_PSR M_Ladder M_State M_Mpi M_Hamiltonian M_Lanczos M_Spectra M_RIXS S_Fock S_Ham S_Ops S_Green
  L_PSR L_Ladder L_Scalar L_Dict L_Sum L_Fock L_State L_ApplyOp L_Ops L_FockP L_Ham L_Expand L_Green L_Green2 L_Green3 L_Green4 L_Spectra L_Spectra2 L_Spectra3.
Import ListNotations.
Local Open Scope cx_scope.

Lemma fold_res_ext_inv {A S} (f g : S -> A -> res S) (I : S -> Prop) l :
  (forall s a, I s -> In a l -> f s a = g s a) -> (forall s a s', I s -> In a l -> f s a = Ok s' -> I s') ->
  forall s, I s -> fold_res f l s = fold_res g l s.
Proof.
  intros H1 H2. induction l as [|a l IH]; intros s Hs; cbn [fold_res]; auto. rewrite <- (H1 s a Hs (or_introl eq_refl)).
  destruct (f s a) as [s'|] eqn:E; cbn [bind]; auto. apply IH; [intros; apply H1; auto; right; auto|intros s1 a1 s2 X Y; apply (H2 s1 a1 s2 X); right; auto|].
  eapply H2; eauto. left; auto.
Qed.
Lemma fold_res_inv' {A S} (f : S -> A -> res S) (I : S -> Prop) l :
  (forall s a s', I s -> In a l -> f s a = Ok s' -> I s') -> forall s s', I s -> fold_res f l s = Ok s' -> I s'.
Proof.
  induction l as [|a l IH]; intros H s s' Hs E; cbn [fold_res] in E; [congruence|].
  destruct (f s a) as [s1|] eqn:E1; [|discriminate]. cbn [bind] in E. eapply (IH); [|eapply H; eauto; left; auto|exact E].
  intros s2 a2 s3 X Y. apply (H s2 a2 s3 X). right; auto.
Qed.
Lemma fold_run_ext_inv {A S} (f g : S -> A -> run S) (I : S -> Prop) l :
  (forall s a, I s -> In a l -> f s a = g s a) -> (forall s a s', I s -> In a l -> f s a = Run s' -> I s') ->
  forall s, I s -> fold_run f l s = fold_run g l s.
Proof.
  intros H1 H2. induction l as [|a l IH]; intros s Hs; cbn [fold_run]; auto. rewrite <- (H1 s a Hs (or_introl eq_refl)).
  destruct (f s a) as [s'|] eqn:E; cbn [rbind]; auto. apply IH; [intros; apply H1; auto; right; auto|intros s1 a1 s2 X Y; apply (H2 s1 a1 s2 X); right; auto|].
  eapply H2; eauto. left; auto.
Qed.
Lemma fold_run_inv2 {A S} (f : S -> A -> run S) (I : S -> Prop) l :
  (forall s a s', I s -> In a l -> f s a = Run s' -> I s') -> forall s s', I s -> fold_run f l s = Run s' -> I s'.
Proof.
  induction l as [|a l IH]; intros H s s' Hs E; cbn [fold_run] in E; [congruence|].
  destruct (f s a) as [s1|] eqn:E1; [|discriminate]. cbn [rbind] in E. eapply (IH); [|eapply H; eauto; left; auto|exact E].
  intros s2 a2 s3 X Y. apply (H s2 a2 s3 X). right; auto.
Qed.
Lemma together_run {A} (l : list (res A)) r : together l = Run r -> l = map Ok r.
Proof.
  unfold together. destruct (forallb is_ok l) eqn:E; [|discriminate]. intros H. injection H as <-.
  induction l as [|[a|] l IH]; simpl in *; try discriminate; auto. f_equal. auto.
Qed.
Lemma Forall_map_Ok {A} (P : A -> Prop) (f : res A -> Prop) r : Forall f (map Ok r) -> (forall a, f (Ok a) -> P a) -> Forall P r.
Proof. intros H HP. induction r; constructor; inversion H; subst; auto. Qed.

Section LRIXS.
Context {F : ofield}.
Add Field Ff : (f_field F).
Add Ring Cring : (@c_ring F).
Add Field Cf : (@c_field F).
Variable fsqrt : F -> F.
Variable bicgstab : list (vec F) -> vec F -> vec F.

(* ---- applyOp with all states cached does not look at the operator ---- *)
Definition covers (cache : cache_t F) (psi : psi_t F) : Prop := forall k, In k (dkeys psi) -> exists col, dget cache k = Some col.
Lemma cached_loop_covers n op swm rs : forall l psiNew cache sign psi' cache',
  cached_loop n op swm rs l psiNew cache sign = COk (psi', cache') ->
  (forall k col, dget cache k = Some col -> exists col', dget cache' k = Some col') /\ covers cache' l.
Proof.
  induction l as [|[s a] l IH]; intros psiNew cache sign psi' cache' E; cbn [cached_loop] in E.
  - injection E as <- <-. split; [eauto|]. intros k [].
  - destruct (dget cache s) as [col|] eqn:Es.
    + apply IH in E as [H1 H2]. split; [auto|]. intros k [<-|Hk]; [eauto|apply H2; auto].
    + destruct (match rs with Some _ => _ | None => _ end) as [[[p col] sg]|] eqn:Er; [|discriminate].
      apply IH in E as [H1 H2]. split.
      * intros k c Hk. destruct (eqb_spec k s) as [->|Hn]; [congruence|]. apply (H1 k c). rewrite dget_dset_other by auto. auto.
      * intros k [<-|Hk]; [|apply H2; auto]. eapply H1. apply dget_dset_same.
Qed.
Lemma cached_loop_any n op op' swm rs : forall l psiNew cache sign sign', covers cache l ->
  cached_loop n op swm rs l psiNew cache sign = cached_loop n op' swm rs l psiNew cache sign' /\
  exists p, cached_loop n op swm rs l psiNew cache sign = COk (p, cache).
Proof.
  induction l as [|[s a] l IH]; intros psiNew cache sign sign' Hc; cbn [cached_loop]; [eauto|].
  destruct (Hc s (or_introl eq_refl)) as (col & ->). apply IH. intros k Hk. apply Hc. right; auto.
Qed.
Lemma applyOp_covers n op psi swm rs cache c psi' : applyOp n op psi swm rs (Some cache) = (Some c, Ok psi') -> covers c psi.
Proof.
  unfold applyOp. destruct (cached_loop _ _ _ _ _ _ _ _) as [[p c']|] eqn:E; [|discriminate]. intros H. injection H as <- <-.
  apply cached_loop_covers in E as [_ H]. auto.
Qed.
Lemma applyOp_any n op op' psi swm rs cache : covers cache psi ->
  applyOp n op psi swm rs (Some cache) = applyOp n op' psi swm rs (Some cache) /\
  fst (applyOp n op psi swm rs (Some cache)) = Some cache.
Proof.
  intros Hc. unfold applyOp. destruct (cached_loop_any n op op' swm rs psi [] cache None None Hc) as [<- (p & ->)]. auto.
Qed.

Section Args.
Variable fuel : nat.
Variables (n : Z) (hOp : op_t F) (wIns wLoss : list F) (delta1 delta2 : F) (rs : option restrictions_t) (ks : Z) (swm : F).
Variables (tOpsIn : list (op_t F)) (psis : list (psi_t F)) (es : list F).

Section Alias.
Variables (op0 : op_t F) (ops ops' : list (op_t F)).
Hypothesis HL : length ops = length ops'.
Let outs := op0 :: ops.
Let outs' := op0 :: ops'.
Definition one_cell (heap : list (cache_t F)) : Prop := exists c, heap = [c].
Lemma refs_eq : tOut_refs (length outs) = tOut_refs (length outs').
Proof. unfold outs, outs', tOut_refs. simpl. rewrite HL. auto. Qed.
Lemma refs_nth k t cell : nth_res (tOut_refs k) t = Ok cell -> cell = 0%nat.
Proof.
  unfold tOut_refs, nth_res. destruct (nth_error (repeat 0%nat k) t) as [x|] eqn:E; [|discriminate]. intros H. injection H as <-.
  apply nth_error_In, repeat_spec in E. auto.
Qed.
(* the state before the operators 1, 2, ...: everything is cached *)
Definition all_cached (psi2 : psi_t F) (heap : list (cache_t F)) : Prop := exists c, heap = [c] /\ covers c psi2.
Lemma out_state_first tops heap t op psi2 heap' psi3 nrm : one_cell heap ->
  out_state fsqrt n rs swm tops heap t op psi2 = Ok (heap', psi3, nrm) -> all_cached psi2 heap'.
Proof.
  intros (c & ->) E. unfold out_state in E. destruct (nth_res (tOut_refs (length tops)) t) as [cell|] eqn:Ec; [|discriminate]. cbn [bind] in E.
  apply refs_nth in Ec. subst cell. change (nth_res [c] 0) with (Ok c) in E. cbn [bind] in E.
  destruct (applyOp n op psi2 swm rs (Some c)) as [[c'|] [p|]] eqn:EA; cbn [bind] in E; try discriminate.
  - destruct (normalise fsqrt p) as [[q m]|]; [|discriminate]. cbn [bind] in E. injection E as <- _ _. exists c'. split; [reflexivity|].
    eapply applyOp_covers; eauto.
  - unfold applyOp in EA. destruct (cached_loop _ _ _ _ _ _ _ _) as [[? ?]|]; discriminate.
Qed.
Lemma out_state_any tops heap t op op' psi2 : all_cached psi2 heap ->
  out_state fsqrt n rs swm tops heap t op psi2 = out_state fsqrt n rs swm tops heap t op' psi2.
Proof.
  intros (c & -> & Hc). unfold out_state. destruct (nth_res (tOut_refs (length tops)) t) as [cell|] eqn:Ec; [|reflexivity]. cbn [bind].
  apply refs_nth in Ec. subst cell. change (nth_res [c] 0) with (Ok c). cbn [bind].
  destruct (applyOp_any n op op' psi2 swm rs c Hc) as [-> _]. reflexivity.
Qed.
Lemma all_cached_cell psi2 heap : all_cached psi2 heap -> one_cell heap.
Proof. intros (c & -> & _). exists c. auto. Qed.

Lemma win_out_cell ord e psi2 tops heap hg rows to heap' hg' rows' : one_cell heap ->
  win_out fsqrt fuel n hOp wLoss delta2 rs ks swm tops ord e psi2 (heap, hg, rows) to = Ok (heap', hg', rows') -> all_cached psi2 heap'.
Proof.
  intros H E. unfold win_out in E. destruct (out_state _ _ _ _ _ _ _ _ _) as [[[h1 p3] m]|] eqn:Eo; [|discriminate]. cbn [bind] in E.
  destruct (getGreen _ _ _ _ _ _ _ _ _ _ _ _ _ _ _) as [|[h2 r] [|]]; try discriminate. destruct r; [|discriminate]. cbn [bind] in E. injection E as <- _ _.
  eapply out_state_first; eauto.
Qed.
(* the loop over the outgoing operators *)
Lemma win_outs_same ord e psi2 st : one_cell (fst (fst st)) ->
  fold_res (win_out fsqrt fuel n hOp wLoss delta2 rs ks swm outs ord e psi2) (enumerate outs) st =
  fold_res (win_out fsqrt fuel n hOp wLoss delta2 rs ks swm outs' ord e psi2) (enumerate outs') st.
Proof.
  intros Hc. unfold enumerate, outs, outs'. cbn [length seq combine fold_res].
  fold outs. fold outs'.
  assert (E0 : forall heap t op, out_state fsqrt n rs swm outs heap t op psi2 = out_state fsqrt n rs swm outs' heap t op psi2).
  { intros. unfold out_state. rewrite refs_eq. auto. }
  assert (E1 : forall st to, win_out fsqrt fuel n hOp wLoss delta2 rs ks swm outs ord e psi2 st to = win_out fsqrt fuel n hOp wLoss delta2 rs ks swm outs' ord e psi2 st to).
  { intros [[heap hg] rows] to. unfold win_out. rewrite E0. auto. }
  rewrite E1. destruct (win_out _ _ _ _ _ _ _ _ _ outs' _ _ _ st (0%nat, op0)) as [s1|] eqn:Ef; [|reflexivity]. cbn [bind].
  assert (Hs1 : all_cached psi2 (fst (fst s1))).
  { destruct st as [[heap hg] rows], s1 as [[heap1 hg1] rows1]. cbn [fst] in *. eapply win_out_cell; eauto. }
  clear Ef. rewrite <- HL. generalize 1%nat as k. revert s1 Hs1. clear Hc st. clearbody outs outs'. revert ops' HL.
  induction ops as [|o os IH]; intros [|o' os'] HL' s1 Hs1 k; simpl in HL'; try discriminate; auto.
  cbn [length seq combine fold_res]. rewrite E1.
  assert (E2 : win_out fsqrt fuel n hOp wLoss delta2 rs ks swm outs' ord e psi2 s1 (k, o) = win_out fsqrt fuel n hOp wLoss delta2 rs ks swm outs' ord e psi2 s1 (k, o')).
  { destruct s1 as [[heap hg] rows]. unfold win_out. cbn [fst snd] in *. rewrite (out_state_any outs' heap k o o') by auto. auto. }
  rewrite E2. destruct (win_out _ _ _ _ _ _ _ _ _ outs' _ _ _ s1 (k, o')) as [s2|] eqn:Es; cbn [bind]; auto.
  apply IH; [lia|]. destruct s1 as [[heap hg] rows], s2 as [[heap2 hg2] rows2]. cbn [fst] in *.
  eapply win_out_cell; [eapply all_cached_cell; eauto|exact Es].
Qed.
Lemma win_outs_cell tops ord e psi2 st st' : one_cell (fst (fst st)) ->
  fold_res (win_out fsqrt fuel n hOp wLoss delta2 rs ks swm tops ord e psi2) (enumerate tops) st = Ok st' -> one_cell (fst (fst st')).
Proof.
  intros H E. revert E. apply (fold_res_inv _ (fun st : list (cache_t F) * hdict_t F * list (vec F) => one_cell (fst (fst st)))); auto.
  intros [[a b] c] to [[a' b'] c'] Ha Ew. cbn [fst] in *. eapply all_cached_cell, win_out_cell; eauto.
Qed.
Lemma win_energy_same ord e sys st iw : one_cell (fst (fst st)) ->
  win_energy fsqrt bicgstab fuel n hOp wIns wLoss delta1 delta2 rs ks swm outs ord e sys st iw =
  win_energy fsqrt bicgstab fuel n hOp wIns wLoss delta1 delta2 rs ks swm outs' ord e sys st iw.
Proof.
  intros H. destruct st as [[heap hg] g]. unfold win_energy. destruct (nth_res wIns iw); [|reflexivity]. cbn [bind].
  destruct (psi2_at _ _ _ _ _) as [psi2|]; [|reflexivity]. cbn [bind]. rewrite win_outs_same by auto. reflexivity.
Qed.
Lemma win_energy_cell tops ord e sys st iw st' : one_cell (fst (fst st)) ->
  win_energy fsqrt bicgstab fuel n hOp wIns wLoss delta1 delta2 rs ks swm tops ord e sys st iw = Ok st' -> one_cell (fst (fst st')).
Proof.
  intros H E. destruct st as [[heap hg] g]. unfold win_energy in E. destruct (nth_res wIns iw); [|discriminate]. cbn [bind] in E.
  destruct (psi2_at _ _ _ _ _) as [psi2|]; [|discriminate]. cbn [bind] in E.
  destruct (fold_res _ _ _) as [[[h1 hg1] r1]|] eqn:Ef; [|discriminate]. cbn [bind] in E. injection E as <-. cbn [fst].
  apply win_outs_cell in Ef; auto.
Qed.
Lemma win_rank_same ord e sys r R rk : one_cell (fst rk) ->
  win_rank fsqrt bicgstab fuel n hOp wIns wLoss delta1 delta2 rs ks swm outs ord e sys r R rk =
  win_rank fsqrt bicgstab fuel n hOp wIns wLoss delta1 delta2 rs ks swm outs' ord e sys r R rk.
Proof.
  intros H. unfold win_rank. destruct (get_job_tasks _ _ _) as [jobs|]; [|reflexivity]. cbn [bind].
  apply (fold_res_ext_inv _ _ (fun st => one_cell (fst (fst st)))); auto.
  - intros; apply win_energy_same; auto.
  - intros s a s' Hs _. apply win_energy_cell; auto.
Qed.
Lemma win_rank_cell tops ord e sys r R rk out : one_cell (fst rk) ->
  win_rank fsqrt bicgstab fuel n hOp wIns wLoss delta1 delta2 rs ks swm tops ord e sys r R rk = Ok out -> one_cell (fst (fst out)).
Proof.
  intros H E. unfold win_rank in E. destruct (get_job_tasks _ _ _) as [jobs|]; [|discriminate]. cbn [bind] in E. revert E.
  apply (fold_res_inv _ (fun st : list (cache_t F) * hdict_t F * dict nat (list (vec F)) => one_cell (fst (fst st)))); auto.
  intros s a s' Hs. apply win_energy_cell; auto.
Qed.
Definition win_cells (st : win_state) : Prop := Forall (fun rk => one_cell (fst rk)) (wi_rk st).
Lemma enum_snd {A} (l : list A) x : In x (enumerate l) -> In (snd x) l.
Proof. unfold enumerate. destruct x as [i a]. intros H. apply in_combine_r in H. auto. Qed.
Lemma win_step_same pm ord tIn tOpIn st iE : win_cells st ->
  win_step fsqrt bicgstab fuel n hOp wIns wLoss delta1 delta2 rs ks swm outs psis es pm ord tIn tOpIn st iE =
  win_step fsqrt bicgstab fuel n hOp wIns wLoss delta1 delta2 rs ks swm outs' psis es pm ord tIn tOpIn st iE.
Proof.
  intros H. unfold win_step. cbv zeta. destruct (all_ranks _ _) as [[[tb e] psi1]|]; [|reflexivity]. cbn [rbind].
  set (ebh := expand_basis_and_hamiltonian _ _ _ _ _ _ _ _ _).
  match goal with |- rbind (together ?a) _ = rbind (together ?b) _ => assert (Ea : a = b) end.
  { apply map_ext_in. intros [r [o rk]] Hi. cbn [fst snd]. destruct (snd o) as [[h idx]|]; [|reflexivity]. cbn [bind].
    destruct (psi_vec idx psi1); [|reflexivity]. cbn [bind]. apply win_rank_same.
    apply enum_snd in Hi. cbn [snd] in Hi. apply in_combine_r in Hi. unfold win_cells in H. rewrite Forall_forall in H. auto. }
  rewrite Ea. reflexivity.
Qed.
Lemma win_step_cells tops pm ord tIn tOpIn st iE st' : win_cells st ->
  win_step fsqrt bicgstab fuel n hOp wIns wLoss delta1 delta2 rs ks swm tops psis es pm ord tIn tOpIn st iE = Run st' -> win_cells st'.
Proof.
  intros H E. unfold win_step in E. cbv zeta in E. destruct (all_ranks _ _) as [[[tb e] psi1]|]; [|discriminate]. cbn [rbind] in E.
  set (ebh := expand_basis_and_hamiltonian _ _ _ _ _ _ _ _ _) in E. set (l0 := map _ _) in E.
  destruct (together l0) as [l|] eqn:Et; [|discriminate]. cbn [rbind] in E. injection E as <-. unfold win_cells. cbn [wi_rk].
  apply together_run in Et. apply Forall_forall. intros rk Hrk. apply in_map_iff in Hrk as (o & <- & Ho).
  apply (in_map Ok) in Ho. rewrite <- Et in Ho. apply in_map_iff in Ho as ([r [ob rk0]] & Eo & Hi). cbn [fst snd] in Eo.
  destruct (snd ob) as [[h idx]|]; [|discriminate]. cbn [bind] in Eo. destruct (psi_vec idx psi1); [|discriminate]. cbn [bind] in Eo.
  eapply win_rank_cell; [|exact Eo]. apply enum_snd in Hi. cbn [snd] in Hi. apply in_combine_r in Hi. unfold win_cells in H. rewrite Forall_forall in H. auto.
Qed.
Lemma win_run_same pm ord hg :
  win_run fsqrt bicgstab fuel n hOp wIns wLoss delta1 delta2 rs ks swm tOpsIn outs psis es pm ord hg =
  win_run fsqrt bicgstab fuel n hOp wIns wLoss delta1 delta2 rs ks swm tOpsIn outs' psis es pm ord hg.
Proof.
  unfold win_run. apply (fold_run_ext_inv _ _ win_cells).
  - intros s [t tOp] Hs _. cbn [fst snd]. apply (fold_run_ext_inv _ _ win_cells); [| |exact Hs].
    + intros; apply win_step_same; auto.
    + intros s1 a s2 H1 _. apply win_step_cells; auto.
  - intros s [t tOp] s' Hs _. cbn [fst snd]. apply (fold_run_inv2 _ win_cells); [|exact Hs].
    intros s1 a s2 H1 _. apply win_step_cells; auto.
  - unfold win_cells. cbn [wi_rk]. apply Forall_forall. intros x Hx. apply in_map_iff in Hx as (h & <- & _). exists []. reflexivity.
Qed.

(* modes serial and H_build *)
Lemma hb4_out_cell tops pm ord e psi2 iE tIn iw st to st' : one_cell (h4_heap st) ->
  hb4_out fsqrt fuel n hOp wLoss delta2 rs ks swm tops pm ord e psi2 iE tIn iw st to = Run st' -> all_cached psi2 (h4_heap st').
Proof.
  intros H E. unfold hb4_out in E. destruct (out_state _ _ _ _ _ _ _ _ _) as [[[h1 p3] m]|] eqn:Eo; [|discriminate]. cbn [all_ranks rbind] in E.
  destruct (together _); [|discriminate]. cbn [rbind] in E. injection E as <-. cbn [h4_heap]. eapply out_state_first; eauto.
Qed.
Lemma hb4_outs_same pm ord e psi2 iE tIn iw st : one_cell (h4_heap st) ->
  fold_run (hb4_out fsqrt fuel n hOp wLoss delta2 rs ks swm outs pm ord e psi2 iE tIn iw) (enumerate outs) st =
  fold_run (hb4_out fsqrt fuel n hOp wLoss delta2 rs ks swm outs' pm ord e psi2 iE tIn iw) (enumerate outs') st.
Proof.
  intros Hc. unfold enumerate, outs, outs'. cbn [length seq combine fold_run].
  fold outs. fold outs'.
  assert (E0 : forall heap t op, out_state fsqrt n rs swm outs heap t op psi2 = out_state fsqrt n rs swm outs' heap t op psi2).
  { intros. unfold out_state. rewrite refs_eq. auto. }
  assert (E1 : forall st to, hb4_out fsqrt fuel n hOp wLoss delta2 rs ks swm outs pm ord e psi2 iE tIn iw st to = hb4_out fsqrt fuel n hOp wLoss delta2 rs ks swm outs' pm ord e psi2 iE tIn iw st to).
  { intros s to. unfold hb4_out. rewrite E0. auto. }
  rewrite E1. destruct (hb4_out _ _ _ _ _ _ _ _ _ outs' _ _ _ _ _ _ _ st (0%nat, op0)) as [s1|] eqn:Ef; [|reflexivity]. cbn [rbind].
  assert (Hs1 : all_cached psi2 (h4_heap s1)) by (eapply hb4_out_cell; eauto).
  clear Ef. rewrite <- HL. generalize 1%nat as k. revert s1 Hs1. clear Hc st. clearbody outs outs'. revert ops' HL.
  induction ops as [|o os IH]; intros [|o' os'] HL' s1 Hs1 k; simpl in HL'; try discriminate; auto.
  cbn [length seq combine fold_run]. rewrite E1.
  assert (E2 : hb4_out fsqrt fuel n hOp wLoss delta2 rs ks swm outs' pm ord e psi2 iE tIn iw s1 (k, o) = hb4_out fsqrt fuel n hOp wLoss delta2 rs ks swm outs' pm ord e psi2 iE tIn iw s1 (k, o')).
  { unfold hb4_out. cbn [fst snd]. rewrite (out_state_any outs' (h4_heap s1) k o o') by auto. auto. }
  rewrite E2. destruct (hb4_out _ _ _ _ _ _ _ _ _ outs' _ _ _ _ _ _ _ s1 (k, o')) as [s2|] eqn:Es; cbn [rbind]; auto.
  apply IH; [lia|]. eapply hb4_out_cell; [eapply all_cached_cell; eauto|exact Es].
Qed.
Lemma hb4_energy_same pm ord e sys iE tIn st iw : one_cell (h4_heap st) ->
  hb4_energy fsqrt bicgstab fuel n hOp wIns wLoss delta1 delta2 rs ks swm outs pm ord e sys iE tIn st iw =
  hb4_energy fsqrt bicgstab fuel n hOp wIns wLoss delta1 delta2 rs ks swm outs' pm ord e sys iE tIn st iw.
Proof.
  intros H. unfold hb4_energy. destruct (all_ranks _ _); [|reflexivity]. cbn [rbind]. apply hb4_outs_same; auto.
Qed.
Lemma hb4_energy_cell tops pm ord e sys iE tIn st iw st' : one_cell (h4_heap st) ->
  hb4_energy fsqrt bicgstab fuel n hOp wIns wLoss delta1 delta2 rs ks swm tops pm ord e sys iE tIn st iw = Run st' -> one_cell (h4_heap st').
Proof.
  intros H E. unfold hb4_energy in E. destruct (all_ranks _ _); [|discriminate]. cbn [rbind] in E. revert E.
  apply (fold_run_inv2 _ (fun st => one_cell (h4_heap st))); auto. intros s x s' Hs _ Ex. eapply all_cached_cell, hb4_out_cell; eauto.
Qed.
Lemma hb4_step_same pm ord tIn tOpIn st iE : one_cell (h4_heap st) ->
  hb4_step fsqrt bicgstab fuel n hOp wIns wLoss delta1 delta2 rs ks swm outs psis es pm ord tIn tOpIn st iE =
  hb4_step fsqrt bicgstab fuel n hOp wIns wLoss delta1 delta2 rs ks swm outs' psis es pm ord tIn tOpIn st iE.
Proof.
  intros H. unfold hb4_step. cbv zeta. destruct (all_ranks _ _) as [[[tb e] psi1]|]; [|reflexivity]. cbn [rbind].
  destruct (together _) as [[|sys l]|]; try reflexivity. cbn [rbind].
  apply (fold_run_ext_inv _ _ (fun st => one_cell (h4_heap st))); auto.
  - intros; apply hb4_energy_same; auto.
  - intros s a s' Hs _. apply hb4_energy_cell; auto.
Qed.
Lemma hb4_step_cell tops pm ord tIn tOpIn st iE st' : one_cell (h4_heap st) ->
  hb4_step fsqrt bicgstab fuel n hOp wIns wLoss delta1 delta2 rs ks swm tops psis es pm ord tIn tOpIn st iE = Run st' -> one_cell (h4_heap st').
Proof.
  intros H E. unfold hb4_step in E. cbv zeta in E. destruct (all_ranks _ _) as [[[tb e] psi1]|]; [|discriminate]. cbn [rbind] in E.
  destruct (together _) as [[|sys l]|]; try discriminate. cbn [rbind] in E. revert E.
  apply (fold_run_inv2 _ (fun st => one_cell (h4_heap st))); [|exact H]. intros s x s' Hs _ Ex. eapply hb4_energy_cell; eauto.
Qed.
Lemma hb4_run_same pm ord hg :
  hb4_run fsqrt bicgstab fuel n hOp wIns wLoss delta1 delta2 rs ks swm tOpsIn outs psis es pm ord hg =
  hb4_run fsqrt bicgstab fuel n hOp wIns wLoss delta1 delta2 rs ks swm tOpsIn outs' psis es pm ord hg.
Proof.
  unfold hb4_run. apply (fold_run_ext_inv _ _ (fun st => one_cell (h4_heap st))).
  - intros s [t tOp] Hs _. cbn [fst snd]. apply (fold_run_ext_inv _ _ (fun st => one_cell (h4_heap st))); [| |exact Hs].
    + intros; apply hb4_step_same; auto.
    + intros s1 a s2 H1 _. apply hb4_step_cell; auto.
  - intros s [t tOp] s' Hs _. cbn [fst snd]. apply (fold_run_inv2 _ (fun st => one_cell (h4_heap st))); [|exact Hs].
    intros s1 a s2 H1 _. apply hb4_step_cell; auto.
  - exists []. reflexivity.
Qed.
Lemma getRIXSmap_same ord hg pm :
  getRIXSmap fsqrt bicgstab fuel n hOp wIns wLoss delta1 delta2 rs ks swm tOpsIn (op0 :: ops) psis es ord hg pm =
  getRIXSmap fsqrt bicgstab fuel n hOp wIns wLoss delta1 delta2 rs ks swm tOpsIn (op0 :: ops') psis es ord hg pm.
Proof.
  unfold getRIXSmap. destruct pm.
  - apply map_ext. intros x. rewrite hb4_run_same. auto.
  - rewrite hb4_run_same. auto.
  - rewrite win_run_same. auto.
  - rewrite win_run_same. auto.
  - auto.
Qed.
End Alias.

(* ---- signs ---- *)
Hypothesis Hd : delta2 <> 0%F.
Variable tOpsOut : list (op_t F).
Definition signed4 (gs : garr4 F) : Prop := forall a b c d, signed delta2 (gs a b c d).
Lemma win_out_signed ord e psi2 st to st' : Forall (signed delta2) (snd st) ->
  win_out fsqrt fuel n hOp wLoss delta2 rs ks swm tOpsOut ord e psi2 st to = Ok st' -> Forall (signed delta2) (snd st').
Proof.
  intros H E. destruct st as [[heap hg] rows]. unfold win_out in E. destruct (out_state _ _ _ _ _ _ _ _ _) as [[[h1 p3] m]|] eqn:Eo; [|discriminate]. cbn [bind] in E.
  destruct (getGreen _ _ _ _ _ _ _ _ _ _ _ _ _ _ _) as [|[h2 r] [|]] eqn:Eg; try discriminate. destruct r as [g|]; [|discriminate]. cbn [bind] in E. injection E as <-.
  cbn [snd] in *. apply Forall_app. split; [auto|]. constructor; [|constructor].
  apply signed_vmul. eapply (green_bounds_ok fsqrt); [exact Hd|]. rewrite Eg. left. reflexivity.
Qed.
Lemma win_energy_signed ord e sys st iw st' : Forall (fun iv => Forall (signed delta2) (snd iv)) (snd st) ->
  win_energy fsqrt bicgstab fuel n hOp wIns wLoss delta1 delta2 rs ks swm tOpsOut ord e sys st iw = Ok st' ->
  Forall (fun iv => Forall (signed delta2) (snd iv)) (snd st').
Proof.
  intros H E. destruct st as [[heap hg] g]. unfold win_energy in E. destruct (nth_res wIns iw); [|discriminate]. cbn [bind] in E.
  destruct (psi2_at _ _ _ _ _) as [psi2|]; [|discriminate]. cbn [bind] in E.
  destruct (fold_res _ _ _) as [[[h1 hg1] r1]|] eqn:Ef; [|discriminate]. cbn [bind] in E. injection E as <-. cbn [snd] in *.
  assert (Hr : Forall (signed delta2) (snd (h1, hg1, r1))).
  { revert Ef. apply (fold_res_inv _ (fun st : list (cache_t F) * hdict_t F * list (vec F) => Forall (signed delta2) (snd st))); [|constructor].
    intros s aa s3 Hs. apply win_out_signed; auto. }
  cbn [snd] in Hr. clear -H Hr. induction H as [|[k x] d Hx Hd IH]; simpl; [repeat constructor; auto|]. destruct (Nat.eqb iw k); constructor; auto.
Qed.
Lemma win_step_signed pm ord tIn tOpIn st iE st' : Forall signed4 (wi_gs st) ->
  win_step fsqrt bicgstab fuel n hOp wIns wLoss delta1 delta2 rs ks swm tOpsOut psis es pm ord tIn tOpIn st iE = Run st' -> Forall signed4 (wi_gs st').
Proof.
  intros H E. unfold win_step in E. cbv zeta in E. destruct (all_ranks _ _) as [[[tb e] psi1]|]; [|discriminate]. cbn [rbind] in E.
  set (ebh := expand_basis_and_hamiltonian _ _ _ _ _ _ _ _ _) in E. set (l0 := map _ _) in E.
  destruct (together l0) as [l|] eqn:Et; [|discriminate]. cbn [rbind] in E. injection E as <-. cbn [wi_gs].
  apply together_run in Et.
  assert (Hl : Forall (fun iv => Forall (signed delta2) (snd iv)) (concat (map snd l))).
  { apply Forall_forall. intros iv Hiv. apply in_concat in Hiv as (g & Hg & Hiv). apply in_map_iff in Hg as (o & <- & Ho).
    apply (in_map Ok) in Ho. rewrite <- Et in Ho. apply in_map_iff in Ho as ([r [ob rk0]] & Eo & Hi). cbn [fst snd] in Eo.
    destruct (snd ob) as [[h idx]|]; [|discriminate]. cbn [bind] in Eo. destruct (psi_vec idx psi1); [|discriminate]. cbn [bind] in Eo.
    unfold win_rank in Eo. destruct (get_job_tasks _ _ _) as [jobs|]; [|discriminate]. cbn [bind] in Eo.
    apply (fold_res_inv _ (fun st : list (cache_t F) * hdict_t F * dict nat (list (vec F)) => Forall (fun iv => Forall (signed delta2) (snd iv)) (snd st))) in Eo.
    - rewrite Forall_forall in Eo. auto.
    - intros s aa s3 Hs. apply win_energy_signed; auto.
    - constructor. }
  apply Forall_forall. intros gs' Hgs. apply in_map_iff in Hgs as (gs & <- & Hgs). rewrite Forall_forall in H. specialize (H gs Hgs).
  unfold win_collect. rewrite (fold_left_concat (fun gs iv => g4set_rows gs iE tIn (fst iv) (snd iv))). clear Hgs. revert gs H. clear -Hl.
  induction Hl as [|[k rows] ll Hx Hll IH]; intros gs H; simpl; auto. apply IH; auto.
  intros a b c d. unfold g4set_rows. destruct (_ && _); [|apply H]. apply signed_nth; auto.
Qed.
Lemma win_run_signed pm ord hg st :
  win_run fsqrt bicgstab fuel n hOp wIns wLoss delta1 delta2 rs ks swm tOpsIn tOpsOut psis es pm ord hg = Run st -> Forall signed4 (wi_gs st).
Proof.
  unfold win_run. apply (fold_run_inv2 _ (fun st => Forall signed4 (wi_gs st))).
  - intros s [t tOp] s' Hs _. cbn [fst snd]. apply (fold_run_inv2 _ (fun st => Forall signed4 (wi_gs st))); [|exact Hs].
    intros s1 x s2 H1 _. apply win_step_signed; auto.
  - cbn [wi_gs]. apply Forall_forall. intros x Hx. apply in_map_iff in Hx as (h & <- & _). intros a b c d. apply signed_zeros.
Qed.
Lemma hb4_out_signed pm ord e psi2 iE tIn iw st to st' : Forall signed4 (h4_gs st) ->
  hb4_out fsqrt fuel n hOp wLoss delta2 rs ks swm tOpsOut pm ord e psi2 iE tIn iw st to = Run st' -> Forall signed4 (h4_gs st').
Proof.
  intros H E. unfold hb4_out in E. destruct (out_state _ _ _ _ _ _ _ _ _) as [[[h1 p3] m]|] eqn:Eo; [|discriminate]. cbn [all_ranks rbind] in E.
  set (out := getGreen _ _ _ _ _ _ _ _ _ _ _ _ _ _ _) in E. destruct (together (map snd out)) as [gl|] eqn:Et; [|discriminate]. cbn [rbind] in E. injection E as <-. cbn [h4_gs].
  apply together_run in Et. apply Forall_forall. intros x Hx. apply in_map_iff in Hx as ([gs g] & <- & Hi). cbn [fst snd].
  assert (Hg : signed delta2 (vmul (m * m)%F g)).
  { apply signed_vmul. apply in_combine_r in Hi. apply (in_map Ok) in Hi. rewrite <- Et in Hi. apply in_map_iff in Hi as ([h' r] & Er & Hi). cbn [snd] in Er. subst r.
    eapply (green_bounds_ok fsqrt); [exact Hd|exact Hi]. }
  apply in_combine_l in Hi. rewrite Forall_forall in H. specialize (H gs Hi). intros a b c d. unfold g4set. destruct (_ && _); auto.
Qed.
Lemma hb4_step_signed pm ord tIn tOpIn st iE st' : Forall signed4 (h4_gs st) ->
  hb4_step fsqrt bicgstab fuel n hOp wIns wLoss delta1 delta2 rs ks swm tOpsOut psis es pm ord tIn tOpIn st iE = Run st' -> Forall signed4 (h4_gs st').
Proof.
  intros H E. unfold hb4_step in E. cbv zeta in E. destruct (all_ranks _ _) as [[[tb e] psi1]|]; [|discriminate]. cbn [rbind] in E.
  destruct (together _) as [[|sys l]|]; try discriminate. cbn [rbind] in E. revert E.
  apply (fold_run_inv2 _ (fun st => Forall signed4 (h4_gs st))); [|exact H]. intros s x s' Hs _ Ex.
  unfold hb4_energy in Ex. destruct (all_ranks _ _); [|discriminate]. cbn [rbind] in Ex. revert Ex.
  apply (fold_run_inv2 _ (fun st => Forall signed4 (h4_gs st))); [|exact Hs]. intros s1 y s2 Hs1 _. apply hb4_out_signed; auto.
Qed.
Lemma hb4_run_signed pm ord hg st :
  hb4_run fsqrt bicgstab fuel n hOp wIns wLoss delta1 delta2 rs ks swm tOpsIn tOpsOut psis es pm ord hg = Run st -> Forall signed4 (h4_gs st).
Proof.
  unfold hb4_run. apply (fold_run_inv2 _ (fun st => Forall signed4 (h4_gs st))).
  - intros s [t tOp] s' Hs _. cbn [fst snd]. apply (fold_run_inv2 _ (fun st => Forall signed4 (h4_gs st))); [|exact Hs].
    intros s1 x s2 H1 _. apply hb4_step_signed; auto.
  - cbn [h4_gs]. apply Forall_forall. intros x Hx. apply in_map_iff in Hx as (h & <- & _). intros a b c d. apply signed_zeros.
Qed.
Lemma getRIXSmap_signed ord hg pm gs :
  In (Ok gs) (getRIXSmap fsqrt bicgstab fuel n hOp wIns wLoss delta1 delta2 rs ks swm tOpsIn tOpsOut psis es ord hg pm) -> signed4 gs.
Proof.
  unfold getRIXSmap. intros H.
  assert (Ghb : forall pm ord hg, In (Ok gs) (match hb4_run fsqrt bicgstab fuel n hOp wIns wLoss delta1 delta2 rs ks swm tOpsIn tOpsOut psis es pm ord hg with Run st => map Ok (h4_gs st) | Stop l => map Err l end) -> signed4 gs).
  { intros pm' o' hg' Hi. destruct (hb4_run _ _ _ _ _ _ _ _ _ _ _ _ _ _ _ _ pm' o' hg') as [st|l] eqn:E.
    - apply in_map_iff in Hi as (g & Eg & Hi). injection Eg as ->. apply hb4_run_signed in E. rewrite Forall_forall in E. auto.
    - apply in_map_iff in Hi as (g & Eg & _). discriminate. }
  assert (Gw : forall pm, In (Ok gs) (match win_run fsqrt bicgstab fuel n hOp wIns wLoss delta1 delta2 rs ks swm tOpsIn tOpsOut psis es pm ord hg with Run st => map Ok (wi_gs st) | Stop l => map Err l end) -> signed4 gs).
  { intros pm' Hi. destruct (win_run _ _ _ _ _ _ _ _ _ _ _ _ _ _ _ _ pm' ord hg) as [st|l] eqn:E.
    - apply in_map_iff in Hi as (g & Eg & Hi). injection Eg as ->. apply win_run_signed in E. rewrite Forall_forall in E. auto.
    - apply in_map_iff in Hi as (g & Eg & _). discriminate. }
  destruct pm.
  - apply in_map_iff in H as (rh & Eh & _). revert Eh. 
    match goal with |- hd ?d ?l = _ -> _ => destruct l as [|x l'] eqn:El; [discriminate|] end. intros Eh. simpl in Eh. subst x.
    eapply Ghb. rewrite El. left. reflexivity.
  - eapply Ghb; eauto.
  - eapply Gw; eauto.
  - eapply Gw; eauto.
  - apply in_map_iff in H as (h & Eh & _). injection Eh as <-. intros a b c d. apply signed_zeros.
Qed.
End Args.
End LRIXS.
