(* getRIXSmap in the modes wIn and H_build_wIn: whether it completes does not depend on the number of ranks or on set orders *)
From Coq Require Import Lia List Bool Permutation Field Ring.
From Verif Require Import M_Prelude M_Scalar M_PSR M_Ladder M_State M_Mpi M_Hamiltonian M_Lanczos M_Spectra M_RIXS S_Fock S_Ham S_Ops S_Green S_Spectra S_RIXS
  L_PSR L_Ladder L_Scalar L_Dict L_Sum L_Fock L_State L_ApplyOp L_Ops L_FockP L_Ham L_Expand L_ExpandP L_FromH L_HamP L_Vec L_Lanczos2 L_Green L_Green2 L_Green3 L_Green4 L_Spectra L_Spectra2 L_Spectra3 L_Expect2 L_Perm L_RIXS L_RIXS2 L_RIXS3 L_RIXS4 L_RIXS5 L_RIXS6.
Import ListNotations.
Local Open Scope cx_scope.

Lemma together_ok {A} (l : list (res A)) : (forall x, In x l -> is_ok x = true) -> exists r, together l = Run r.
Proof. intros H. unfold together. replace (forallb is_ok l) with true; eauto. symmetry. apply forallb_forall. auto. Qed.
Lemma fold_run_iff {A S} (f : S -> A -> run S) (I : list A -> S -> Prop) (C : A -> Prop) l :
  (forall pre a post s, l = pre ++ a :: post -> I pre s -> ((exists s', f s a = Run s') <-> C a)) ->
  (forall pre a post s s', l = pre ++ a :: post -> I pre s -> f s a = Run s' -> I (pre ++ [a]) s') ->
  forall s, I [] s -> ((exists s', fold_run f l s = Run s') <-> forall a, In a l -> C a).
Proof.
  intros HC HI. assert (G : forall post pre s, l = pre ++ post -> I pre s -> ((exists s', fold_run f post s = Run s') <-> forall a, In a post -> C a)).
  { induction post as [|a post IH]; intros pre s El Hs; cbn [fold_run]; [split; [intros _ a []|eauto]|].
    pose proof (HC pre a post s El Hs) as Ha. destruct (f s a) as [s1|es] eqn:E; cbn [rbind].
    - assert (El' : l = (pre ++ [a]) ++ post) by (rewrite <- app_assoc; exact El).
      rewrite (IH (pre ++ [a]) s1 El' (HI pre a post s s1 El Hs E)). split.
      + intros H b [<-|Hb]; auto. apply Ha. eauto.
      + intros H b Hb. apply H. right. auto.
    - split; [intros [s' C0]; discriminate|]. intros H. exfalso. destruct (proj2 Ha (H a (or_introl eq_refl))) as [s' C0]. discriminate. }
  intros s Hs. apply (G l []); auto.
Qed.
Lemma nth_enum_eq {A} (l : list A) r x : nth_error l r = Some x -> nth_error (enumerate l) r = Some (r, x).
Proof.
  unfold enumerate. assert (G : forall (l : list A) s r, nth_error l r = Some x -> nth_error (combine (seq s (length l)) l) r = Some ((s + r)%nat, x)).
  { clear. induction l as [|a l IH]; intros s [|r] E; simpl in *; try discriminate; [injection E as ->; rewrite Nat.add_0_r; reflexivity|].
    rewrite (IH (S s) r E). rewrite <- plus_n_Sm. reflexivity. }
  intros E. rewrite (G l 0%nat r E). reflexivity.
Qed.

Section LRIXS7.
Context {F : ofield}.
Variable fsqrt : F -> F.
Variable bicgstab : list (vec F) -> vec F -> vec F.
Variable n : nat.
Variable hOp : op_t F.
Variable rs : option restrictions_t.
Hypothesis Hw : wf_op n hOp.
Hypothesis Hr : wf_restr rs.
Variable fuel : nat.
Hypothesis Hf : (2 ^ n < fuel)%nat.
Variables (wIns wLoss : list F) (delta1 delta2 : F).
Variable ks : Z.
Variable swm : F.
Variables (tOpsIn : list (op_t F)) (psis : list (psi_t F)) (es : list F).
Hypothesis HtIn : Forall (wf_op n) tOpsIn.
Hypothesis Hpsis : Forall (valid_psi n) psis.
Variable op0 : op_t F.
Hypothesis Hop0 : wf_op n op0.
Hypothesis Hno : no_small n op0 swm rs.
Variable M : nat.
Let outs := repeat op0 M.
Let gv := gval fsqrt n hOp rs fuel wLoss delta2 ks swm.
Notation is_psi2' := (is_psi2 bicgstab n hOp rs delta1).
Notation hole' := (hole n rs swm psis es).
Notation cn' := (cn fsqrt n rs swm op0).
Notation rank6' := (rank6 n hOp rs swm op0).
Notation wout := (win_out fsqrt fuel (Z.of_nat n) hOp wLoss delta2 rs ks swm outs).
Notation wenergy := (win_energy fsqrt bicgstab fuel (Z.of_nat n) hOp wIns wLoss delta1 delta2 rs ks swm outs).
Notation wrank := (win_rank fsqrt bicgstab fuel (Z.of_nat n) hOp wIns wLoss delta1 delta2 rs ks swm outs).

(* one incoming energy of one core-hole state *)
Definition energy_ok (psi1 : psi_t F) (e wIn : F) : Prop := exists psi2, is_psi2' psi1 e wIn psi2 /\
  ((0 < M)%nat -> exists p nrm g, cn' psi2 = Ok (p, nrm) /\ gv e p = Ok g).
Definition step_ok (tOpIn : op_t F) (iE : nat) : Prop := exists e psi1, hole' tOpIn iE e psi1 /\
  forall iw wIn, nth_error wIns iw = Some wIn -> energy_ok psi1 e wIn.

Lemma sys6_at psi1 sys e wIn psi2 : sys6 n hOp rs psi1 sys -> is_psi2' psi1 e wIn psi2 -> psi2_at bicgstab sys wIn delta1 e = Ok psi2.
Proof.
  intros (ba & m & y & -> & HE & HC & Hm & Ey) (ba' & m' & y' & HE' & HC' & Hm' & Ey' & E').
  assert (ba' = ba) by (eapply Exp_fun; eauto). subst ba'. assert (y' = y) by congruence. subst y'.
  unfold psi2_at in *. assert (Ea : a_rows (length (basis_index ba)) (mkC (wIn + e)%F delta1) m = a_rows (length (basis_index ba)) (mkC (wIn + e)%F delta1) m').
  { unfold a_rows. apply map_ext_in. intros i Hi. apply map_ext_in. intros j Hj. apply in_seq in Hi, Hj. f_equal.
    rewrite length_basis_index in Hi, Hj by apply HC.
    apply (restricted_matrix_fun n hOp rs ba); auto; [eapply closure_valid; eauto|lia|lia]. }
  rewrite Ea. auto.
Qed.
Lemma outs_spec to : In to (enumerate outs) -> snd to = op0 /\ (fst to < M)%nat.
Proof.
  destruct to as [t o]. intros Hi. cbn [fst snd]. split; [apply enum_snd in Hi; cbn [snd] in *; apply repeat_spec in Hi; auto|].
  apply enumerate_nth in Hi. assert (X : (t < length outs)%nat) by (apply nth_error_Some; congruence). unfold outs in X. rewrite repeat_length in X. auto.
Qed.
(* the fate of one outgoing operator is that of the canonical state *)
Lemma wout_iff ord e psi2 hp hg rows to : valid_psi n psi2 -> rank6' (hp, hg) -> snd to = op0 -> (fst to < M)%nat ->
  match wout ord e psi2 (hp, hg, rows) to with
  | Ok st' => rank6' (fst st') /\ exists p nrm g, cn' psi2 = Ok (p, nrm) /\ gv e p = Ok g
  | Err _ => ~ exists p nrm g, cn' psi2 = Ok (p, nrm) /\ gv e p = Ok g
  end.
Proof.
  intros Hv2 [Hk1 Hk2] Hto1 Hto2. unfold win_out. rewrite Hto1. cbn [fst snd] in Hk1, Hk2.
  pose proof (out_canon fsqrt n rs Hr swm op0 Hop0 Hno M hp (fst to) psi2 Hk1 Hv2 Hto2) as HO. fold outs in HO.
  destruct (out_state fsqrt (Z.of_nat n) rs swm outs hp (fst to) op0 psi2) as [[[hp' p3] nrm]|] eqn:Eo; cbn [bind].
  2:{ destruct (cn' psi2) as [[p' nrm']|] eqn:Ecn; [contradiction|]. intros (p & q & g & E & _). discriminate. }
  destruct (cn' psi2) as [[p' nrm']|] eqn:Ecn; [|contradiction]. destruct HO as (Hhp & <- & HP & Hv3).
  destruct (GG_serial fsqrt n hOp rs Hw Hr fuel Hf wLoss delta2 ks swm ord e p3 hg Hv3 Hk2) as (hg2 & EG & Hhg).
  unfold GG in EG. match goal with |- context [getGreen ?a1 ?a2 ?a3 ?a4 ?a5 ?a6 ?a7 ?a8 ?a9 ?b1 ?b2 ?b3 ?b4 ?b5 ?b6] => set (G0 := getGreen a1 a2 a3 a4 a5 a6 a7 a8 a9 b1 b2 b3 b4 b5 b6) end.
  assert (EG0 : G0 = [(hg2, gv e p3)]) by exact EG. rewrite EG0. clear G0 EG EG0.
  assert (Ep : gv e p3 = gv e p') by (apply gv_perm; auto). rewrite Ep.
  destruct (gv e p') as [g|] eqn:Eg; cbn [bind].
  - split; [split; auto|]. exists p', nrm, g. auto.
  - intros (p & q & g & E & Ev). injection E as <- <-. congruence.
Qed.
Lemma wouts_iff ord e psi2 hp hg : valid_psi n psi2 -> rank6' (hp, hg) ->
  ((exists st', fold_res (wout ord e psi2) (enumerate outs) (hp, hg, []) = Ok st') <-> ((0 < M)%nat -> exists p nrm g, cn' psi2 = Ok (p, nrm) /\ gv e p = Ok g)).
Proof.
  intros Hv2 Hrk.
  assert (G : forall l st, (forall to, In to l -> snd to = op0 /\ (fst to < M)%nat) -> rank6' (fst st) ->
    ((exists st', fold_res (wout ord e psi2) l st = Ok st') <-> (l <> [] -> exists p nrm g, cn' psi2 = Ok (p, nrm) /\ gv e p = Ok g))).
  { induction l as [|to l IH]; intros [[hp1 hg1] rows] Hto Hk; cbn [fold_res].
    - split; [intros _ C; congruence|eauto].
    - destruct (Hto to (or_introl eq_refl)) as [Hto1 Hto2]. pose proof (wout_iff ord e psi2 hp1 hg1 rows to Hv2 Hk Hto1 Hto2) as X.
      destruct (wout ord e psi2 (hp1, hg1, rows) to) as [st1|x] eqn:E1; cbn [bind].
      + destruct X as [X1 X2]. rewrite (IH st1); auto; [|intros; apply Hto; right; auto]. split; auto.
      + split; [intros [st' C]; discriminate|]. intros H. exfalso. apply X. apply H. discriminate. }
  rewrite (G (enumerate outs) (hp, hg, []) (fun to => outs_spec to) Hrk). unfold outs, enumerate. destruct M; simpl.
  - split; intros H C; [lia|congruence].
  - split; intros H C; apply H; [discriminate|lia].
Qed.
Section Rank.
Variables (tOpIn : op_t F) (iE : nat) (psi1 : psi_t F) (e : F).
Hypothesis Hh : hole' tOpIn iE e psi1.
Variable sys : @system F.
Hypothesis Hsys : sys6 n hOp rs psi1 sys.
Lemma wrank_iff ord r R rk : (r < R)%nat -> rank6' rk ->
  ((exists out, wrank ord e sys r R rk = Ok out) <-> forall iw wIn, In iw (jobs_of (length wIns) R r) -> nth_error wIns iw = Some wIn -> energy_ok psi1 e wIn).
Proof.
  intros HR Hrk. unfold win_rank. rewrite get_job_tasks_eq by auto. cbn [bind]. fold (jobs_of (length wIns) R r).
  assert (G : forall l st, (forall iw, In iw l -> (iw < length wIns)%nat) -> rank6' (fst st) ->
    ((exists out, fold_res (wenergy ord e sys) l st = Ok out) <-> forall iw wIn, In iw l -> nth_error wIns iw = Some wIn -> energy_ok psi1 e wIn)).
  { induction l as [|iw l IH]; intros [[hp hg] g] Hl Hk; cbn [fold_res].
    - split; [intros _ ? ? []|eauto].
    - unfold win_energy at 1. destruct (nth_error wIns iw) as [wIn|] eqn:Ew; [|apply nth_error_None in Ew; specialize (Hl iw (or_introl eq_refl)); lia].
      assert (Ew' : nth_res wIns iw = Ok wIn) by (unfold nth_res; rewrite Ew; auto). rewrite Ew'. cbn [bind].
      destruct (psi2_at bicgstab sys wIn delta1 e) as [psi2|] eqn:E2; cbn [bind].
      2:{ split; [intros [o C]; discriminate|]. intros H. exfalso. destruct (H iw wIn (or_introl eq_refl) Ew) as (psi2 & H2 & _).
          rewrite (sys6_at psi1 sys e wIn psi2 Hsys H2) in E2. discriminate. }
      assert (H2 : is_psi2' psi1 e wIn psi2) by (eapply sys6_psi2; eauto). assert (Hv2 : valid_psi n psi2) by (eapply is_psi2_valid; eauto).
      pose proof (wouts_iff ord e psi2 hp hg Hv2 Hk) as HO.
      destruct (fold_res (wout ord e psi2) (enumerate outs) (hp, hg, [])) as [[[hp' hg'] rows]|] eqn:Eo; cbn [bind].
      + assert (Hk' : rank6' (hp', hg')).
        { pose proof (win_outs6 fsqrt bicgstab n hOp rs Hw Hr fuel Hf wLoss delta1 delta2 ks swm psis es op0 Hop0 Hno M tOpIn iE psi1 e Hh ord wIn psi2 hp hg _ H2 Hk Eo) as (X & _). exact X. }
        rewrite (IH (hp', hg', dset g iw rows)); auto; [|intros; apply Hl; right; auto]. split.
        * intros H iw' wIn' [<-|Hi] E'; [|eapply H; eauto]. replace wIn' with wIn by congruence. exists psi2. split; [auto|]. apply HO. eauto.
        * intros H iw' wIn' Hi E'. apply (H iw'); auto. right. auto.
      + split; [intros [o C]; discriminate|]. intros H. exfalso. destruct (H iw wIn (or_introl eq_refl) Ew) as (psi2' & H2' & H3).
        assert (psi2' = psi2) by (eapply is_psi2_fun; eauto). subst psi2'. apply HO in H3 as [st' C]. discriminate. }
  apply G; [|exact Hrk]. intros iw. apply jobs_bound. auto.
Qed.
End Rank.

Lemma ebh_ok pm ord (psi1 : psi_t F) hs o : pm = Serial \/ pm = HBuild -> ord_ok pm ord -> valid_psi n psi1 -> hs_ok n hOp rs pm hs -> hs <> [] ->
  In o (expand_basis_and_hamiltonian fuel (Z.of_nat n) hOp rs ord pm false (dkeys psi1) hs) -> exists m idx, snd o = Ok (m, idx).
Proof.
  intros Hpm Ho [Hv1 Hv2] [Hh1 Hh2] Hne. destruct Hpm as [->| ->].
  - destruct (ebh_serial n hOp rs Hw Hr fuel ord (dkeys psi1) hs Hh1 Hv1) as (final & HC & HE & HF2); [apply Forall_forall, Hv2|lia|auto|].
    intros Hi. apply (Forall2_in_r _ _ _ _ HF2) in Hi as (? & _ & h' & m' & -> & _). cbn [snd]. eauto.
  - destruct (ebh_hbuild n hOp rs Hw Hr fuel ord (dkeys psi1) hs (Ho eq_refl) Hne Hh1 (Hh2 eq_refl) Hv1) as (final & hs' & m & ms & HC & HE & Hx & Hext & Hnd & _ & E & _ & Hm & _); [apply Forall_forall, Hv2|lia|].
    rewrite E. intros Hi. apply in_map_iff in Hi as (h' & <- & _). cbn [snd]. eauto.
Qed.

Section Win.
Variable pm : pmode.
Hypothesis Hpm : pm = Serial \/ pm = HBuild.
Notation inv := (win_inv6 fsqrt bicgstab n hOp rs fuel wIns wLoss delta1 delta2 ks swm tOpsIn psis es op0 M pm).
Notation wstep := (win_step fsqrt bicgstab fuel (Z.of_nat n) hOp wIns wLoss delta1 delta2 rs ks swm outs psis es pm).
Lemma win_step7 R (ord : nat -> set_order) tIn tOpIn done st iE : (1 <= R)%nat -> ord_ok pm ord -> nth_error tOpsIn tIn = Some tOpIn ->
  inv R tOpIn (seq 0 iE) done st -> ((exists st', wstep ord tIn tOpIn st iE = Run st') <-> step_ok tOpIn iE).
Proof.
  intros HR Ho Ht [I1 I1' I2 I3 I4 I5 _]. unfold win_step. cbv zeta.
  assert (Hwt : wf_op n tOpIn) by (rewrite Forall_forall in HtIn; apply HtIn; eapply nth_error_In; eauto).
  destruct (core_hole (Z.of_nat n) rs swm psis es tOpIn (wi_tbig st) iE) as [[[tb e] psi1]|x0] eqn:Ec; cbn [all_ranks rbind].
  2:{ split; [intros [s C]; discriminate|]. intros (e & psi1 & (tb0 & tb & Ea & Eb) & _). exfalso.
      assert (tb0 = wi_tbig st) by (unfold tb_at in *; congruence). subst tb0. assert (X := eq_trans (eq_sym Eb) Ec). discriminate X. }
  assert (Hhole : hole' tOpIn iE e psi1) by (exists (wi_tbig st), tb; auto).
  assert (Hv1 : valid_psi n psi1) by (eapply core6 in Ec as (_ & ?); eauto).
  assert (Hne : wi_ex st <> []) by (intros C; rewrite C in I3; simpl in I3; lia).
  destruct (ebh_any6 n hOp rs Hw Hr fuel Hf pm ord psi1 (wi_ex st) Hpm Ho Hv1 I2 Hne) as (Le & _ & Hm).
  pose proof (fun o => ebh_ok pm ord psi1 (wi_ex st) o Hpm Ho Hv1 I2 Hne) as Hok.
  set (ebh := expand_basis_and_hamiltonian _ _ _ _ _ _ _ _ _) in *. clearbody ebh.
  match goal with |- context [together (map ?f0 _)] => set (f := f0) end.
  assert (Le' : length ebh = R) by (rewrite <- I3; exact Le).
  assert (Lc : length (combine ebh (wi_rk st)) = R) by (rewrite combine_length, Le', I5; apply Nat.min_id).
  assert (Hf1 : forall r ob rk, (r < R)%nat -> In (ob, rk) (combine ebh (wi_rk st)) ->
     ((exists o, f (r, (ob, rk)) = Ok o) <-> forall iw wIn, In iw (jobs_of (length wIns) R r) -> nth_error wIns iw = Some wIn -> energy_ok psi1 e wIn)).
  { intros r ob rk Hr' Hi. assert (Hob := in_combine_l _ _ _ _ Hi). assert (Hrk := in_combine_r _ _ _ _ Hi).
    destruct (Hok ob Hob) as (m & idx & Es). unfold f. cbn [fst snd]. rewrite Es. cbn [bind].
    destruct (Hm ob m idx Hob Es) as (basis & -> & HE & HC & HRm).
    assert (Hin : forall k, In k (dkeys psi1) -> In k basis).
    { destruct HC as ((new & ->) & _). intros k Hk. apply in_or_app. auto. }
    destruct (psi_vec_ok basis psi1 (proj1 (proj2 HC)) (proj1 Hv1) Hin) as (y & Ey & _).
    match goal with |- context [bind ?X _] => replace X with (Ok y) by (symmetry; exact Ey) end. cbn [bind]. rewrite I3.
    rewrite Forall_forall in I4. apply (wrank_iff tOpIn iE psi1 e Hhole (m, basis_index basis, y)); auto. exists basis, m, y. auto. }
  assert (Hstep : step_ok tOpIn iE <-> forall iw wIn, nth_error wIns iw = Some wIn -> energy_ok psi1 e wIn).
  { split; [|intros H; exists e, psi1; auto]. intros (e' & psi1' & Hh' & H). destruct (hole_fun _ _ _ _ _ _ _ _ _ _ _ Hh' Hhole) as [-> ->]. auto. }
  rewrite Hstep. split.
  - intros [st' E] iw wIn Ew. destruct (together (map f (enumerate (combine ebh (wi_rk st))))) as [l|] eqn:Et; [|discriminate]. apply together_run in Et.
    assert (Hiw : (iw < length wIns)%nat) by (apply nth_error_Some; congruence).
    destruct (jobs_partition (length wIns) R iw HR Hiw) as (r & Hr' & Hj).
    destruct (nth_error (combine ebh (wi_rk st)) r) as [[ob rk]|] eqn:Ex; [|apply nth_error_None in Ex; lia].
    destruct (nth_map_ok _ _ _ _ _ Et (nth_enum_eq _ _ _ Ex)) as (o' & _ & Ef). apply nth_error_In in Ex.
    apply (proj1 (Hf1 r ob rk Hr' Ex)) with (iw := iw); auto. eauto.
  - intros H. destruct (together_ok (map f (enumerate (combine ebh (wi_rk st))))) as (l & El).
    + intros x Hx. apply in_map_iff in Hx as ([r [ob rk]] & <- & Hi). apply enumerate_nth in Hi.
      assert (Hr' : (r < R)%nat) by (rewrite <- Lc; apply nth_error_Some; congruence). apply nth_error_In in Hi.
      destruct (proj2 (Hf1 r ob rk Hr' Hi)) as (o & Eo); [intros; eauto|]. rewrite Eo. reflexivity.
    + rewrite El. cbn [rbind]. eauto.
Qed.
Lemma win_run7 (ord : nat -> nat -> nat -> set_order) hg : (forall t i, ord_ok pm (ord t i)) -> hg <> [] -> Forall (hdict_exact n hOp rs) hg ->
  ((exists st, win_run fsqrt bicgstab fuel (Z.of_nat n) hOp wIns wLoss delta1 delta2 rs ks swm tOpsIn outs psis es pm ord hg = Run st) <->
   forall tOpIn iE, In tOpIn tOpsIn -> (iE < length es)%nat -> step_ok tOpIn iE).
Proof.
  intros Ho Hne Hhg. set (R := length hg). assert (HR : (1 <= R)%nat) by (unfold R; destruct hg; [congruence|simpl; lia]).
  pose (inv0 := fun (st : @win_state F) => hs_ok n hOp rs pm (wi_ex st) /\ length (wi_ex st) = R /\ Forall rank6' (wi_rk st) /\ length (wi_rk st) = R /\ exists gs, wi_gs st = repeat gs R).
  assert (Hg0 : forall gs, gs6 fsqrt bicgstab n hOp rs fuel wIns wLoss delta1 delta2 ks swm tOpsIn psis es op0 M (fun _ _ => False) gs) by (intros gs t i tO iw wi tOut []).
  assert (Hin : forall t tOp pre iE post s, nth_error tOpsIn t = Some tOp -> seq 0 (length es) = pre ++ iE :: post -> inv R tOp pre (fun _ _ => False) s ->
     ((exists s', wstep (ord t iE) t tOp s iE = Run s') <-> step_ok tOp iE) /\
     forall s', wstep (ord t iE) t tOp s iE = Run s' -> inv R tOp (pre ++ [iE]) (fun _ _ => False) s').
  { intros t tOp pre iE post s Et El HI. destruct (seq_split _ _ _ _ El) as [_ ->]. split; [eapply win_step7; eauto|]. intros s' Es.
    eapply win_step6 in Es; eauto. destruct Es as [J1 J1' J2 J3 J4 J5 (gs' & J6 & _)]. constructor; auto. exists gs'. auto. }
  unfold win_run.
  rewrite (fold_run_iff _ (fun pre st => inv0 st) (fun ttOp => forall iE, (iE < length es)%nat -> step_ok (snd ttOp) iE)).
  - split.
    + intros H tOpIn iE Hi L. apply In_nth_error in Hi as (t & Et). apply nth_enumerate in Et. apply (H (t, tOpIn) Et iE L).
    + intros H [t tOp] Hi iE L. apply H; auto. apply enum_snd in Hi. exact Hi.
  - intros pre [t tOp] post s El (H1 & H2 & H3 & H4 & gs & H5). cbn [fst snd].
    assert (Et : nth_error tOpsIn t = Some tOp) by (apply enumerate_nth; rewrite El; apply in_or_app; right; left; auto).
    rewrite (fold_run_iff _ (fun pre2 st => inv R tOp pre2 (fun _ _ => False) st) (fun iE => step_ok tOp iE)).
    + split; intros H iE L; apply H; apply in_seq in L || apply in_seq; lia.
    + intros pre2 iE post2 s1 El2 HI. apply (Hin t tOp pre2 iE post2 s1 Et El2 HI).
    + intros pre2 iE post2 s1 s2 El2 HI. apply (Hin t tOp pre2 iE post2 s1 Et El2 HI).
    + constructor; cbn [wi_tbig wi_ex wi_rk wi_gs]; auto; [apply cache_ok_nil|reflexivity|]. exists gs. auto.
  - intros pre [t tOp] post s s' El (H1 & H2 & H3 & H4 & gs & H5) Er. cbn [fst snd] in Er.
    assert (Et : nth_error tOpsIn t = Some tOp) by (apply enumerate_nth; rewrite El; apply in_or_app; right; left; auto).
    apply (fold_run_inv _ (fun pre2 st => inv R tOp pre2 (fun _ _ => False) st)) in Er.
    + destruct Er as [J1 J1' J2 J3 J4 J5 (gs' & J6 & _)]. unfold inv0. split; [auto|]. split; [auto|]. split; [auto|]. split; [auto|]. exists gs'. auto.
    + intros pre2 iE post2 s1 s2 El2 HI. apply (Hin t tOp pre2 iE post2 s1 Et El2 HI).
    + constructor; cbn [wi_tbig wi_ex wi_rk wi_gs]; auto; [apply cache_ok_nil|reflexivity|]. exists gs. auto.
  - unfold inv0. cbn [wi_tbig wi_ex wi_rk wi_gs]. rewrite !map_length. split; [|split; [auto|split; [|split; [auto|]]]].
    + split; [apply Forall_forall; intros x Hx; apply in_map_iff in Hx as (? & <- & _); apply exact_nil|]. intros _. clear. induction hg; simpl; [constructor|auto].
    + apply Forall_forall. intros x Hx. apply in_map_iff in Hx as (hx & <- & Hx). rewrite Forall_forall in Hhg. split; [|apply Hhg; auto].
      exists []. split; [reflexivity|]. intros k col Ek. discriminate.
    + exists (g4zeros (length wLoss)). unfold R. clear. induction hg; simpl; congruence.
Qed.
End Win.
End LRIXS7.
