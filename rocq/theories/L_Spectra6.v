(* getSpectra: results of both modes; signs of the written spectra *)
From Coq Require Import Lia List Bool Permutation Field Ring.
From Verif Require Import M_Prelude M_Scalar M_PSR M_Ladder M_State M_Mpi M_Hamiltonian M_Lanczos M_Average M_Spectra M_Simulate S_Fock S_Ham S_Ops S_Green S_Thermal
  L_PSR L_Ladder L_Scalar L_Dict L_Sum L_Fock L_State L_ApplyOp L_Ops L_FockP L_Ham L_Expand L_Average L_Green L_Green2 L_Green3 L_Green4 L_Spectra L_Spectra2 L_Spectra3 L_Spectra4 L_Spectra5.
Import ListNotations.
Local Open Scope cx_scope.

Lemma map_res_nth {A B} (f : A -> res B) l r : map_res f l = Ok r -> length r = length l /\ forall t a, nth_error l t = Some a -> exists b, f a = Ok b /\ nth_error r t = Some b.
Proof.
  revert r. induction l as [|x l IH]; simpl; intros r E; [injection E as <-; split; [auto|intros [|]; discriminate]|].
  destruct (f x) as [y|] eqn:Ex; [|discriminate]. cbn [bind] in E. destruct (map_res f l) as [r0|]; [|discriminate]. injection E as <-.
  destruct (IH r0 eq_refl) as [H1 H2]. simpl. split; [auto|]. intros [|t] a Ha; simpl in *; [injection Ha as <-; eauto|]. apply H2; auto.
Qed.
Lemma nth_res_ok {A} (l : list A) i a : nth_res l i = Ok a -> nth_error l i = Some a.
Proof. unfold nth_res. destruct (nth_error l i); [intros E; injection E as <-; auto|discriminate]. Qed.
Lemma hd_map_nth {A B} (f : A -> B) (l : list A) (d : B) r : nth_error l r <> None -> nth_error (map f l) r = match nth_error l r with Some a => Some (f a) | None => None end.
Proof. intros _. revert r. induction l; intros [|r]; simpl; auto. Qed.

Section Exact.
Context {F : ofield}.
Add Field Ff : (f_field F).
Add Ring Cring : (@c_ring F).
Add Field Cf : (@c_field F).
Variable fsqrt : F -> F.
Variable n : nat.
Variable op : op_t F.
Variable rs : option restrictions_t.
Hypothesis Hw : wf_op n op.
Hypothesis Hr : wf_restr rs.
Variable fuel : nat.
Hypothesis Hf : (2 ^ n < fuel)%nat.
Variable w : list F.
Variable delta : F.
Variable ks : Z.
Variable swm : F.
Variable tOps : list (op_t F).
Hypothesis HT : Forall (wf_op n) tOps.
Variable psis : list (psi_t F).
Hypothesis HP : Forall (valid_psi n) psis.
Variable es : list F.
Notation GS ord R pm := (getSpectra fsqrt fuel (Z.of_nat n) op w delta rs ks swm ord R tOps psis es pm).

Lemma es_cases ord R : (1 <= R)%nat ->
  (exists gs, GS ord R EigenStates = repeat (Ok gs) R /\ forall i t psi e tOp, nth_error psis i = Some psi -> nth_error es i = Some e -> nth_error tOps t = Some tOp ->
      exists psiR psiN nrm g, applyOp (Z.of_nat n) tOp psi swm rs None = (None, Ok psiR) /\ valid_psi n psiR /\
        (forall c, length c = n -> In (key c) (dkeys psiR) -> allowed_opt rs c) /\
        normalise fsqrt psiR = Ok (psiN, nrm) /\ gval fsqrt n op rs fuel w delta ks swm e psiN = Ok g /\ gs i t = vmul (nrm * nrm)%F g) /\
    (length es <= length psis)%nat \/
  (Forall (fun x => is_ok x = false) (GS ord R EigenStates) /\ length (GS ord R EigenStates) = R /\
     exists i, (i < length es)%nat /\ is_ok (rowval fsqrt n op rs fuel w delta ks swm tOps psis es i) = false).
Proof.
  intros HR. destruct (eigen_states_val fsqrt n op rs Hw Hr fuel Hf w delta ks swm tOps HT psis HP es ord R HR) as (HL & H1 & H2). cbv zeta in *.
  set (rv := rowval fsqrt n op rs fuel w delta ks swm tOps psis es) in *.
  destruct (forallb (fun i => is_ok (rv i)) (seq 0 (length es))) eqn:Eb.
  - left. assert (Hall : forall i, (i < length es)%nat -> is_ok (rv i) = true).
    { intros i Hi. rewrite forallb_forall in Eb. apply Eb. apply in_seq. lia. }
    destruct (H1 Hall) as (gs & E & Hgs). split.
    + exists gs. split; [auto|]. intros i t psi e tOp Hpsi He Htop.
      assert (Hi : (i < length es)%nat) by (apply nth_error_Some; congruence).
      specialize (Hall i Hi). destruct (rv i) as [rows|] eqn:Er; [|discriminate]. rewrite (Hgs i rows Hi Er t).
      unfold rv, rowval in Er. unfold nth_res in Er. rewrite Hpsi, He in Er. cbn [bind] in Er.
      apply map_res_nth in Er as [_ Hn]. destruct (Hn t tOp Htop) as (v & Ev & Env).
      assert (Hv : valid_psi n psi) by (rewrite Forall_forall in HP; apply HP; eapply nth_error_In; eauto).
      assert (Hto : wf_op n tOp) by (rewrite Forall_forall in HT; apply HT; eapply nth_error_In; eauto).
      destruct (trans_ok n rs Hr swm psi tOp Hto Hv) as (psiR & Et & EA & HvR & Hal).
      rewrite Et in Ev. cbn [bind] in Ev. unfold entry_val in Ev. destruct (normalise fsqrt psiR) as [[psiN nrm]|] eqn:En; [|discriminate]. cbn [bind] in Ev.
      destruct (gval fsqrt n op rs fuel w delta ks swm e psiN) as [g|] eqn:Eg; [|discriminate]. cbn [bind] in Ev. injection Ev as <-.
      exists psiR, psiN, nrm, g. rewrite (nth_error_nth _ _ _ Env). auto 10.
    + destruct (Nat.le_gt_cases (length es) (length psis)) as [|C]; auto. exfalso. specialize (Hall (length psis) C).
      unfold rv, rowval, nth_res in Hall. rewrite (proj2 (nth_error_None psis (length psis)) (Nat.le_refl _)) in Hall. discriminate.
  - right. assert (Hex : exists i, (i < length es)%nat /\ is_ok (rv i) = false).
    { clear -Eb. destruct (existsb (fun i => negb (is_ok (rv i))) (seq 0 (length es))) eqn:Ex.
      - apply existsb_exists in Ex as (i & Hi & Hn). exists i. apply in_seq in Hi. split; [lia|]. destruct (is_ok (rv i)); [discriminate|auto].
      - exfalso. assert (C : forallb (fun i => is_ok (rv i)) (seq 0 (length es)) = true); [|congruence].
        apply forallb_forall. intros i Hi. destruct (is_ok (rv i)) eqn:Ei; auto.
        assert (D : existsb (fun i => negb (is_ok (rv i))) (seq 0 (length es)) = true) by (apply existsb_exists; exists i; rewrite Ei; auto). congruence. }
    split; [apply H2; auto|]. split; auto.
Qed.

(* all ranks agree and agree with a single rank *)
Lemma es_ranks ord ord' R R' : (1 <= R)%nat -> (1 <= R')%nat ->
  (exists gs gs', GS ord R EigenStates = repeat (Ok gs) R /\ GS ord' R' EigenStates = repeat (Ok gs') R' /\
     forall i t, (i < length es)%nat -> (t < length tOps)%nat -> gs i t = gs' i t) \/
  (length (GS ord R EigenStates) = R /\ length (GS ord' R' EigenStates) = R' /\
   Forall (fun x => is_ok x = false) (GS ord R EigenStates) /\ Forall (fun x => is_ok x = false) (GS ord' R' EigenStates)).
Proof.
  intros HR HR'.
  destruct (eigen_states_val fsqrt n op rs Hw Hr fuel Hf w delta ks swm tOps HT psis HP es ord R HR) as (HL & H1 & H2).
  destruct (eigen_states_val fsqrt n op rs Hw Hr fuel Hf w delta ks swm tOps HT psis HP es ord' R' HR') as (HL' & H1' & H2'). cbv zeta in *.
  destruct (es_cases ord R HR) as [[(gs & E & Hgs) Hlen]|(HF & _ & Hex)].
  - left. destruct (es_cases ord' R' HR') as [[(gs' & E' & Hgs') _]|(HF' & _ & Hex)].
    + exists gs, gs'. split; [auto|]. split; [auto|]. intros i t Hi Ht.
      destruct (nth_error psis i) as [psi|] eqn:Ep; [|apply nth_error_None in Ep; lia].
      destruct (nth_error es i) as [e|] eqn:Ee; [|apply nth_error_None in Ee; lia].
      destruct (nth_error tOps t) as [tOp|] eqn:Et; [|apply nth_error_None in Et; lia].
      destruct (Hgs i t psi e tOp Ep Ee Et) as (a & b & c & d & A1 & _ & _ & A2 & A3 & ->).
      destruct (Hgs' i t psi e tOp Ep Ee Et) as (a' & b' & c' & d' & B1 & _ & _ & B2 & B3 & ->).
      assert (a' = a) by congruence. subst a'. rewrite A2 in B2. injection B2 as <- <-. rewrite A3 in B3. injection B3 as <-. auto.
    + exfalso. specialize (H2 Hex). rewrite E in H2. destruct R; [lia|]. inversion H2; discriminate.
  - right. auto.
Qed.

(* ---- exactness ---- *)
Variable hop : config -> config -> cx F.
Hypothesis HS : sqrt_laws fsqrt.
Hypothesis HH : assert_hermitian op = Ok tt.
Hypothesis Hd : delta <> 0%F.
Hypothesis Hop : restricted_op n op rs hop.
Hypothesis Hks : (Z.of_nat (2 ^ n) <= ks)%Z.

Lemma es_exact ord R gs i t psi e tOp : (1 <= R)%nat -> In (Ok gs) (GS ord R EigenStates) ->
  nth_error psis i = Some psi -> nth_error es i = Some e -> nth_error tOps t = Some tOp ->
  exists psiR, applyOp (Z.of_nat n) tOp psi swm rs None = (None, Ok psiR) /\ length (gs i t) = length w /\
    forall k, (k < length w)%nat -> fock_green n (mkC (nth k w 0 + e)%F delta) hop psiR (nth k (gs i t) c0).
Proof.
  intros HR Hin Ep Ee Et. destruct (es_cases ord R HR) as [[(gs' & E & Hgs) _]|(HF & _ & _)].
  - rewrite E in Hin. apply repeat_spec in Hin. injection Hin as <-.
    destruct (Hgs i t psi e tOp Ep Ee Et) as (psiR & psiN & nrm & g & EA & Hv & Hal & En & Eg & ->).
    exists psiR. split; [auto|].
    destruct (entry_exact fsqrt HS n op rs Hw Hr HH hop Hop fuel Hf w delta Hd ks Hks swm e psiR psiN nrm g Hv Hal En Eg) as [HL Hk].
    split; [unfold vmul; rewrite map_length; auto|auto].
  - rewrite Forall_forall in HF. specialize (HF _ Hin). discriminate.
Qed.

Section HB.
Variable ord : nat -> nat -> nat -> set_order.
Hypothesis Hord : forall t i q l, Permutation (ord t i q l) l.
Lemma hb_values R i t e tOp g0 rest : (1 <= R)%nat -> GS ord R SHBuild = map Ok (g0 :: rest) ->
  nth_error es i = Some e -> nth_error tOps t = Some tOp ->
  exists psi cache psiR, nth_error psis i = Some psi /\ cache_ok n tOp swm rs cache /\
    snd (applyOp (Z.of_nat n) tOp psi swm rs (Some cache)) = Ok psiR /\ length (g0 i t) = length w /\
    (forall k, (k < length w)%nat -> fock_green n (mkC (nth k w 0 + e)%F delta) hop psiR (nth k (g0 i t) c0)) /\
    forall gr, In gr rest -> gr i t = map (fun x => creal (norm2 psiR) / mkC (x + e)%F delta) w.
Proof.
  intros HR E Ee Et. unfold getSpectra in E. destruct (hb_run fsqrt fuel (Z.of_nat n) op w delta rs ks swm ord psis es tOps R) as [st|l] eqn:Er; [|destruct l; discriminate].
  assert (Eg : hb_gs st = g0 :: rest). { revert E. generalize (hb_gs st) as a, (g0 :: rest) as b. induction a as [|x a IH]; intros [|y b] E; try discriminate; auto. simpl in E. injection E as -> E. f_equal; auto. }
  destruct (hb_run_done fsqrt n op rs Hw Hr fuel Hf w delta Hd ks swm tOps HT psis HP es ord Hord R HR st Er) as [_ Hdone].
  destruct (Hdone t i) as (tOp' & e' & psiR & psiN & nrm & g & E1 & (E2 & En & HvR & HvN & Hal & psi & cache & Ep & Hv & Hc & EA) & Eg' & Ev).
  { apply nth_error_Some. congruence. } { apply nth_error_Some. congruence. }
  rewrite Et in E1. injection E1 as <-. rewrite Ee in E2. injection E2 as <-.
  unfold vals_at in Ev. rewrite Eg in Ev. cbn [map] in Ev. injection Ev as Ev0 Evr.
  exists psi, cache, psiR. split; [auto|]. split; [apply cache_ok_iff; auto|]. split; [auto|].
  destruct (entry_exact fsqrt HS n op rs Hw Hr HH hop Hop fuel Hf w delta Hd ks Hks swm e psiR psiN nrm g HvR Hal En Eg') as [HL Hk].
  split; [rewrite Ev0; unfold vmul; rewrite map_length; auto|]. split; [rewrite Ev0; auto|].
  intros gr Hgr. assert (Hg : gr i t = vmul (nrm * nrm)%F (free_green w delta e psiN)).
  { apply (in_map (fun gs : garr F => gs i t)) in Hgr. cbv beta in Hgr. rewrite Evr in Hgr. apply repeat_spec in Hgr. auto. }
  rewrite Hg. destruct (normalise_cases fsqrt psiR psiN nrm En) as (Enrm & EN & Hcase).
  assert (Hn2 : (nrm * nrm)%F = norm2 psiR) by (rewrite Enrm; apply (sqrt_norm fsqrt HS)). rewrite Hn2.
  destruct psiR as [|p0 psi0].
  - subst psiN. cbn [scale_psi map free_green]. unfold vmul. clear. induction w as [|x l IH]; simpl; [auto|]. f_equal; auto.
    change (norm2 []) with (0%F : F). unfold cdiv. rewrite !creal_0. ring.
  - subst psiN. cbn [scale_psi map free_green]. unfold vmul. rewrite map_map. apply map_ext. intros x. unfold cdiv. ring.
Qed.
(* with no small elements the cache is harmless *)
Lemma hb_exact R i t psi e tOp g0 rest : (1 <= R)%nat -> GS ord R SHBuild = map Ok (g0 :: rest) ->
  nth_error psis i = Some psi -> nth_error es i = Some e -> nth_error tOps t = Some tOp ->
  (forall a b, length a = n -> length b = n -> allowed_opt rs b -> opelem tOp b a = c0 \/ (swm <= cabs2 (opelem tOp b a))%F) ->
  exists psiR, applyOp (Z.of_nat n) tOp psi swm rs None = (None, Ok psiR) /\ length (g0 i t) = length w /\
    forall k, (k < length w)%nat -> fock_green n (mkC (nth k w 0 + e)%F delta) hop psiR (nth k (g0 i t) c0).
Proof.
  intros HR E Ep Ee Et Hsm. destruct (hb_values R i t e tOp g0 rest HR E Ee Et) as (psi' & cache & psiR & Ep' & Hc & EA & HL & Hk & _).
  rewrite Ep in Ep'. injection Ep' as <-.
  assert (Hto : wf_op n tOp) by (rewrite Forall_forall in HT; apply HT; eapply nth_error_In; eauto).
  assert (Hv : valid_psi n psi) by (rewrite Forall_forall in HP; apply HP; eapply nth_error_In; eauto).
  destruct (applyOp_cache_same n tOp psi swm rs cache Hr Hto Hv Hc) as (cache' & r & r0 & E1 & E0 & Ha); [intros; apply Hsm; auto|].
  rewrite E1 in EA. cbn [snd] in EA. injection EA as <-.
  exists r0. split; [auto|]. split; [auto|]. intros k Hlt. apply (fock_green_ext n _ _ r0 r); auto. intros; symmetry; auto.
Qed.
End HB.
End Exact.

Section HBRanks.
Context {F : ofield}.
Variable fsqrt : F -> F.
Lemma hb_ranks n op rs (Hw : wf_op n op) (Hr : wf_restr rs) fuel (Hf : (2 ^ n < fuel)%nat) w delta (Hd : delta <> 0%F) ks swm tOps (HT : Forall (wf_op n) tOps)
  psis (HP : Forall (valid_psi n) psis) (es : list F) ord ord' (Hord : forall t i q l, Permutation (ord t i q l) l) (Hord' : forall t i q l, Permutation (ord' t i q l) l) R R' :
  (1 <= R)%nat -> (1 <= R')%nat ->
  exists r others others', getSpectra fsqrt fuel (Z.of_nat n) op w delta rs ks swm ord R tOps psis es SHBuild = r :: others /\
    getSpectra fsqrt fuel (Z.of_nat n) op w delta rs ks swm ord' R' tOps psis es SHBuild = r :: others'.
Proof.
  intros HR HR'. unfold getSpectra.
  pose proof (hb_run_sim fsqrt n op rs Hw Hr fuel Hf w delta Hd ks swm tOps HT psis HP es ord ord' Hord Hord' R R' HR HR') as H.
  destruct (hb_run _ _ _ _ _ _ _ _ _ ord _ _ _ _) as [st|l], (hb_run _ _ _ _ _ _ _ _ _ ord' _ _ _ _) as [st'|l']; cbn [rsim] in H; try tauto.
  - destruct H as [(_ & _ & _ & a & m & m' & -> & ->) _]. simpl. eauto.
  - destruct H as (a & m & m' & -> & ->). simpl. eauto.
Qed.
End HBRanks.

(* ---- signs of the written spectra ---- *)
Section Signs.
Context {F : ofield}.
Add Field Ff3 : (f_field F).
Add Ring Cring3 : (@c_ring F).
Variables fsqrt fexp : F -> F.
Hypothesis HE : exp_laws fexp.
Variable k_B : F.
Local Open Scope of_scope.
Definition re_nonneg (v : list (cx F)) : Prop := Forall (fun x => 0 <= re x) v.
Lemma vadd_nonneg x y : re_nonneg x -> re_nonneg y -> re_nonneg (vadd x y).
Proof.
  unfold re_nonneg, vadd. intros H. revert y. induction H as [|a x Ha Hx IH]; intros [|b y] Hy; simpl; constructor; inversion Hy; subst; auto.
  simpl. apply fadd_nonneg; auto.
Qed.
Lemma vscale_nonneg c x : 0 <= c -> re_nonneg x -> re_nonneg (vscale c x).
Proof.
  intros Hc. unfold re_nonneg, vscale. induction 1 as [|a x Ha Hx IH]; simpl; constructor; auto. simpl.
  replace (c * re a - 0 * im a) with (c * re a) by ring. apply fmul_nonneg; auto.
Qed.
Lemma avg_nonneg energies obs T r : Forall re_nonneg obs -> thermal_average fexp k_B energies obs T = Ok r -> re_nonneg r.
Proof.
  intros Ho. unfold thermal_average. destruct (np_shape0 obs) as [m|] eqn:Es; [|discriminate]. cbn [bind].
  destruct (negb _) eqn:En; [discriminate|]. destruct (np_min energies) as [sh|] eqn:Em; [|discriminate]. cbn [bind]. intros E. injection E as <-.
  apply Bool.negb_false_iff, Nat.eqb_eq in En.
  set (wt := fun eo : F * list (cx F) => fexp (- (fst eo - sh) / (k_B * T))).
  assert (G : forall l z acc, (forall eo, In eo l -> re_nonneg (snd eo)) -> (0 <= z) -> re_nonneg acc ->
    let st := fold_left (fun st (eo : F * list (cx F)) => (fst st + wt eo, vadd (snd st) (vscale (wt eo) (snd eo)))) l (z, acc) in
    (0 <= fst st) /\ (l <> [] -> 0 < fst st) /\ re_nonneg (snd st)).
  { induction l as [|eo l IH]; intros z acc Hl Hz Ha; cbn [fold_left]; [simpl; split; [auto|split; [congruence|auto]]|].
    cbn [fst snd]. assert (Hp : 0 < z + wt eo).
    { replace (z + wt eo) with (wt eo + z) by ring. apply fadd_pos; auto. apply (proj1 HE). }
    destruct (IH (z + wt eo) (vadd acc (vscale (wt eo) (snd eo)))) as (A & B & C).
    - intros; apply Hl; right; auto.
    - apply flt_le; auto.
    - apply vadd_nonneg; auto. apply vscale_nonneg; [apply flt_le, (proj1 HE)|apply Hl; left; auto].
    - split; [auto|]. split; [|auto]. intros _. destruct l; [simpl; auto|]. apply B. discriminate. }
  destruct (G (combine energies obs) 0 (repeat c0 (length (hd [] obs)))) as (_ & Hz & HA).
  - intros [e o] Hi. apply in_combine_r in Hi. rewrite Forall_forall in Ho. auto.
  - apply fle_refl.
  - apply Forall_forall. intros x Hx. apply repeat_spec in Hx. subst. apply fle_refl.
  - assert (Hne : combine energies obs <> []).
    { destruct energies as [|e es]; [discriminate|]. destruct obs as [|o os]; [simpl in Es; injection Es as <-; discriminate|]. discriminate. }
    specialize (Hz Hne). fold wt. set (st := fold_left _ _ _) in *.
    clear -Hz HA. unfold re_nonneg in *. apply Forall_forall. intros x Hx. apply in_map_iff in Hx as (y & <- & Hy).
    rewrite Forall_forall in HA. specialize (HA y Hy).
    assert (E : re (cdiv y (creal (fst st))) = re y / fst st).
    { unfold cdiv, cinv, creal, cmul, cabs2; simpl. field. intros C. rewrite C in Hz. exact (flt_not_eq _ _ Hz eq_refl). }
    rewrite E. apply fdiv_nonneg; auto.
Qed.
Lemma firstn_Forall {A} (P : A -> Prop) m l : Forall P l -> Forall P (firstn m l).
Proof. intros H. revert m. induction H; intros [|m]; simpl; constructor; auto. Qed.
Lemma skipn_Forall {A} (P : A -> Prop) m l : Forall P l -> Forall P (skipn m l).
Proof. intros H. revert m. induction H; intros [|m]; simpl; auto. Qed.
Lemma columns_nonneg mesh es T nT gs cols : (forall i t, Forall (fun x => im x <= 0) (gs i t)) ->
  columns fexp k_B mesh es T nT gs = Ok cols -> exists rest, cols = mesh :: rest /\ length rest = S nT /\ Forall (Forall (fun x => 0 <= x)) rest.
Proof.
  intros Hs. unfold columns. destruct (thermal_average _ _ _ _ _) as [a|] eqn:Ea; [|discriminate]. cbn [bind]. intros E. injection E as <-.
  apply avg_nonneg in Ea.
  - assert (Hrow : Forall (Forall (fun x => 0 <= x)) (map (arow (length mesh) a) (seq 0 nT))).
    { apply Forall_forall. intros row Hrow. apply in_map_iff in Hrow as (t & <- & _). unfold arow. apply Forall_forall. intros x Hx.
      apply in_map_iff in Hx as (y & <- & Hy). unfold re_nonneg in Ea. apply (skipn_Forall _ (t * length mesh)) in Ea. apply (firstn_Forall _ (length mesh)) in Ea.
      rewrite Forall_forall in Ea. apply Ea. auto. }
    eexists. split; [reflexivity|]. split; [simpl; rewrite map_length, seq_length; auto|]. constructor; auto.
    unfold sum_axis0. assert (H0 : Forall (fun x => 0 <= x) (repeat (0 : F) (length mesh))) by (apply Forall_forall; intros x Hx; apply repeat_spec in Hx; subst; apply fle_refl).
    revert H0. generalize (repeat (0 : F) (length mesh)) as acc. induction Hrow as [|row rows H1 H2 IH]; intros acc H0; simpl; auto.
    apply IH. unfold radd. clear -H0 H1. revert row H1. induction H0 as [|x acc Hx Ha IH]; intros [|y row] H1; simpl; constructor; inversion H1; subst; auto.
    simpl. apply fadd_nonneg; auto.
  - unfold neg_imag. apply Forall_forall. intros v Hv. apply in_map_iff in Hv as (i & <- & _). unfold re_nonneg. apply Forall_forall. intros x Hx.
    apply in_flat_map in Hx as (t & _ & Hx). apply in_map_iff in Hx as (y & <- & Hy). simpl. apply fopp_nonneg.
    specialize (Hs i t). rewrite Forall_forall in Hs. auto.
Qed.
Lemma signed_le (delta : F) v : 0 < delta -> signed delta v -> Forall (fun x => im x <= 0) v.
Proof.
  intros Hd. unfold signed. apply Forall_impl. intros x Hx. destruct (0 <? im x) eqn:H; auto.
  exfalso. assert (C : 0 < delta * im x) by (apply flt_mul; auto).
  exact (flt_not_eq _ _ (flt_le_trans _ _ _ C Hx) eq_refl).
Qed.
Lemma signed_opp (delta : F) v : 0 < delta -> signed (- delta) v -> Forall (fun x => im x <= 0) (map copp v).
Proof.
  intros Hd Hs. apply (signed_le delta); auto. unfold signed in *. apply Forall_forall. intros x Hx. apply in_map_iff in Hx as (y & <- & Hy).
  rewrite Forall_forall in Hs. specialize (Hs y Hy). simpl. replace (delta * - im y) with (- delta * im y) by ring. auto.
Qed.
Lemma fpos_opp (delta : F) : 0 < delta -> - delta <> 0.
Proof. intros H C. apply (flt_not_eq _ _ H). replace delta with (- - delta) by ring. rewrite C. ring. Qed.
Lemma fpos_neq (delta : F) : 0 < delta -> delta <> 0.
Proof. intros H C. apply (flt_not_eq _ _ H). auto. Qed.

Variable fuel : nat.
Variables (n : Z) (hOp : op_t F) (rs : option restrictions_t) (ks : Z) (swm : F).
Variable ord : nat -> nat -> nat -> set_order.
Variable ranks : nat.
Variables (psis : list (psi_t F)) (es : list F) (T : F) (w : list F) (delta : F).
Hypothesis Hd : 0 < delta.
Definition written (cols : list (list F)) (mesh : list F) (nT : nat) : Prop :=
  exists rest, cols = mesh :: rest /\ length rest = S nT /\ Forall (Forall (fun x => 0 <= x)) rest.
Lemma absorption_nonneg tOps cols : In (Ok cols) (absorption fsqrt fexp k_B fuel n hOp rs ks swm ord ranks psis es T w delta tOps) -> written cols w (length tOps).
Proof.
  intros Hin. apply in_map_iff in Hin as (r & E & Hr). destruct r as [gs|]; [|discriminate]. cbn [bind] in E.
  eapply columns_nonneg; [|exact E]. intros i t. apply (signed_le delta); auto.
  apply (getSpectra_signed fsqrt fuel n hOp w delta rs ks swm (fpos_neq delta Hd) ord ranks tOps psis es SHBuild gs Hr).
Qed.
Lemma emission_nonneg tOps cols : In (Ok cols) (emission fsqrt fexp k_B fuel n hOp rs ks swm ord ranks psis es T w delta tOps) -> written cols w (length tOps).
Proof.
  intros Hin. apply in_map_iff in Hin as (r & E & Hr). destruct r as [gs|]; [|discriminate]. cbn [bind] in E.
  eapply columns_nonneg; [|exact E]. intros i t. unfold gneg. apply (signed_opp delta); auto.
  apply (getSpectra_signed fsqrt fuel n hOp (map fopp w) (- delta) rs ks swm (fpos_opp delta Hd) ord ranks tOps psis es SHBuild gs Hr).
Qed.
Lemma photoemission_nonneg tP tI cols : In (Ok cols) (photoemission fsqrt fexp k_B fuel n hOp rs ks swm ord ranks psis es T w delta tP tI) -> written cols w (length tP).
Proof.
  intros Hin. apply in_map_iff in Hin as ([rI rP] & E & Hr). cbn [fst snd] in E. destruct rI as [gI|]; [|discriminate]. destruct rP as [gP|]; [|discriminate]. cbn [bind] in E.
  destruct (Nat.eqb _ _); [|discriminate]. eapply columns_nonneg; [|exact E]. intros i t. unfold gplus, gneg.
  assert (H1 : Forall (fun x => im x <= 0) (map copp (gP i t))).
  { apply (signed_opp delta); auto. apply in_combine_r in Hr.
    apply (getSpectra_signed fsqrt fuel n hOp (map fopp w) (- delta) rs ks swm (fpos_opp delta Hd) ord ranks tP psis es SHBuild gP Hr). }
  assert (H2 : Forall (fun x => im x <= 0) (gI i t)).
  { apply (signed_le delta); auto. apply in_combine_l in Hr.
    apply (getSpectra_signed fsqrt fuel n hOp w delta rs ks swm (fpos_neq delta Hd) ord ranks tI psis es SHBuild gI Hr). }
  revert H2. generalize (gI i t) as y. induction H1 as [|a x Ha Hx IH]; intros [|b y] H2; simpl; constructor; inversion H2; subst; auto.
  simpl. replace (0 : F) with (0 + 0 : F) by ring. apply fadd_le; auto.
Qed.
End Signs.
