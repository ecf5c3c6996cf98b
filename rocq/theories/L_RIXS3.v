(* getRIXSmap: exactness of the whole map in all modes *)
From Coq Require Import Lia List Bool Permutation Field Ring.
From Verif Require Import M_Prelude M_Scalar M_PSR M_Ladder M_State M_Mpi M_Hamiltonian M_Lanczos M_Spectra M_RIXS S_Fock S_Ham S_Ops S_Green S_Thermal S_Moments S_RIXS S_Spectrum S_RIXS2
  L_PSR L_Ladder L_Scalar L_Dict L_Sum L_Fock L_State L_ApplyOp L_Ops L_FockP L_Ham L_Expand L_ExpandP L_FromH L_HamP L_Vec L_Lanczos2 L_Green L_Green2 L_Green3 L_Green4 L_Spectra L_Spectra2 L_Spectra3 L_Moments2 L_Expect L_RIXS L_RIXS2.
Import ListNotations.
Local Open Scope cx_scope.

Lemma in_dset {K V} {e : EqB K} (d : dict K V) k v k' v' : In (k', v') (dset d k v) -> (eqb k k' = true /\ v' = v) \/ k' = k /\ v' = v \/ In (k', v') d.
Proof.
  induction d as [|[k1 v1] d IH]; cbn [dset]; [intros [E|[]]; injection E as <- <-; auto|].
  destruct (eqb k k1) eqn:Ek; intros [E|H]; simpl; auto.
  - injection E as <- <-. auto.
  - destruct (IH H) as [|[|]]; auto.
Qed.
Lemma nth_res_some {A} (l : list A) i x : nth_res l i = Ok x -> nth_error l i = Some x.
Proof. unfold nth_res. destruct (nth_error l i); congruence. Qed.
Lemma enumerate_nth {A} (l : list A) i a : In (i, a) (enumerate l) -> nth_error l i = Some a.
Proof.
  unfold enumerate. assert (G : forall (l : list A) s, In (i, a) (combine (seq s (length l)) l) -> (s <= i)%nat /\ nth_error l (i - s) = Some a).
  { clear l. induction l as [|b l IH]; intros s H; [destruct H|]. simpl in H. destruct H as [H|H].
    - injection H as -> ->. rewrite Nat.sub_diag. auto.
    - apply IH in H as [H1 H2]. split; [lia|]. replace (i - s)%nat with (S (i - S s)) by lia. auto. }
  intros H. apply G in H as [_ H]. rewrite Nat.sub_0_r in H. auto.
Qed.
Lemma nth_enumerate {A} (l : list A) i a : nth_error l i = Some a -> In (i, a) (enumerate l).
Proof.
  unfold enumerate. assert (G : forall (l : list A) s i, nth_error l i = Some a -> In ((s + i)%nat, a) (combine (seq s (length l)) l)).
  { clear. induction l as [|b l IH]; intros s [|i] H; simpl in *; try discriminate.
    - injection H as ->. left. f_equal. lia.
    - right. replace (s + S i)%nat with (S s + i)%nat by lia. apply IH. auto. }
  intros H. apply (G l 0%nat i H).
Qed.
Lemma nth_map_ok {A B} (f : A -> res B) l out i a : map f l = map Ok out -> nth_error l i = Some a -> exists b, nth_error out i = Some b /\ f a = Ok b.
Proof.
  intros E H. apply (map_nth_error f) in H. rewrite E in H. rewrite nth_error_map in H. destruct (nth_error out i) as [b|]; [|discriminate].
  injection H as H. eauto.
Qed.

Section LRIXS3.
Context {F : ofield}.
Add Field Ff : (f_field F).
Add Ring Cring : (@c_ring F).
Add Field Cf : (@c_field F).
Variable fsqrt : F -> F.
Variable bicgstab : list (vec F) -> vec F -> vec F.
Hypothesis HS : sqrt_laws fsqrt.
Hypothesis HB : exact_solver bicgstab.
Variable n : nat.
Variable hOp : op_t F.
Variable rs : option restrictions_t.
Hypothesis Hw : wf_op n hOp.
Hypothesis Hr : wf_restr rs.
Hypothesis Hherm : assert_hermitian hOp = Ok tt.
Variable h : config -> config -> cx F.
Hypothesis Hop : restricted_op n hOp rs h.
Variable fuel : nat.
Hypothesis Hf : (2 ^ n < fuel)%nat.
Variables (wIns wLoss : list F) (delta1 delta2 : F).
Hypothesis Hd1 : delta1 <> 0%F.
Hypothesis Hd2 : delta2 <> 0%F.
Variable ks : Z.
Variable swm : F.
Variables (tOpsIn : list (op_t F)) (psis : list (psi_t F)) (es : list F).
Hypothesis HtIn : Forall (wf_op n) tOpsIn.
Hypothesis Hpsis : Forall (valid_psi n) psis.
Variable op0 : op_t F.
Hypothesis Hop0 : wf_op n op0.
Variable M : nat.
Let outs := repeat op0 M.

Definition ord_ok (pm : pmode) (ord : nat -> set_order) : Prop := pm = HBuild -> forall q l, Permutation (ord q l) l.
Definition hs_ok (pm : pmode) (hs : list (hdict_t F)) : Prop :=
  Forall (hdict_exact n hOp rs) hs /\ (pm = HBuild -> NoDup (flat_map dkeys hs)).

(* ---- the pieces ---- *)
Definition sys_ok (psi1 : psi_t F) (sys : system) : Prop := exists basis m y, sys = (m, basis_index basis, y) /\
  is_closure n hOp rs (dkeys psi1) basis /\ restricted_matrix n hOp rs basis m /\ psi_vec (basis_index basis) psi1 = Ok y.
Definition state_ok (psi1 : psi_t F) : Prop := valid_psi n psi1 /\ forall c, length c = n -> In (key c) (dkeys psi1) -> allowed_opt rs c.
Lemma psi2_ok psi1 sys wIn e : state_ok psi1 -> sys_ok psi1 sys ->
  exists psi2, psi2_at bicgstab sys wIn delta1 e = Ok psi2 /\ valid_psi n psi2 /\ fock_solves n (mkC (wIn + e)%F delta1) h (amp psi2) psi1.
Proof.
  intros [Hv Ha] (basis & m & y & -> & HC & Hm & Ey).
  assert (Hnb : NoDup basis) by apply HC.
  destruct (psi_vec_ok basis psi1) as (v & Ev & Lv & Evf); [auto|apply Hv|apply (closure_in n hOp rs); auto|].
  rewrite Ev in Ey. injection Ey as <-.
  assert (HH : hermitian (length basis) m).
  { apply (restricted_herm n hOp rs Hw (dkeys psi1) basis m); auto. apply Forall_forall, Hv. }
  unfold psi2_at. rewrite length_basis_index by auto. set (z := mkC (wIn + e)%F delta1).
  destruct (a_rows_solver bicgstab (length basis) z m v HB Hd1 HH Lv) as [Lx Hx]. set (x := bicgstab _ _) in *.
  destruct (psi2_of_ok n basis x Hnb (closure_valid _ _ _ _ _ HC) Lx) as (psi2 & E2 & Hv2 & Ha2).
  exists psi2. split; [auto|]. split; [auto|].
  destruct (lift_solves n hOp rs Hw psi1 Ha h Hop z basis HC m Hm (vf x)) as [HF _].
  { intros i Hi. rewrite (Hx i Hi). apply Evf. }
  intros t Lt. rewrite Ha2 by auto. rewrite <- (HF t Lt). f_equal. apply csum_ext. intros s Hs. apply allcfg_In in Hs. rewrite Ha2 by auto. auto.
Qed.
Definition heap_ok (heap : list (cache_t F)) : Prop := exists c, heap = [c] /\ cache_ok n op0 swm rs c.
Lemma ftotal_fsum {A} (f : A -> F) l : ftotal (map f l) = fsum f l.
Proof. induction l; simpl; congruence. Qed.
Lemma weight_norm2 (psi : psi_t F) : valid_psi n psi -> ftotal (map (fun s => cabs2 (amp psi s)) (allcfg n)) = norm2 psi.
Proof.
  intros Hv. rewrite ftotal_fsum. pose proof (norm2_inner psi (proj1 Hv)) as E. rewrite (vip_inner n) in E by auto. rewrite vip_self in E.
  apply (f_equal re) in E. symmetry. exact E.
Qed.
(* the second removal of small amplitudes removes nothing, or the state has a tiny part *)
Lemma drop_cases (psi psiN : psi_t F) nrm : state_ok psi -> normalise fsqrt psi = Ok (psiN, nrm) ->
  valid_psi n (drop_small swm psiN) /\ exists psi3, valid_psi n psi3 /\ (forall t, length t = n -> amp psi t = amp psi3 t) /\
    (no_tiny n swm psi3 -> state_ok psi3 /\ normalise fsqrt psi3 = Ok (drop_small swm psiN, nrm)).
Proof.
  intros Hs En. pose proof Hs as [Hv Ha]. pose proof (normalise_cases fsqrt _ _ _ En) as (Enrm & EN & Hc). subst psiN.
  assert (HvN := scale_valid n nrm psi Hv).
  split.
  { split; [apply NoDup_filter_keys, HvN|]. intros k Hk. apply HvN. apply in_map_iff in Hk as (x & <- & Hx). apply filter_In in Hx as [Hx _]. apply in_map. auto. }
  destruct Hc as [->|Hn].
  { exists []. split; [exact Hv|]. split; [auto|]. intros _. split; [exact Hs|]. exact En. }
  set (p := fun ka : pybytes * cx F => negb (cabs2 (snd ka / creal nrm) <? swm)%F).
  assert (Ed : drop_small swm (scale_psi nrm psi) = scale_psi nrm (filter p psi)).
  { unfold drop_small, scale_psi, p. clear. induction psi as [|[k a] psi IH]; [reflexivity|]. cbn [map filter fst snd].
    destruct (negb _); cbn [map fst snd]; [f_equal|]; auto. }
  destruct (forallb (fun ka => p ka || ceqb (snd ka) c0) psi) eqn:Ef.
  - rewrite forallb_forall in Ef. exists (filter p psi).
    assert (Hv3 : valid_psi n (filter p psi)).
    { split; [apply NoDup_filter_keys, Hv|]. intros k Hk. apply Hv. apply in_map_iff in Hk as (x & <- & Hx). apply filter_In in Hx as [Hx _]. apply in_map. auto. }
    assert (Hn2 : norm2 (filter p psi) = norm2 psi).
    { rewrite !norm2_fsum. clear -Ef. induction psi as [|[k a] psi IH]; [reflexivity|]. cbn [filter fsum snd].
      assert (Ef' : forall x, In x psi -> p x || ceqb (snd x) c0 = true) by (intros; apply Ef; right; auto). specialize (IH Ef').
      destruct (p (k, a)) eqn:Ep; cbn [fsum snd]; rewrite IH; auto. specialize (Ef (k, a) (or_introl eq_refl)). rewrite Ep in Ef. cbn [orb snd] in Ef.
      destruct (ceqb_spec a c0) as [->|]; [|discriminate]. unfold cabs2. cbn. ring. }
    split; [auto|]. split.
    + intros t Lt. unfold amp. rewrite dget_filter by apply Hv. destruct (dget psi (key t)) as [a|] eqn:Eg; [|auto].
      destruct (p (key t, a)) eqn:Ep; [auto|]. apply dget_In in Eg. specialize (Ef _ Eg). rewrite Ep in Ef. cbn [orb snd] in Ef. destruct (ceqb_spec a c0); [auto|discriminate].
    + intros _. split.
      * split; [auto|]. intros c Lc Hk. apply Ha; auto. apply in_map_iff in Hk as (x & Ex & Hx). apply filter_In in Hx as [Hx _]. rewrite <- Ex. apply in_map. auto.
      * rewrite Ed. unfold normalise. destruct (filter p psi) as [|q0 l0] eqn:Eq.
        -- exfalso. apply Hn. rewrite Enrm, <- Hn2. change (norm2 []) with (0%F : F). destruct (HS 0%F (fle_refl _)) as [_ E0]. apply fmul_integral in E0 as [E0|E0]; exact E0.
        -- rewrite Hn2, <- Enrm. destruct (feqb_spec nrm 0%F); [contradiction|reflexivity].
  - exists psi. split; [auto|]. split; [auto|]. intros Ht. exfalso.
    assert (Hex : exists ka, In ka psi /\ p ka || ceqb (snd ka) c0 = false).
    { clear -Ef. induction psi as [|x psi IH]; [discriminate|]. cbn [forallb] in Ef. destruct (p x || ceqb (snd x) c0) eqn:E; [|exists x; split; [left; auto|auto]].
      destruct (IH Ef) as (ka & H1 & H2). exists ka. split; [right; auto|auto]. }
    destruct Hex as ([k a] & Hi & E). apply orb_false_iff in E as [Ep Ez]. unfold p in Ep. cbn [snd] in Ep, Ez. apply negb_false_iff in Ep.
    assert (Hk : valid_key n k) by (apply Hv; apply (in_map fst) in Hi; exact Hi). destruct Hk as (t & Lt & ->).
    assert (Eam : amp psi t = a) by (unfold amp; rewrite (In_dget psi (key t) a (proj1 Hv) Hi); auto).
    destruct (Ht t Lt) as [E0|E0]; rewrite Eam in E0; [destruct (ceqb_spec a c0) as [_|Hz]; [discriminate Ez|apply Hz; exact E0]|].
    rewrite weight_norm2 in E0 by auto.
    rewrite <- (sqrt_norm fsqrt HS psi), <- Enrm in E0. rewrite <- (cabs2_div_real a nrm Hn) in E0.
    assert (Hpos : (0 < nrm * nrm)%F) by (apply fsq_pos; auto).
    pose proof (fmul_lt_l _ _ _ Hpos Ep) as X. set (u := cabs2 (a / creal nrm)) in *. replace (nrm * nrm * u)%F with (u * (nrm * nrm))%F in X by ring.
    replace (nrm * nrm * swm)%F with (swm * (nrm * nrm))%F in X by ring. congruence.
Qed.
Lemma out_ok heap t psi2 heap' psiN nrm : heap_ok heap -> valid_psi n psi2 ->
  out_state fsqrt (Z.of_nat n) rs swm outs heap t op0 psi2 = Ok (heap', psiN, nrm) ->
  heap_ok heap' /\ valid_psi n psiN /\ exists psi3, valid_psi n psi3 /\ cut_image n op0 rs swm psi2 psi3 /\
    (no_tiny n swm psi3 -> state_ok psi3 /\ normalise fsqrt psi3 = Ok (psiN, nrm)).
Proof.
  intros (c & -> & Hc) Hv E. unfold out_state in E. destruct (nth_res (tOut_refs (length outs)) t) as [cell|] eqn:Ec; [|discriminate]. cbn [bind] in E.
  apply refs_nth in Ec. subst cell. change (nth_res [c] 0) with (Ok c) in E. cbn [bind] in E.
  destruct (apply_kept n op0 psi2 swm rs c Hr Hop0 Hv Hc) as (c' & psi3 & EA & Hc' & Hv3 & Ha3 & Hi).
  rewrite EA in E. cbn [bind] in E. destruct (normalise fsqrt psi3) as [[p m]|] eqn:En; [|discriminate]. cbn [bind] in E. injection E as <- <- <-.
  split; [exists c'; auto|]. destruct (drop_cases psi3 p m (conj Hv3 Ha3) En) as (Hvd & q & Hvq & Hamp & Hq). split; [auto|].
  exists q. split; [auto|]. split; [|auto]. eapply cut_image_amp; [|exact Hi]. auto.
Qed.
Lemma valid_norm psi psiN nrm : valid_psi n psi -> normalise fsqrt psi = Ok (psiN, nrm) -> valid_psi n psiN.
Proof. intros Hv En. apply normalise_cases in En as (_ & -> & _). apply scale_valid. auto. Qed.
Let gv := gval fsqrt n hOp rs fuel wLoss delta2 ks swm.
(* getGreen in modes serial and H_build *)
Lemma gg_any pm ord e psi hs : pm = Serial \/ pm = HBuild -> ord_ok pm ord -> valid_psi n psi -> hs_ok pm hs -> hs <> [] ->
  exists rest, map snd (getGreen fsqrt fuel ord (Z.of_nat n) e psi hOp wLoss delta2 ks swm rs hs GSparse pm) = gv e psi :: rest /\
    length (getGreen fsqrt fuel ord (Z.of_nat n) e psi hOp wLoss delta2 ks swm rs hs GSparse pm) = length hs /\
    hs_ok pm (map fst (getGreen fsqrt fuel ord (Z.of_nat n) e psi hOp wLoss delta2 ks swm rs hs GSparse pm)).
Proof.
  intros [->| ->] Ho Hv [Hh1 Hh2] Hne.
  - destruct (green_canon fsqrt n hOp rs Hw Hr fuel Hf wLoss delta2 ks swm e psi Hv) as (r & other & H & _).
    assert (Eg : gv e psi = r) by (apply gval_eq; apply H; constructor; [apply exact_nil|auto]).
    specialize (H ord hs Hh1). unfold GG in H. set (out := getGreen _ _ _ _ _ _ _ _ _ _ _ _ _ _ _) in *. clearbody out. rewrite Eg.
    assert (HL := Forall2_len _ _ _ H). exists (tl (map snd out)). split; [|split; [auto|split; [|discriminate]]].
    + destruct H as [|? o ? ? [_ Hb] _]; [congruence|]. cbn [map tl]. f_equal. exact Hb.
    + apply Forall_forall. intros x Hx. apply in_map_iff in Hx as (o & <- & Ho'). apply (Forall2_in_r _ _ _ _ H) in Ho' as (? & _ & ? & _). auto.
  - destruct (GG_hbuild fsqrt n hOp rs Hw Hr fuel Hf wLoss delta2 ks swm ord e psi hs Hv (Ho eq_refl) (conj Hh1 (Hh2 eq_refl)) Hne) as (other & [Ha Ha'] & Hb & Hc & _).
    unfold GG in *. eexists. split; [exact Hc|]. split; [exact Hb|]. split; auto.
Qed.
Lemma ebh_any pm ord (psi1 : psi_t F) hs : pm = Serial \/ pm = HBuild -> ord_ok pm ord -> valid_psi n psi1 -> hs_ok pm hs -> hs <> [] ->
  let ebh := expand_basis_and_hamiltonian fuel (Z.of_nat n) hOp rs ord pm false (dkeys psi1) hs in
  length ebh = length hs /\ hs_ok pm (map fst ebh) /\
  forall o m idx, In o ebh -> snd o = Ok (m, idx) -> exists basis, idx = basis_index basis /\ is_closure n hOp rs (dkeys psi1) basis /\ restricted_matrix n hOp rs basis m.
Proof.
  intros Hpm Ho [Hv1 Hv2] [Hh1 Hh2] Hne ebh. unfold ebh. clear ebh. destruct Hpm as [->| ->].
  - destruct (ebh_serial n hOp rs Hw Hr fuel ord (dkeys psi1) hs Hh1 Hv1) as (final & HC & _ & HF2); [apply Forall_forall, Hv2|lia|auto|].
    set (ebh := expand_basis_and_hamiltonian _ _ _ _ _ _ _ _ _) in *. clearbody ebh. split; [symmetry; eapply Forall2_len; eauto|]. split; [split; [|discriminate]|].
    + apply Forall_forall. intros x Hx. apply in_map_iff in Hx as (o & <- & Hi). apply (Forall2_in_r _ _ _ _ HF2) in Hi as (? & _ & h' & m & -> & Hx & _). exact Hx.
    + intros o m idx Hi E. apply (Forall2_in_r _ _ _ _ HF2) in Hi as (? & _ & h' & m' & -> & _ & _ & Hm). cbn [snd] in E. injection E as <- <-. eauto.
  - destruct (ebh_hbuild n hOp rs Hw Hr fuel ord (dkeys psi1) hs (Ho eq_refl) Hne Hh1 (Hh2 eq_refl) Hv1) as (final & hs' & m & ms & HC & _ & Hx & Hext & Hnd & _ & E & _ & Hm & _); [apply Forall_forall, Hv2|lia|].
    rewrite E, map_length, map_map. cbn [fst]. rewrite map_id. split; [symmetry; eapply Forall2_len; eauto|]. split; [split; auto|].
    intros o m' idx Hi Es. apply in_map_iff in Hi as (h' & <- & _). cbn [snd] in Es. injection Es as <- <-. eauto.
Qed.

(* ---- rows ---- *)
Let krow (a b : op_t F) (psi : psi_t F) (e wIn : F) (v : vec F) : Prop := rixs_row n hOp rs h wLoss delta1 delta2 ks swm a b psi e wIn v.
Lemma krow_of tOpIn psi e wIn psi1 psi2 psi3 psiN nrm g : cut_image n tOpIn rs swm psi psi1 -> fock_solves n (mkC (wIn + e)%F delta1) h (amp psi2) psi1 ->
  cut_image n op0 rs swm psi2 psi3 -> valid_psi n psi3 -> (no_tiny n swm psi3 -> state_ok psi3 /\ normalise fsqrt psi3 = Ok (psiN, nrm)) -> gv e psiN = Ok g ->
  krow tOpIn op0 psi e wIn (vmul (nrm * nrm)%F g).
Proof.
  intros H1 H2 H3 Hv3 Hn Eg. exists psi1, psi2, psi3. repeat (split; [assumption|]). intros Ht. destruct (Hn Ht) as [[Hv Ha] En].
  exact (entry_lanczos fsqrt HS n hOp rs Hw Hr Hherm h Hop fuel Hf wLoss delta2 Hd2 ks swm e psi3 psiN nrm g Hv Ha En Eg).
Qed.
Section Step.
Variables (tOpIn : op_t F) (psi psi1 : psi_t F) (e : F).
Hypothesis Hs1 : state_ok psi1.
Hypothesis Hi1 : cut_image n tOpIn rs swm psi psi1.
Variable sys : @system F.
Hypothesis Hsys : sys_ok psi1 sys.
Definition rank_ok (rk : list (cache_t F) * hdict_t F) : Prop := heap_ok (fst rk) /\ hdict_exact n hOp rs (snd rk).
Definition rows_ok (iw : nat) (rows : list (vec F)) : Prop := length rows = M /\ exists wIn, nth_error wIns iw = Some wIn /\ Forall (krow tOpIn op0 psi e wIn) rows.
Lemma win_outs_ok ord wIn psi2 heap hg st' : valid_psi n psi2 -> fock_solves n (mkC (wIn + e)%F delta1) h (amp psi2) psi1 -> rank_ok (heap, hg) ->
  fold_res (win_out fsqrt fuel (Z.of_nat n) hOp wLoss delta2 rs ks swm outs ord e psi2) (enumerate outs) (heap, hg, []) = Ok st' ->
  rank_ok (fst st') /\ length (snd st') = M /\ Forall (krow tOpIn op0 psi e wIn) (snd st').
Proof.
  intros Hv2 Hf2 Hrk E.
  assert (G : forall l st st', (forall to, In to l -> snd to = op0) -> rank_ok (fst st) -> Forall (krow tOpIn op0 psi e wIn) (snd st) ->
    fold_res (win_out fsqrt fuel (Z.of_nat n) hOp wLoss delta2 rs ks swm outs ord e psi2) l st = Ok st' ->
    rank_ok (fst st') /\ length (snd st') = (length (snd st) + length l)%nat /\ Forall (krow tOpIn op0 psi e wIn) (snd st')).
  { induction l as [|to l IH]; intros [[hp hg1] rows] st2 Hto Hk Hrows Ef; cbn [fold_res] in Ef.
    - injection Ef as <-. split; [auto|]. split; [simpl; lia|auto].
    - unfold win_out in Ef at 1. rewrite (Hto to (or_introl eq_refl)) in Ef.
      destruct (out_state _ _ _ _ _ _ _ _ _) as [[[hp' p3] nrm]|] eqn:Eo; [|discriminate]. cbn [bind] in Ef.
      destruct Hk as [Hk1 Hk2]. cbn [fst snd] in Hk1, Hk2, Hrows.
      apply out_ok in Eo as (Hhp & HvN & psi3 & Hv3 & Hi3 & Hn3); auto.
      destruct (GG_serial fsqrt n hOp rs Hw Hr fuel Hf wLoss delta2 ks swm ord e p3 hg1 HvN Hk2) as (hg2 & EG & Hhg).
      unfold GG in EG. match type of Ef with context [getGreen ?a1 ?a2 ?a3 ?a4 ?a5 ?a6 ?a7 ?a8 ?a9 ?b1 ?b2 ?b3 ?b4 ?b5 ?b6] => set (G0 := getGreen a1 a2 a3 a4 a5 a6 a7 a8 a9 b1 b2 b3 b4 b5 b6) in Ef end.
      assert (EG0 : G0 = [(hg2, gval fsqrt n hOp rs fuel wLoss delta2 ks swm e p3)]) by exact EG. rewrite EG0 in Ef. clear G0 EG EG0. destruct (gval fsqrt n hOp rs fuel wLoss delta2 ks swm e p3) as [g|] eqn:Eg; [|discriminate]. cbn [bind] in Ef.
      apply IH in Ef as (H1 & H2 & H3).
      + cbn [snd] in *. rewrite app_length in H2. split; [auto|]. split; [simpl in *; lia|auto].
      + intros; apply Hto; right; auto.
      + split; auto.
      + cbn [snd]. apply Forall_app. split; [auto|]. constructor; [|constructor]. eapply krow_of; eauto. }
  apply G in E; auto.
  - destruct E as (H1 & H2 & H3). split; [auto|]. split; [|auto]. unfold enumerate, outs in H2. rewrite combine_length, seq_length, repeat_length in H2. simpl in H2. lia.
  - intros [t o] Hi. apply enum_snd in Hi. cbn [snd] in *. apply repeat_spec in Hi. auto.
  - constructor.
Qed.
Lemma win_rank_ok ord r R rk out : (r < R)%nat -> rank_ok rk ->
  win_rank fsqrt bicgstab fuel (Z.of_nat n) hOp wIns wLoss delta1 delta2 rs ks swm outs ord e sys r R rk = Ok out ->
  rank_ok (fst out) /\ (forall iw, In iw (jobs_of (length wIns) R r) -> In iw (map fst (snd out))) /\
  (forall iw rows, In (iw, rows) (snd out) -> rows_ok iw rows).
Proof.
  intros HR Hrk E. unfold win_rank in E. rewrite get_job_tasks_eq in E by auto. cbn [bind] in E. fold (jobs_of (length wIns) R r) in E.
  assert (G : forall l st, rank_ok (fst st) -> (forall iw rows, In (iw, rows) (snd st) -> rows_ok iw rows) ->
    fold_res (win_energy fsqrt bicgstab fuel (Z.of_nat n) hOp wIns wLoss delta1 delta2 rs ks swm outs ord e sys) l st = Ok out ->
    rank_ok (fst out) /\ (forall iw, In iw l \/ In iw (map fst (snd st)) -> In iw (map fst (snd out))) /\ (forall iw rows, In (iw, rows) (snd out) -> rows_ok iw rows)).
  { induction l as [|iw l IH]; intros [[hp hg] g] Hk Hrows Ef; cbn [fold_res] in Ef.
    - injection Ef as <-. split; [auto|]. split; [intros i [[]|Hi]; auto|auto].
    - unfold win_energy in Ef at 1. destruct (nth_res wIns iw) as [wIn|] eqn:Ew; [|discriminate]. cbn [bind] in Ef.
      destruct (psi2_ok psi1 sys wIn e Hs1 Hsys) as (psi2 & E2 & Hv2 & Hf2). rewrite E2 in Ef. cbn [bind] in Ef.
      destruct (fold_res _ (enumerate outs) _) as [[[hp' hg'] rows]|] eqn:Eo; [|discriminate]. cbn [bind] in Ef.
      apply (win_outs_ok ord wIn) in Eo as (H1 & H2 & H3); auto. cbn [fst snd] in H1, H2, H3, Hrows.
      apply IH in Ef as (I1 & I2 & I3).
      + split; [auto|]. split; [|auto]. intros i Hi. apply I2. cbn [snd] in *. destruct Hi as [[->|Hi]|Hi]; auto.
        * right. apply in_dkeys_dset. auto.
        * right. apply in_dkeys_dset. auto.
      + auto.
      + cbn [snd]. intros i rws Hi. apply in_dset in Hi as [[Hi ->]|[[-> ->]|Hi]]; auto.
        * apply Nat.eqb_eq in Hi. subst i. split; [auto|]. exists wIn. split; [apply nth_res_some; auto|auto].
        * split; [auto|]. exists wIn. split; [apply nth_res_some; auto|auto]. }
  apply G in E as (H1 & H2 & H3); auto.
  - intros iw rows [].
Qed.
End Step.

(* ---- the array ---- *)
Definition gs_ok (done : nat -> nat -> Prop) (gs : garr4 F) : Prop :=
  forall tIn iE tOpIn psi e iw wIn tOut, done tIn iE -> nth_error tOpsIn tIn = Some tOpIn -> nth_error psis iE = Some psi -> nth_error es iE = Some e ->
    nth_error wIns iw = Some wIn -> (tOut < M)%nat -> krow tOpIn op0 psi e wIn (gs iE tIn tOut iw).
Lemma collect_cases iE tIn ll : forall (gs : garr4 F) a b c d,
  let gs' := fold_left (fun gs iv => g4set_rows gs iE tIn (fst iv) (snd iv)) ll gs in
  (~ (a = iE /\ b = tIn /\ In d (map fst ll)) /\ gs' a b c d = gs a b c d) \/
  (a = iE /\ b = tIn /\ exists rows, In (d, rows) ll /\ gs' a b c d = nth c rows []).
Proof.
  clear gv krow.
  induction ll as [|[k rows] ll IH]; intros gs a b c d; simpl; [left; tauto|].
  destruct (IH (g4set_rows gs iE tIn k rows) a b c d) as [[H1 H2]|(H1 & H2 & rw & H3 & H4)].
  - simpl in H2. rewrite H2. unfold g4set_rows. destruct (Nat.eqb_spec a iE), (Nat.eqb_spec b tIn), (Nat.eqb_spec d k); simpl.
    + right. split; [auto|]. split; [auto|]. exists rows. subst. auto.
    + left. split; [intros (? & ? & [?|?]); auto|auto].
    + left. split; [tauto|auto].
    + left. split; [tauto|auto].
    + left. split; [tauto|auto].
    + left. split; [tauto|auto].
    + left. split; [tauto|auto].
    + left. split; [tauto|auto].
  - right. split; [auto|]. split; [auto|]. exists rw. auto.
Qed.
Lemma core_ok tOpIn tb iE tb' e psi1 : wf_op n tOpIn -> cache_ok n tOpIn swm rs tb ->
  core_hole (Z.of_nat n) rs swm psis es tOpIn tb iE = Ok (tb', e, psi1) ->
  cache_ok n tOpIn swm rs tb' /\ state_ok psi1 /\ nth_error es iE = Some e /\ exists psi, nth_error psis iE = Some psi /\ cut_image n tOpIn rs swm psi psi1.
Proof.
  intros Ht Hc E. unfold core_hole in E. destruct (nth_res psis iE) as [psi|] eqn:Ep; [|discriminate]. cbn [bind] in E.
  destruct (nth_res es iE) as [e'|] eqn:Ee; [|discriminate]. cbn [bind] in E. apply nth_res_some in Ep, Ee.
  assert (Hv : valid_psi n psi) by (rewrite Forall_forall in Hpsis; apply Hpsis; eapply nth_error_In; eauto).
  destruct (apply_kept n tOpIn psi swm rs tb Hr Ht Hv Hc) as (c' & p1 & EA & Hc' & Hv1 & Ha1 & Hi).
  rewrite EA in E. cbn [bind] in E. injection E as <- <- <-. split; [auto|]. split; [split; auto|]. split; [auto|]. exists psi. auto.
Qed.

(* ---- modes wIn and H_build_wIn ---- *)
Section Win.
Variable pm : pmode.
Hypothesis Hpm : pm = Serial \/ pm = HBuild.
Record win_inv (R : nat) (tOpIn : op_t F) (done : nat -> nat -> Prop) (st : win_state) : Prop := {
  wv_tb : cache_ok n tOpIn swm rs (wi_tbig st);
  wv_ex : hs_ok pm (wi_ex st); wv_len : length (wi_ex st) = R;
  wv_rk : Forall rank_ok (wi_rk st); wv_rlen : length (wi_rk st) = R;
  wv_gs : exists gs, wi_gs st = repeat gs R /\ gs_ok done gs }.
Lemma win_step_ok R (ord : nat -> set_order) tIn tOpIn done st iE st' : (1 <= R)%nat -> ord_ok pm ord -> nth_error tOpsIn tIn = Some tOpIn ->
  win_inv R tOpIn done st ->
  win_step fsqrt bicgstab fuel (Z.of_nat n) hOp wIns wLoss delta1 delta2 rs ks swm outs psis es pm ord tIn tOpIn st iE = Run st' ->
  win_inv R tOpIn (fun t i => done t i \/ (t = tIn /\ i = iE)) st'.
Proof.
  intros HR Ho Ht [I1 I2 I3 I4 I5 (gs & I6 & I7)] E. unfold win_step in E. cbv zeta in E.
  assert (Hwt : wf_op n tOpIn) by (rewrite Forall_forall in HtIn; apply HtIn; eapply nth_error_In; eauto).
  destruct (core_hole _ _ _ _ _ _ _ _) as [[[tb e] psi1]|] eqn:Ec; [|discriminate]. cbn [all_ranks rbind] in E.
  apply core_ok in Ec as (Htb & Hs1 & Ee & psi & Epsi & Himg); auto.
  assert (Hne : wi_ex st <> []) by (intros C; rewrite C in I3; simpl in I3; lia).
  destruct (ebh_any pm ord psi1 (wi_ex st) Hpm Ho (proj1 Hs1) I2 Hne) as (Le & Hex & Hm).
  set (ebh := expand_basis_and_hamiltonian _ _ _ _ _ _ _ _ _) in *. clearbody ebh.
  match type of E with rbind (together (map ?f0 _)) _ = _ => set (f := f0) in E end.
  destruct (together (map f (enumerate (combine ebh (wi_rk st))))) as [l|] eqn:Et; [|discriminate]. cbn [rbind] in E. injection E as <-.
  apply together_run in Et.
  assert (Le' : length ebh = R) by (rewrite <- I3; exact Le).
  assert (Lc : length (combine ebh (wi_rk st)) = R) by (rewrite combine_length, Le', I5; apply Nat.min_id).
  assert (Ll : length l = R).
  { apply (f_equal (@length _)) in Et. rewrite !map_length in Et. unfold enumerate in Et. rewrite combine_length, seq_length in Et. lia. }
  assert (Hall : forall r o, nth_error l r = Some o -> (r < R)%nat /\ rank_ok (fst o) /\
      (forall iw, In iw (jobs_of (length wIns) R r) -> In iw (map fst (snd o))) /\ (forall iw rows, In (iw, rows) (snd o) -> rows_ok tOpIn psi e iw rows)).
  { intros r o Er. assert (Hr' : (r < R)%nat) by (rewrite <- Ll; apply nth_error_Some; congruence). split; [auto|].
    destruct (nth_error (combine ebh (wi_rk st)) r) as [x|] eqn:Ex; [|apply nth_error_None in Ex; lia].
    assert (Ex' : nth_error (enumerate (combine ebh (wi_rk st))) r = Some (r, x)).
    { unfold enumerate. clear -Ex. assert (G : forall (l : list ((hdict_t F * res (mat F * dict pybytes nat)) * (list (cache_t F) * hdict_t F))) s r, nth_error l r = Some x -> nth_error (combine (seq s (length l)) l) r = Some ((s + r)%nat, x)).
      { clear. induction l as [|a l IH]; intros s [|r] E; simpl in *; try discriminate; [injection E as ->; rewrite Nat.add_0_r; reflexivity|].
        rewrite (IH (S s) r E). rewrite <- plus_n_Sm. reflexivity. }
      rewrite (G _ 0%nat r Ex). reflexivity. }
    destruct (nth_map_ok _ _ _ _ _ Et Ex') as (o' & Eo' & Ef). rewrite Er in Eo'. injection Eo' as <-.
    unfold f in Ef. destruct x as [ob rk]. cbn [fst snd] in Ef. apply nth_error_In in Ex.
    assert (Hob := in_combine_l _ _ _ _ Ex). assert (Hrk := in_combine_r _ _ _ _ Ex).
    destruct (snd ob) as [[m idx]|] eqn:Es; [|discriminate]. cbn [bind] in Ef.
    destruct (Hm ob m idx Hob Es) as (basis & -> & HC & HRm).
    destruct (psi_vec (basis_index basis) psi1) as [y|] eqn:Ey; [|discriminate]. cbn [bind] in Ef.
    assert (Ef' : win_rank fsqrt bicgstab fuel (Z.of_nat n) hOp wIns wLoss delta1 delta2 rs ks swm outs ord e (m, basis_index basis, y) r R rk = Ok o) by (rewrite <- I3; exact Ef).
    rewrite Forall_forall in I4. eapply win_rank_ok; [exact Hs1|exact Himg| |exact Hr'|apply I4; exact Hrk|exact Ef'].
    exists basis, m, y. auto. }
  constructor; cbn [wi_tbig wi_ex wi_rk wi_gs]; auto.
  - rewrite map_length. auto.
  - apply Forall_forall. intros rk Hrk. apply in_map_iff in Hrk as (o & <- & Hi). apply In_nth_error in Hi as (r & Er). apply (Hall r o Er).
  - rewrite map_length. auto.
  - exists (win_collect iE tIn (map snd l) gs). split.
    + rewrite I6. clear. induction R; simpl; congruence.
    + intros t i tO p en iw wIn tOut Hdone E1 E2 E3 E4 HtO. unfold win_collect.
      rewrite (fold_left_concat (fun gs iv => g4set_rows gs iE tIn (fst iv) (snd iv))).
      destruct (collect_cases iE tIn (concat (map snd l)) gs i t tOut iw) as [[Hn Eg]|(-> & -> & rows & Hin & Eg)].
      * cbv zeta in Eg. rewrite Eg. destruct Hdone as [Hdone|[-> ->]]; [eapply I7; eauto|]. exfalso. apply Hn. split; [auto|]. split; [auto|].
        assert (Hiw : (iw < length wIns)%nat) by (apply nth_error_Some; congruence).
        destruct (jobs_partition (length wIns) R iw HR Hiw) as (r & Hr' & Hj).
        destruct (nth_error l r) as [o|] eqn:Er; [|apply nth_error_None in Er; lia].
        destruct (Hall r o Er) as (_ & _ & Hj' & _). specialize (Hj' iw Hj).
        rewrite concat_map. apply in_concat. exists (map fst (snd o)). split; [|auto]. rewrite map_map.
        apply in_map_iff. exists o. split; [auto|]. eapply nth_error_In; eauto.
      * cbv zeta in Eg. rewrite Eg. apply in_concat in Hin as (g & Hg & Hin). apply in_map_iff in Hg as (o & <- & Ho').
        apply In_nth_error in Ho' as (r & Er). destruct (Hall r o Er) as (_ & _ & _ & Hrows). destruct (Hrows iw rows Hin) as (HL & wIn' & Ew & HF).
        assert (wIn' = wIn) by congruence. subst wIn'. rewrite Forall_forall in HF.
        replace tO with tOpIn by congruence. replace p with psi by congruence. replace en with e by congruence. apply HF. apply nth_In. lia.
Qed.
Lemma gs_ok_ext (P Q : nat -> nat -> Prop) gs : (forall t i, Q t i -> P t i) -> gs_ok P gs -> gs_ok Q gs.
Proof. intros H HP t i tO p e iw wi tOut HQ. apply (HP t i); auto. Qed.
Lemma win_run_ok (ord : nat -> nat -> nat -> set_order) hg st : (forall t i, ord_ok pm (ord t i)) -> hg <> [] -> Forall (hdict_exact n hOp rs) hg ->
  win_run fsqrt bicgstab fuel (Z.of_nat n) hOp wIns wLoss delta1 delta2 rs ks swm tOpsIn outs psis es pm ord hg = Run st ->
  exists gs, wi_gs st = repeat gs (length hg) /\ gs_ok (fun t i => True) gs.
Proof.
  intros Ho Hne Hhg E. set (R := length hg). assert (HR : (1 <= R)%nat) by (unfold R; destruct hg; [congruence|simpl; lia]).
  pose (inv0 := fun (done : nat -> nat -> Prop) (st : win_state) => hs_ok pm (wi_ex st) /\ length (wi_ex st) = R /\ Forall rank_ok (wi_rk st) /\ length (wi_rk st) = R /\
     exists gs, wi_gs st = repeat gs R /\ gs_ok done gs).
  unfold win_run in E.
  apply (fold_run_inv _ (fun pre st => inv0 (fun t i => In t (map fst pre) /\ (i < length es)%nat) st)) in E.
  - destruct E as (_ & _ & _ & _ & gs & Eg & Hg). exists gs. split; [exact Eg|].
    intros t i tO p e iw wi tOut _ E1 E2 E3. apply (Hg t i tO p e iw wi tOut); auto.
    split; [|apply nth_error_Some; congruence]. apply nth_enumerate in E1. apply (in_map fst) in E1. auto.
  - intros pre [t tOp] post s s' El (H1 & H2 & H3 & H4 & gs & H5 & H6) Er. cbn [fst snd] in Er.
    assert (Et : nth_error tOpsIn t = Some tOp) by (apply enumerate_nth; rewrite El; apply in_or_app; right; left; auto).
    apply (fold_run_inv _ (fun pre2 st => win_inv R tOp (fun t' i => (In t' (map fst pre) /\ (i < length es)%nat) \/ (t' = t /\ In i pre2)) st)) in Er.
    + destruct Er as [I1 I2 I3 I4 I5 (gs' & I6 & I7)]. split; [auto|]. split; [auto|]. split; [auto|]. split; [auto|]. exists gs'. split; [auto|].
      apply (fun H => gs_ok_ext _ _ gs' H I7); intros t' i Hq.
      destruct Hq as [Hq Hi]. rewrite map_app, in_app_iff in Hq. simpl in Hq. destruct Hq as [Hq|[<-|[]]]; [left; auto|right]. split; [auto|]. apply in_seq. lia.
    + intros pre2 iE post2 s1 s2 El2 HI Es. apply (win_step_ok R (ord t iE) t tOp _ s1 iE s2 HR (Ho t iE) Et HI) in Es.
      destruct Es as [I1 I2 I3 I4 I5 (gs' & I6 & I7)]. constructor; auto. exists gs'. split; [auto|].
      apply (fun H => gs_ok_ext _ _ gs' H I7); intros t' i Hq. rewrite in_app_iff in Hq. simpl in Hq. intuition.
    + constructor; cbn [wi_tbig wi_ex wi_rk wi_gs]; auto; [apply cache_ok_nil|]. exists gs. split; [auto|].
      apply (fun H => gs_ok_ext _ _ gs H H6); intros t' i Hq. simpl in Hq. tauto.
  - unfold inv0. cbn [wi_tbig wi_ex wi_rk wi_gs]. rewrite !map_length. split; [|split; [auto|split; [|split; [auto|]]]].
    + split; [apply Forall_forall; intros x Hx; apply in_map_iff in Hx as (? & <- & _); apply exact_nil|]. intros _. clear. induction hg; simpl; [constructor|auto].
    + apply Forall_forall. intros x Hx. apply in_map_iff in Hx as (hx & <- & Hx). rewrite Forall_forall in Hhg. split; [|apply Hhg; auto].
      exists []. split; [reflexivity|apply cache_ok_nil].
    + exists (g4zeros (length wLoss)). split; [unfold R; clear; induction hg; simpl; congruence|]. intros t i tO p e iw wi tOut [[] _].
Qed.
End Win.

(* ---- modes serial and H_build: rank 0 ---- *)
Section HB.
Variable pm : pmode.
Hypothesis Hpm : pm = Serial \/ pm = HBuild.
(* entries done: incoming operator, eigenstate, incoming energy, outgoing operator *)
Definition gs_ok4 (done : nat -> nat -> nat -> nat -> Prop) (gs : garr4 F) : Prop :=
  forall tIn iE tOpIn psi e iw wIn tOut, done tIn iE iw tOut -> nth_error tOpsIn tIn = Some tOpIn -> nth_error psis iE = Some psi -> nth_error es iE = Some e ->
    nth_error wIns iw = Some wIn -> (tOut < M)%nat -> krow tOpIn op0 psi e wIn (gs iE tIn tOut iw).
Record hb_inv (tOpIn : op_t F) (done : nat -> nat -> nat -> nat -> Prop) (st : hb4_state) : Prop := {
  hv_tb : cache_ok n tOpIn swm rs (h4_tbig st);
  hv_ex : hs_ok pm (h4_ex st); hv_ne : h4_ex st <> [];
  hv_heap : heap_ok (h4_heap st); hv_gr : hs_ok pm (h4_gr st); hv_grne : h4_gr st <> [];
  hv_gs : exists g0 rest, h4_gs st = g0 :: rest /\ gs_ok4 done g0 }.
Lemma gs_ok4_ext (P Q : nat -> nat -> nat -> nat -> Prop) gs : (forall t i w o, Q t i w o -> P t i w o) -> gs_ok4 P gs -> gs_ok4 Q gs.
Proof. intros H HP t i tO p e iw wi tOut HQ. apply (HP t i); auto. Qed.
Lemma hb4_out_ok (ord : nat -> set_order) tIn tOpIn psi psi1 e iE iw wIn psi2 done st to st' : ord_ok pm ord ->
  nth_error tOpsIn tIn = Some tOpIn -> nth_error psis iE = Some psi -> nth_error es iE = Some e -> nth_error wIns iw = Some wIn ->
  cut_image n tOpIn rs swm psi psi1 -> valid_psi n psi2 -> fock_solves n (mkC (wIn + e)%F delta1) h (amp psi2) psi1 ->
  hb_inv tOpIn done st -> snd to = op0 ->
  hb4_out fsqrt fuel (Z.of_nat n) hOp wLoss delta2 rs ks swm outs pm ord e psi2 iE tIn iw st to = Run st' ->
  hb_inv tOpIn (fun t i w o => done t i w o \/ (t = tIn /\ i = iE /\ w = iw /\ o = fst to)) st'.
Proof.
  intros Ho Et Ep Ee Ew Himg Hv2 Hf2 [I1 I2 I3 I4 I5 I6 (g0 & rest & I7 & I8)] Eto E. unfold hb4_out in E. rewrite Eto in E.
  destruct (out_state _ _ _ _ _ _ _ _ _) as [[[hp' p3] nrm]|] eqn:Eo; [|discriminate]. cbn [all_ranks rbind] in E.
  apply out_ok in Eo as (Hhp & HvN & psi3 & Hv3 & Hi3 & Hn3); auto.
  destruct (gg_any pm ord e p3 (h4_gr st) Hpm Ho HvN I5 I6) as (rest' & EG & LG & HG).
  set (out := getGreen _ _ _ _ _ _ _ _ _ _ _ _ _ _ _) in *. clearbody out.
  destruct (together (map snd out)) as [gl|] eqn:Etg; [|discriminate]. cbn [rbind] in E. injection E as <-.
  apply together_run in Etg. rewrite EG in Etg. destruct gl as [|g gl]; [discriminate|]. simpl in Etg. injection Etg as Eg Erest.
  constructor; cbn [h4_tbig h4_ex h4_heap h4_gr h4_gs]; auto.
  - intros C. apply map_eq_nil in C. rewrite C in LG. simpl in LG. destruct (h4_gr st); [congruence|discriminate].
  - rewrite I7. cbn [combine map fst snd]. eexists. eexists. split; [reflexivity|].
    intros t i tO p en w wi tOut Hdone E1 E2 E3 E4 HtO. unfold g4set.
    destruct (Nat.eqb_spec i iE), (Nat.eqb_spec t tIn), (Nat.eqb_spec tOut (fst to)), (Nat.eqb_spec w iw); simpl;
      try (destruct Hdone as [Hdone|(? & ? & ? & ?)]; [eapply I8; eauto|exfalso; congruence]).
    subst. replace tO with tOpIn by congruence. replace p with psi by congruence. replace en with e by congruence. replace wi with wIn by congruence.
    eapply krow_of; eauto.
Qed.
Lemma hb4_energy_ok (ord : nat -> set_order) tIn tOpIn psi psi1 e sys iE iw wIn done st st' : ord_ok pm ord ->
  nth_error tOpsIn tIn = Some tOpIn -> nth_error psis iE = Some psi -> nth_error es iE = Some e -> nth_error wIns iw = Some wIn ->
  cut_image n tOpIn rs swm psi psi1 -> state_ok psi1 -> sys_ok psi1 sys ->
  hb_inv tOpIn done st ->
  hb4_energy fsqrt bicgstab fuel (Z.of_nat n) hOp wIns wLoss delta1 delta2 rs ks swm outs pm ord e sys iE tIn st iw = Run st' ->
  hb_inv tOpIn (fun t i w o => done t i w o \/ (t = tIn /\ i = iE /\ w = iw)) st'.
Proof.
  intros Ho Et Ep Ee Ew Himg Hs1 Hsys HI E. unfold hb4_energy in E.
  assert (Ew' : nth_res wIns iw = Ok wIn) by (unfold nth_res; rewrite Ew; auto). rewrite Ew' in E. cbn [bind] in E.
  destruct (psi2_ok psi1 sys wIn e Hs1 Hsys) as (psi2 & E2 & Hv2 & Hf2). rewrite E2 in E. cbn [all_ranks rbind] in E.
  apply (fold_run_inv _ (fun pre st => hb_inv tOpIn (fun t i w o => done t i w o \/ (t = tIn /\ i = iE /\ w = iw /\ In o (map fst pre))) st)) in E.
  - destruct E as [I1 I2 I3 I4 I5 I6 (g0 & rest & I7 & I8)]. constructor; auto. exists g0, rest. split; [auto|].
    intros t i tO p en w wi tOut Hdone E1 E2' E3 E4 HtO. apply (I8 t i tO p en w wi tOut); auto. destruct Hdone as [|(? & ? & ?)]; [auto|right].
    split; [auto|]. split; [auto|]. split; [auto|]. unfold enumerate, outs. rewrite repeat_length.
    assert (G : forall k s, map fst (combine (seq s k) (repeat op0 k)) = seq s k) by (clear; induction k; intros; simpl; f_equal; auto).
    rewrite G. apply in_seq. lia.
  - intros pre to post s1 s2 El HI1 Es. assert (Hto : snd to = op0).
    { apply (repeat_spec M op0). fold outs. apply enum_snd. rewrite El. apply in_or_app. right. left. auto. }
    pose proof (hb4_out_ok ord tIn tOpIn psi psi1 e iE iw wIn psi2 _ s1 to s2 Ho Et Ep Ee Ew Himg Hv2 Hf2 HI1 Hto Es) as Es'. clear Es. rename Es' into Es.
    destruct Es as [I1 I2 I3 I4 I5 I6 (g0 & rest & I7 & I8)]. constructor; auto. exists g0, rest. split; [auto|].
    apply (fun H => gs_ok4_ext _ _ g0 H I8); intros t i w o Hq. rewrite map_app, in_app_iff in Hq. simpl in Hq. intuition.
  - destruct HI as [I1 I2 I3 I4 I5 I6 (g0 & rest & I7 & I8)]. constructor; auto. exists g0, rest. split; [auto|].
    apply (fun H => gs_ok4_ext _ _ g0 H I8); intros t i w o Hq. simpl in Hq. tauto.
Qed.
Lemma hb4_step_ok (ord : nat -> set_order) tIn tOpIn done st iE st' : ord_ok pm ord -> nth_error tOpsIn tIn = Some tOpIn ->
  hb_inv tOpIn done st ->
  hb4_step fsqrt bicgstab fuel (Z.of_nat n) hOp wIns wLoss delta1 delta2 rs ks swm outs psis es pm ord tIn tOpIn st iE = Run st' ->
  hb_inv tOpIn (fun t i w o => done t i w o \/ (t = tIn /\ i = iE)) st'.
Proof.
  intros Ho Et HI E. unfold hb4_step in E. cbv zeta in E.
  assert (Hwt : wf_op n tOpIn) by (rewrite Forall_forall in HtIn; apply HtIn; eapply nth_error_In; eauto).
  destruct HI as [I1 I2 I3 I4 I5 I6 (g0 & rest & I7 & I8)].
  destruct (core_hole _ _ _ _ _ _ _ _) as [[[tb e] psi1]|] eqn:Ec; [|discriminate]. cbn [all_ranks rbind] in E.
  apply core_ok in Ec as (Htb & Hs1 & Ee & psi & Epsi & Himg); auto.
  destruct (ebh_any pm ord psi1 (h4_ex st) Hpm Ho (proj1 Hs1) I2 I3) as (Le & Hex & Hm).
  set (ebh := expand_basis_and_hamiltonian _ _ _ _ _ _ _ _ _) in *. clearbody ebh.
  match type of E with rbind (together (map ?f0 _)) _ = _ => set (f := f0) in E end.
  destruct (together (map f ebh)) as [l|] eqn:Etg; [|discriminate]. cbn [rbind] in E. apply together_run in Etg.
  destruct l as [|sys l]; [discriminate|]. destruct ebh as [|ob ebh]; [discriminate|]. simpl in Etg. injection Etg as Esys _.
  unfold f in Esys. destruct (snd ob) as [[m idx]|] eqn:Es; [|discriminate]. cbn [bind] in Esys.
  destruct (Hm ob m idx (or_introl eq_refl) Es) as (basis & -> & HC & HRm).
  destruct (psi_vec (basis_index basis) psi1) as [y|] eqn:Ey; [|discriminate]. cbn [bind] in Esys. injection Esys as <-.
  assert (Hsys : sys_ok psi1 (m, basis_index basis, y)) by (exists basis, m, y; auto).
  apply (fold_run_inv _ (fun pre st => hb_inv tOpIn (fun t i w o => done t i w o \/ (t = tIn /\ i = iE /\ In w pre)) st)) in E.
  - destruct E as [J1 J2 J3 J4 J5 J6 (g1 & rest1 & J7 & J8)]. constructor; auto. exists g1, rest1. split; [auto|].
    intros t i tO p en w wi tOut Hdone E1 E2' E3 E4 HtO. apply (J8 t i tO p en w wi tOut); auto. destruct Hdone as [|(? & ?)]; [auto|right].
    split; [auto|]. split; [auto|]. apply in_seq. assert ((w < length wIns)%nat) by (apply nth_error_Some; congruence). lia.
  - intros pre iw post s1 s2 El HI1 Ex. assert (Hiw : In iw (seq 0 (length wIns))) by (rewrite El; apply in_or_app; right; left; auto). apply in_seq in Hiw.
    destruct (nth_error wIns iw) as [wIn|] eqn:Ew; [|apply nth_error_None in Ew; lia].
    pose proof (hb4_energy_ok ord tIn tOpIn psi psi1 e _ iE iw wIn _ s1 s2 Ho Et Epsi Ee Ew Himg Hs1 Hsys HI1 Ex) as Ex'. clear Ex. rename Ex' into Ex.
    destruct Ex as [J1 J2 J3 J4 J5 J6 (g1 & rest1 & J7 & J8)]. constructor; auto. exists g1, rest1. split; [auto|].
    apply (fun H => gs_ok4_ext _ _ g1 H J8); intros t i w o Hq. rewrite in_app_iff in Hq. simpl in Hq. intuition.
  - constructor; cbn [h4_tbig h4_ex h4_heap h4_gr h4_gs]; auto; [discriminate|]. exists g0, rest. split; [auto|].
    apply (fun H => gs_ok4_ext _ _ g0 H I8); intros t i w o Hq. simpl in Hq. tauto.
Qed.
Lemma hb4_run_ok (ord : nat -> nat -> nat -> set_order) hg st : (forall t i, ord_ok pm (ord t i)) -> hg <> [] -> hs_ok pm hg ->
  hb4_run fsqrt bicgstab fuel (Z.of_nat n) hOp wIns wLoss delta1 delta2 rs ks swm tOpsIn outs psis es pm ord hg = Run st ->
  exists g0 rest, h4_gs st = g0 :: rest /\ gs_ok (fun t i => True) g0.
Proof.
  intros Ho Hne Hhg E.
  pose (inv0 := fun (done : nat -> nat -> nat -> nat -> Prop) (st : hb4_state) => hs_ok pm (h4_ex st) /\ h4_ex st <> [] /\ heap_ok (h4_heap st) /\ hs_ok pm (h4_gr st) /\ h4_gr st <> [] /\
     exists g0 rest, h4_gs st = g0 :: rest /\ gs_ok4 done g0).
  unfold hb4_run in E.
  apply (fold_run_inv _ (fun pre st => inv0 (fun t i _ _ => In t (map fst pre) /\ (i < length es)%nat) st)) in E.
  - destruct E as (_ & _ & _ & _ & _ & gs & rest & Eg & Hg). exists gs, rest. split; [exact Eg|].
    intros t i tO p e iw wi tOut _ E1 E2 E3. apply (Hg t i tO p e iw wi tOut); auto.
    split; [|apply nth_error_Some; congruence]. apply nth_enumerate in E1. apply (in_map fst) in E1. auto.
  - intros pre [t tOp] post s s' El (H1 & H2 & H3 & H4 & H5 & gs & rest & H6 & H7) Er. cbn [fst snd] in Er.
    assert (Et : nth_error tOpsIn t = Some tOp) by (apply enumerate_nth; rewrite El; apply in_or_app; right; left; auto).
    apply (fold_run_inv _ (fun pre2 st => hb_inv tOp (fun t' i _ _ => (In t' (map fst pre) /\ (i < length es)%nat) \/ (t' = t /\ In i pre2)) st)) in Er.
    + destruct Er as [I1 I2 I3 I4 I5 I6 (g0 & rest0 & I7 & I8)]. split; [auto|]. split; [auto|]. split; [auto|]. split; [auto|]. split; [auto|]. exists g0, rest0. split; [auto|].
      apply (fun H => gs_ok4_ext _ _ g0 H I8); intros t' i w o Hq.
      destruct Hq as [Hq Hi]. rewrite map_app, in_app_iff in Hq. simpl in Hq. destruct Hq as [Hq|[<-|[]]]; [left; auto|right]. split; [auto|]. apply in_seq. lia.
    + intros pre2 iE post2 s1 s2 El2 HI Es. apply (hb4_step_ok (ord t iE) t tOp _ s1 iE s2 (Ho t iE) Et HI) in Es.
      destruct Es as [I1 I2 I3 I4 I5 I6 (g0 & rest0 & I7 & I8)]. constructor; auto. exists g0, rest0. split; [auto|].
      apply (fun H => gs_ok4_ext _ _ g0 H I8); intros t' i w o Hq. rewrite in_app_iff in Hq. simpl in Hq. intuition.
    + constructor; cbn [h4_tbig h4_ex h4_heap h4_gr h4_gs]; auto; [apply cache_ok_nil|]. exists gs, rest. split; [auto|].
      apply (fun H => gs_ok4_ext _ _ gs H H7); intros t' i w o Hq. simpl in Hq. tauto.
  - unfold inv0. cbn [h4_tbig h4_ex h4_heap h4_gr h4_gs]. split; [|split; [|split; [|split; [auto|split; [auto|]]]]].
    + split; [apply Forall_forall; intros x Hx; apply in_map_iff in Hx as (? & <- & _); apply exact_nil|]. intros _. clear. induction hg; simpl; [constructor|auto].
    + destruct hg; [congruence|discriminate].
    + exists []. split; [reflexivity|apply cache_ok_nil].
    + destruct hg as [|h0 hg']; [congruence|]. exists (g4zeros (length wLoss)), (map (fun _ => g4zeros (length wLoss)) hg'). split; [reflexivity|]. intros t i tO p e iw wi tOut [[] _].
Qed.
End HB.
End LRIXS3.
