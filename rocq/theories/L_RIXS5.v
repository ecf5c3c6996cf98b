(* getRIXSmap: an outgoing operator of which no element is cut off gives the same state with any cache *)
From Coq Require Import Lia List Bool Permutation Field Ring.
From Verif Require Import M_Prelude M_Scalar M_PSR M_Ladder M_State M_Mpi M_Hamiltonian M_Lanczos M_Spectra M_RIXS S_Fock S_Ham S_Ops S_Green S_Spectra S_RIXS
  L_PSR L_Ladder L_Scalar L_Dict L_Sum L_Fock L_State L_ApplyOp L_Ops L_FockP L_Ham L_Expand L_ExpandP L_FromH L_HamP L_Vec L_Lanczos2 L_Green L_Green2 L_Green3 L_Green4 L_Spectra L_Spectra2 L_Spectra3 L_Perm L_RIXS L_RIXS2 L_RIXS3.
Import ListNotations.
Local Open Scope cx_scope.

Section LRIXS5.
Context {F : ofield}.
Add Field Ff : (f_field F).
Add Ring Cring : (@c_ring F).
Add Field Cf : (@c_field F).

(* the columns are those which applyOp itself stores *)
Definition stored_cols n (op : op_t F) swm rs (cache : cache_t F) : Prop :=
  forall k col, dget cache k = Some col -> exists c, length c = n /\ k = key c /\ col = cutoff swm (colraw rs op c).
Lemma stored_coherent n op swm rs cache : stored_cols n op swm rs cache -> coherent n op swm rs cache.
Proof. intros H k col E. destruct (H k col E) as (c & Lc & -> & ->). exists c. split; [auto|]. split; [auto|]. apply colraw_ok. auto. Qed.
Lemma cached_loop_stored n op swm rs : wfl n op -> forall psi psiNew cache sign psi' cache',
  valid_psi n psi -> okkeys n rs psiNew -> stored_cols n op swm rs cache ->
  cached_loop (Z.of_nat n) op swm rs psi psiNew cache sign = COk (psi', cache') -> stored_cols n op swm rs cache'.
Proof.
  intros Hw. induction psi as [|[k a] psi IH]; intros psiNew cache sign psi' cache' Hv Hk Hco E; cbn [cached_loop] in E.
  - injection E as <- <-. auto.
  - apply valid_cons_inv in Hv as (Hkey & Hni & Hv). destruct (dget cache k) as [col|] eqn:Ec.
    + apply IH in E; auto. destruct (stored_coherent _ _ _ _ _ Hco _ _ Ec) as (c & Hc & Ek & (Hvc & Hokc & _)).
      apply okkeys_addToFirst; auto. apply Hvc.
    + cbv zeta in E. set (c := bytes2bitarray k (Z.of_nat n)) in *. destruct (valid_key_bits n k Hkey) as [Hc Hkc]. fold c in Hc, Hkc.
      destruct (col_loop_correct n rs a c Hc op psiNew [] sign Hw Hk) as [sg El]; [intros ? []|]. unfold col_loop in El. rewrite El in E.
      fold (colraw rs op c) in E. apply IH in E; auto.
      * apply okkeys_foldadd; auto. apply okf_contribs_ok; auto.
      * intros k' col' Hg. rewrite dget_dset in Hg. destruct (eqb_spec k' k) as [->|Hne].
        -- injection Hg as <-. exists c. auto.
        -- apply Hco; auto.
Qed.
Lemma cutoff_le0 swm (psi : psi_t F) : (swm <= 0)%F -> NoDup (dkeys psi) -> cutoff swm psi = psi.
Proof.
  intros H Hn. rewrite cutoff_filter by auto. clear Hn. induction psi as [|[k a] psi IH]; simpl; auto.
  destruct (cabs2 a <? swm)%F eqn:E; simpl; [|f_equal; auto]. exfalso.
  pose proof (cabs2_nonneg a) as H0. pose proof (flt_le_trans _ _ _ E H) as H1. congruence.
Qed.
Lemma foldadd_in (l : list (pybytes * cx F)) k : In k (dkeys (foldadd l [])) <-> In k (map fst l).
Proof.
  rewrite dget_Some_key, dget_foldadd_nil. rewrite <- inb_In. destruct (inb k (map fst l)); split; eauto; try discriminate. intros [v E]. discriminate.
Qed.
Lemma dict_perm (d d' : psi_t F) : NoDup (dkeys d) -> NoDup (dkeys d') -> (forall k, In k (dkeys d) -> dget d k = dget d' k) ->
  (forall k, In k (dkeys d') -> In k (dkeys d)) -> Permutation d d'.
Proof.
  intros H H' He Hi. apply NoDup_Permutation.
  - eapply NoDup_map_inv; eauto.
  - eapply NoDup_map_inv; eauto.
  - intros [k v]. split; intros Hk.
    + apply dget_In. rewrite <- He by (apply (in_map fst) in Hk; exact Hk). apply In_dget; auto.
    + apply dget_In. rewrite He; [apply In_dget; auto|]. apply Hi. apply (in_map fst) in Hk. exact Hk.
Qed.
Lemma valid_dict_perm n (p p' : psi_t F) : valid_psi n p -> valid_psi n p' -> (forall t, length t = n -> amp p t = amp p' t) ->
  (forall k, In k (dkeys p) <-> In k (dkeys p')) -> Permutation p p'.
Proof.
  intros [Hn Hv] [Hn' Hv'] Ha Hk. apply dict_perm; auto; [|intros; apply Hk; auto].
  intros k Hi. destruct (Hv k Hi) as (c & Lc & ->). specialize (Ha c Lc). unfold amp in Ha.
  assert (Hi' := Hi). apply Hk in Hi'. apply dget_Some_key in Hi as [v E]. apply dget_Some_key in Hi' as [v' E']. rewrite E, E' in *. congruence.
Qed.
Lemma colraw_in (op : op_t F) rs c k : In k (dkeys (colraw rs op c)) <-> In k (map fst (kc (okf rs (contribs op c)))).
Proof. apply foldadd_in. Qed.
Lemma scale_in a (l : list (config * cx F)) : map fst (kc (scale a l)) = map fst (kc l).
Proof. unfold kc, scale. rewrite !map_map. reflexivity. Qed.
Lemma apply_any_cache n (op : op_t F) (psi : psi_t F) swm rs (cache : cache_t F) : wf_restr rs -> wf_op n op -> valid_psi n psi -> no_small n op swm rs ->
  stored_cols n op swm rs cache ->
  exists cache' psi' cache0 psi0, applyOp (Z.of_nat n) op psi swm rs (Some cache) = (Some cache', Ok psi') /\ stored_cols n op swm rs cache' /\
    applyOp (Z.of_nat n) op psi swm rs (Some []) = (Some cache0, Ok psi0) /\ Permutation psi' psi0 /\ valid_psi n psi'.
Proof.
  intros Hr [Hnd Hw] Hv Hs Hc.
  assert (H0 : stored_cols n op swm rs []) by (intros k col E; discriminate).
  destruct (applyOp_cached n op psi swm rs cache (conj Hnd Hw) Hv (stored_coherent _ _ _ _ _ Hc)) as (cache' & psi' & E & _ & _ & _ & Hv' & Hk' & Ha').
  destruct (applyOp_cached n op psi swm rs [] (conj Hnd Hw) Hv (stored_coherent _ _ _ _ _ H0)) as (cache0 & psi0 & E0 & _ & _ & _ & Hv0 & Hk0 & Ha0).
  exists cache', psi', cache0, psi0. split; [auto|]. split; [|split; [auto|split; [|auto]]].
  - unfold applyOp in E. destruct (cached_loop _ _ _ _ _ _ _ _) as [[p c]|] eqn:El; [|discriminate].
    apply cached_loop_stored in El; auto; [|apply okkeys_nil]. injection E as <- _. exact El.
  - assert (Ha : forall t, length t = n -> amp psi' t = amp psi0 t).
    { intros t Lt. rewrite Ha', Ha0 by auto. destruct (okr rs t) eqn:Eo; auto. f_equal. apply csum_ext. intros s Hs'. apply allcfg_In in Hs'. f_equal.
      unfold elem_cached. cbn [dmem]. destruct (dmem cache (key s)); [|destruct (dmem [] (key s)) eqn:Ed; [discriminate|auto]].
      destruct (dmem [] (key s)) eqn:Ed; [discriminate|]. unfold cut. apply okr_allowed in Eo; auto.
      destruct (Hs s t Hs' Lt Eo) as [->|Hx]; [destruct (cabs2 c0 <? swm)%F; auto|]. rewrite Hx. auto. }
    apply (valid_dict_perm n); auto.
    destruct (0 <? swm)%F eqn:Hle.
    2:{
      unfold applyOp in E, E0.
      destruct (cached_loop_correct n op swm rs Hw psi [] cache None Hv (okkeys_nil n rs) (stored_coherent _ _ _ _ _ Hc)) as (x1 & E1 & _).
      destruct (cached_loop_correct n op swm rs Hw psi [] [] None Hv (okkeys_nil n rs) (stored_coherent _ _ _ _ _ H0)) as (x2 & E2 & _).
      rewrite E1 in E. rewrite E2 in E0. injection E as _ <-. injection E0 as _ <-.
      intros k. rewrite !cutoff_le0 by (auto; apply NoDup_foldadd; constructor). rewrite !foldadd_in.
      rewrite !in_map_iff.
      assert (G : forall ka, In ka psi -> forall k, In k (map fst (colcontribs n rs op cache ka)) <-> In k (map fst (colcontribs n rs op [] ka))).
      { intros [k1 a1] Hi k2. unfold colcontribs. cbn [fst snd dget]. destruct (dget cache k1) as [col|] eqn:Ec; [|reflexivity].
        destruct (Hc _ _ Ec) as (c & Lc & -> & ->). rewrite map_map. cbn [fst]. rewrite cutoff_le0 by (auto; apply NoDup_foldadd; constructor).
        change (map (fun x : pybytes * cx F => fst x) (colraw rs op c)) with (dkeys (colraw rs op c)).
        rewrite colraw_in. rewrite scale_in. rewrite <- Lc, key_bits. reflexivity. }
      split; intros (x & Ex & Hx); apply in_flat_map in Hx as (ka & Hka & Hx); subst k; apply (in_map fst) in Hx; apply (G ka Hka) in Hx; apply in_map_iff in Hx as (y & Ey & Hy);
        exists y; (split; [auto|]); apply in_flat_map; eauto. }
    { assert (Hpos : forall p, valid_psi n p -> forall cch cc, applyOp (Z.of_nat n) op psi swm rs (Some cch) = (Some cc, Ok p) -> stored_cols n op swm rs cch ->
        forall t, length t = n -> In (key t) (dkeys p) <-> amp p t <> c0).
      { intros p Hp cch cc Ep Hcc t Lt. unfold applyOp in Ep.
        destruct (cached_loop_correct n op swm rs Hw psi [] cch None Hv (okkeys_nil n rs) (stored_coherent _ _ _ _ _ Hcc)) as (x1 & E1 & _). rewrite E1 in Ep. injection Ep as _ <-.
        unfold amp. rewrite dget_Some_key, dget_cutoff by (apply NoDup_foldadd; constructor).
        destruct (dget (foldadd _ _) _) as [v|]; [|split; [intros [w X]; discriminate|congruence]].
        destruct (cabs2 v <? swm)%F eqn:Ev; [split; [intros [w X]; discriminate|congruence]|]. split; eauto. intros _ ->.
        unfold cabs2, c0 in Ev. cbn [re im] in Ev. replace (0 * 0 + 0 * 0)%F with (0%F : F) in Ev by ring. congruence. }
      intros k. split; intros Hi.
      * destruct (proj2 Hv' k Hi) as (t & Lt & ->). apply (Hpos psi0 Hv0 [] cache0 E0 H0 t Lt). rewrite <- Ha by auto. apply (Hpos psi' Hv' cache cache' E Hc t Lt). auto.
      * destruct (proj2 Hv0 k Hi) as (t & Lt & ->). apply (Hpos psi' Hv' cache cache' E Hc t Lt). rewrite Ha by auto. apply (Hpos psi0 Hv0 [] cache0 E0 H0 t Lt). auto. }
Qed.
End LRIXS5.
