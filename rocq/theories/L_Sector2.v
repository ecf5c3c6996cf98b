(* Sectors: the operators of the program. *)
From Coq Require Import Permutation Ring Field.
From Verif Require Import M_Prelude M_Scalar M_PSR M_State M_Basis M_Expect M_Operators M_Program S_Fock S_Ops S_Basis S_Expect S_Operators S_Sector.
From Verif Require Import L_Scalar L_Sum L_Dict L_Fock L_State L_Ops L_Index L_Operators L_Operators2 L_Operators3 L_Operators4 L_Operators5 L_Operators6 L_Operators7 L_Operators8 L_Operators9 L_Sector.
From Verif Require L_Ham L_RIXS L_Program4 L_Program6 L_Spectra.
Local Open Scope Z_scope.

Section Ops.
Context {F : ofield}.
Variable nb : nbaths_t.
Hypothesis W : wf_nbaths nb.
Variable fsqrt : F -> F.
Variable pi : F.
Variable gaunt : Z -> Z -> Z -> Z -> Z -> Z -> F.
(* a quantum number that is the same for all impurity orbitals of a shell *)
Variable w : spinorb -> Z.
Variable f : Z -> Z.
Hypothesis Hw : forall l s m, w (SImp l s m) = f l.
Notation wi := (at_index nb w).
Lemma at_c2i x i : c2i nb x = Ok i -> wi i = w x.
Proof. intros E. apply (L_Program6.c2i_coord nb W) in E as [C ->]. unfold at_index. rewrite i2c_index; auto. Qed.
Lemma shifts_dset {A} {EA : EqB A} (v : A -> Z) d (op : gop A F) p x : shifts v d op -> pcharge v p = d -> shifts v d (dset op p x).
Proof. intros H Hp q Hq. apply in_dkeys_dset in Hq as [->|Hq]; auto. Qed.
Lemma shifts_dadd {A} {EA : EqB A} (v : A -> Z) d (op : gop A F) p x : shifts v d op -> pcharge v p = d -> shifts v d (dadd op p x).
Proof. intros H Hp. unfold dadd. destruct (dget op p); apply shifts_dset; auto. Qed.
Lemma shifts_nil {A} (v : A -> Z) d : shifts v d ([] : gop A F).
Proof. intros p []. Qed.
Lemma two_charge i j : pcharge wi [(i, lab_c); (j, lab_a)] = wi i - wi j.
Proof. unfold pcharge. cbn. lia. Qed.
Lemma pes_shifts label l (ops : list (op_t F)) : label = lab_a \/ label = lab_c -> getPESOperators label nb l = Ok ops ->
  Forall (shifts wi (if Ascii.eqb label "c" then f l else - f l)) ops.
Proof.
  intros Hl E. eapply L_Program4.map_res_all; [|exact E]. intros [s m] op _ Eo. cbn [fst snd] in Eo. destruct (c2i _ _) as [i|] eqn:Ei; [|discriminate]. injection Eo as <-.
  intros p [<-|[]]. unfold pcharge. cbn [map fst snd zsum fold_right]. rewrite (at_c2i _ _ Ei), Hw. destruct (Ascii.eqb label "c"); lia.
Qed.
Lemma dip_shifts v l1 l2 (op : op_t F) : dkeys nb = [KInt l1; KInt l2] -> getDipoleOperator fsqrt pi gaunt nb v = Ok op -> shifts wi (f l2 - f l1) op.
Proof.
  intros Ek. unfold getDipoleOperator. destruct (py_nth v 0) as [n0|]; [|discriminate]. cbn [bind]. destruct (py_nth v 1) as [n1|]; [|discriminate]. cbn [bind].
  destruct (py_nth v 2) as [n2|]; [|discriminate]. cbn [bind]. rewrite Ek.
  apply (L_RIXS.fold_res_inv' _ (shifts wi (f l2 - f l1))); [|apply shifts_nil]. intros s1 m s2 H1 _. revert H1. apply (L_RIXS.fold_res_inv' _ (shifts wi (f l2 - f l1))). clear s1 s2.
  intros s1 mp s2 H1 _. revert H1. apply (L_RIXS.fold_res_inv' _ (shifts wi (f l2 - f l1))). clear s1 s2. intros s1 s s2 H1 _.
  destruct (Z.abs (m - mp) <=? 1); [|intros E0; injection E0 as <-; exact H1]. destruct (pol _ _ _ _ _) as [nd|]; [|discriminate]. cbn [bind]. destruct (negb _); [|intros E0; injection E0 as <-; exact H1].
  destruct (c2i nb (SImp _ s m)) as [i|] eqn:Ei; [|discriminate]. cbn [bind]. destruct (c2i nb (SImp _ s mp)) as [j|] eqn:Ej; [|discriminate]. cbn [bind]. intros E. injection E as <-.
  apply shifts_dset; auto. rewrite two_charge, (at_c2i _ _ Ei), (at_c2i _ _ Ej), !Hw. reflexivity.
Qed.
Lemma dips_shifts vs l1 l2 (ops : list (op_t F)) : dkeys nb = [KInt l1; KInt l2] -> getDipoleOperators fsqrt pi gaunt nb vs = Ok ops -> Forall (shifts wi (f l2 - f l1)) ops.
Proof. intros Ek E. eapply L_Program4.map_res_all; [|exact E]. intros v op _. apply dip_shifts; auto. Qed.
Lemma pcharge_dag (u : Z -> Z) (p : list (Z * ascii)) : Forall (fun l => snd l = "a"%char \/ snd l = "c"%char) p -> pcharge u (dag p) = - pcharge u p.
Proof.
  intros H. unfold dag, pcharge. rewrite map_map.
  assert (G : forall l, zsum (map (fun x => (fun xa => if Ascii.eqb (snd xa) "c" then u (fst xa) else - u (fst xa)) (dag_ladder x)) (rev l)) = zsum (map (fun x => (fun xa => if Ascii.eqb (snd xa) "c" then u (fst xa) else - u (fst xa)) (dag_ladder x)) l)).
  { intros l. unfold zsum. induction l as [|a l IH]; auto. cbn [rev]. rewrite map_app, fold_right_app. cbn [map fold_right]. rewrite <- IH. clear.
    induction (map _ (rev l)) as [|b bs IH]; cbn [fold_right]; lia. }
  rewrite G. clear G. unfold zsum. induction H as [|[i a] p Ha Hp IH]; [reflexivity|]. cbn [map fold_right fst snd] in *. rewrite IH. unfold dag_ladder. cbn [fst snd].
  destruct Ha as [-> | ->]; cbn; lia.
Qed.
Lemma ddips_shifts vs l1 l2 (ops : list (op_t F)) : dkeys nb = [KInt l1; KInt l2] -> getDaggeredDipoleOperators fsqrt pi gaunt nb vs = Ok ops -> Forall (shifts wi (f l1 - f l2)) ops.
Proof.
  intros Ek. unfold getDaggeredDipoleOperators. intros E. eapply L_Program4.map_res_all; [|exact E]. intros v d _ Hd. cbn beta in Hd.
  destruct (getDipoleOperator fsqrt pi gaunt nb v) as [op|] eqn:Ed; [|discriminate]. cbn [bind] in Hd. pose proof (dip_shifts _ _ _ _ Ek Ed) as Hs. pose proof (L_Program4.dip_wf nb W _ _ _ _ _ Ed) as [HN HF].
  apply daggerOp_ok_inv in Hd as [_ ->]; [|auto]. intros p Hp. unfold dagl, dkeys in Hp. rewrite map_map in Hp. apply in_map_iff in Hp as ([p0 x] & <- & Hi). cbn [fst].
  rewrite pcharge_dag.
  - rewrite (Hs p0); [lia|]. apply (in_map fst) in Hi. exact Hi.
  - rewrite Forall_forall in HF. specialize (HF _ Hi). eapply Forall_impl; [|exact HF]. intros l Hl. apply Hl.
Qed.
Lemma nixs_shifts arccos fsin spherical_jn sph_harm qs li lj radial (ops : list (op_t F)) :
  getNIXSOperators fsqrt arccos fsin pi gaunt spherical_jn sph_harm nb qs li lj radial = Ok ops -> Forall (shifts wi (f li - f lj)) ops.
Proof.
  intros E. eapply L_Program4.map_res_all; [|exact E]. intros [[q0 q1] q2] op _. unfold getNIXSOperator.
  apply (L_RIXS.fold_res_inv' _ (shifts wi (f li - f lj))); [|apply shifts_nil]. intros s1 k s2 H1 _. destruct (_ =? 0)%Z; [|intros E0; injection E0 as <-; exact H1]. revert H1.
  apply (L_RIXS.fold_res_inv' _ (shifts wi (f li - f lj))). clear s1 s2. intros s1 mi s2 H1 _. revert H1.
  apply (L_RIXS.fold_res_inv' _ (shifts wi (f li - f lj))). clear s1 s2. intros s1 mj s2 H1 _. destruct (_ <=? k)%Z; [|intros E0; injection E0 as <-; exact H1]. destruct (negb _); [|intros E0; injection E0 as <-; exact H1]. revert H1.
  apply (L_RIXS.fold_res_inv' _ (shifts wi (f li - f lj))). clear s1 s2. intros s1 s s2 H1 _.
  destruct (c2i nb (SImp li s mi)) as [i|] eqn:Ei; [|discriminate]. cbn [bind]. destruct (c2i nb (SImp lj s mj)) as [j|] eqn:Ej; [|discriminate]. cbn [bind]. intros H. injection H as <-.
  apply shifts_dadd; auto. rewrite two_charge, (at_c2i _ _ Ei), (at_c2i _ _ Ej), !Hw. reflexivity.
Qed.
(* ---- the Hamiltonian ---- *)
Lemma u_shell l1 l2 l3 l4 R : f l1 + f l2 = f l3 + f l4 -> conserves w (getUop fsqrt pi gaunt l1 l2 l3 l4 R).
Proof.
  intros Hf p Hp. apply dget_Some_key in Hp as [v Hp]. apply u_elements in Hp as (m1 & m2 & m3 & m4 & s & sp & H). cbv zeta in H.
  destruct H as (_ & _ & _ & _ & _ & _ & _ & -> & _). rewrite pcharge_hop4, !Hw. lia.
Qed.
Lemma pd_shell Fdd Fpp Fpd Gpd : conserves w (get2p3dSlaterCondonUop fsqrt pi gaunt Fdd Fpp Fpd Gpd).
Proof.
  unfold get2p3dSlaterCondonUop.
  apply addOps_conserves; repeat (apply Forall_cons || apply Forall_nil); try apply u_NoDup; try apply addOps_NoDup; try (apply u_shell; lia);
    apply addOps_conserves; repeat (apply Forall_cons || apply Forall_nil); try apply u_NoDup; apply u_shell; lia.
Qed.
Lemma soc_shell xi l : conserves w (getSOCop fsqrt xi l).
Proof.
  intros p H; apply soc_key in H as [v H]; apply soc_In in H.
  destruct H as [(s & m & Hs & Hm & -> & _)|(m & Hm & _ & [-> | ->])]; rewrite pcharge_hop2, !Hw; lia.
Qed.
Lemma fld_shell (hx hy hz : F) l : conserves w (gethHfieldop hx hy hz l).
Proof.
  intros p H; apply fld_key in H as [v H]; apply fld_In in H as (m & _ & H).
  destruct H as [[-> _]|[[-> _]|[[-> _]|[-> _]]]]; rewrite pcharge_hop2, !Hw; lia.
Qed.
Lemma eDC_shell (d p : F) : conserves w (eDC d p).
Proof. intros q Hq. apply dget_Some_key in Hq as [v Hq]. apply eDC_dget, eDC_In in Hq as (x & -> & _). rewrite pcharge_hop2. lia. Qed.
Lemma to_index_conserves op (h : op_t F) : conserves w op -> to_index nb op = Ok h -> conserves wi h.
Proof.
  intros Hc. assert (G : forall L (s h : op_t F), incl L op -> conserves wi s -> fold_res (fun hOp pv =>
    do p <- map_res (fun sa : sladder => do i <- c2i nb (fst sa); Ok (i, snd sa)) (fst pv); Ok (dset hOp p (snd pv))) L s = Ok h -> conserves wi h).
  { clear h. induction L as [|[p v] L IH]; intros s h Hi Hs; cbn [fold_res]; [intros E0; injection E0 as <-; exact Hs|]. cbn [fst snd]. match goal with |- context [map_res ?g p] => destruct (map_res g p) as [p'|] eqn:Ep; [|discriminate] end. cbn [bind].
    apply IH; [intros x Hx; apply Hi; right; auto|]. apply shifts_dset; auto.
    transitivity (pcharge w p). 2:{ apply Hc. change p with (fst (p, v)). apply in_map. apply Hi. left. auto. }
    clear -Ep Hw W. revert p' Ep. induction p as [|[x a] p IH]; intros p' Ep; cbn [map_res] in Ep; [injection Ep as <-; reflexivity|]. cbn [fst snd] in Ep.
    destruct (c2i nb x) as [i|] eqn:Ei; [|discriminate]. cbn [bind] in Ep. match type of Ep with context [map_res ?g p] => destruct (map_res g p) as [r|] eqn:Er; [|discriminate] end. cbn [bind] in Ep. injection Ep as <-.
    specialize (IH r eq_refl). unfold pcharge, zsum in *. cbn [map fold_right fst snd]. rewrite IH, (at_c2i _ _ Ei). reflexivity. }
  unfold to_index. apply G; [apply incl_refl|]. intros p [].
Qed.
Lemma total_shell fint hp g (h : op_t F) : (forall h0, g = Ok h0 -> NoDup (dkeys h0) /\ conserves w h0) -> total_hamiltonian fsqrt pi gaunt fint nb hp g = Ok h -> conserves wi h.
Proof.
  intros Hg. unfold total_hamiltonian. destruct (dgetitem _ 2) as [n3|]; [|discriminate]. cbn [bind]. destruct (dgetitem _ 1) as [n2|]; [|discriminate]. cbn [bind].
  destruct (dc_MLFT _ _ _ _ _ _ _) as [[d|d p]|]; [discriminate| |discriminate]. cbn [bind]. rewrite eDC_eq. cbn [bind]. destruct g as [h0|]; [|discriminate]. cbn [bind].
  destruct (Hg h0 eq_refl) as [Hn Hc]. destruct (to_index _ _) as [h'|] eqn:Et; [|discriminate]. cbn [bind]. destruct (assert_hermitian h') as [[]|]; [|discriminate]. cbn [bind]. intros E. injection E as <-.
  revert Et. apply to_index_conserves. apply addOps_conserves.
  - repeat (apply Forall_cons || apply Forall_nil); [apply addOps_NoDup|apply fld_NoDup|apply soc_NoDup|apply soc_NoDup|apply eDC_NoDup|auto].
  - repeat (apply Forall_cons || apply Forall_nil); [apply pd_shell|apply fld_shell|apply soc_shell|apply soc_shell|apply eDC_shell|auto].
Qed.
(* crystal field: only 3d and its bath *)
Lemma CF_shell nv p b h0 : (forall x, (match x with SImp l _ _ => l = 2 | SBath k _ => k = KInt 2 end) -> w x = w (SImp 2 0 0)) ->
  get_CF_hamiltonian fsqrt nb nv p b = Ok h0 -> NoDup (dkeys h0) /\ conserves w h0.
Proof.
  intros H2 E. assert (Hb : b <> OtherBasis) by (intros ->; rewrite CF_other in E; congruence).
  destruct (dget nb (KInt 2)) as [nB|] eqn:EB; [|rewrite (CF_key fsqrt p nb nv b Hb (or_introl EB)) in E; congruence].
  destruct (dget nv (KInt 2)) as [nV|] eqn:EV; [|rewrite (CF_key fsqrt p nb nv b Hb (or_intror EV)) in E; congruence].
  rewrite (CF_eq fsqrt p nb nv b nB nV Hb EB EV) in E. injection E as <-.
  split; [apply CF_NoDup|]. intros q Hq; apply A_hop in Hq as (x & y & -> & Hx & Hy & _). rewrite pcharge_hop2.
  assert (G : forall z, cf_orb nB nV z -> w z = w (SImp 2 0 0)) by (intros z [(s & i & -> & _)|(o & s & i & -> & _)]; apply H2; exact eq_refl).
  rewrite (G x Hx), (G y Hy). lia.
Qed.
End Ops.
