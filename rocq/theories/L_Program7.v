(* The written spectra: Boltzmann means of Green's functions *)
From Coq Require Import Lia List Bool Permutation Field Ring String.
From Verif Require Import M_Prelude M_Scalar M_PSR M_Ladder M_State M_Mpi M_Hamiltonian M_Lanczos M_Basis M_Average M_Expect M_Operators M_Spectra M_Simulate M_RIXS M_Main M_Program
  S_Fock S_Basis S_Ham S_Ops S_Expect S_Green S_Moments S_Spectra S_RIXS S_Thermal S_Main S_Program S_Spectrum
  L_PSR L_Ladder L_Scalar L_Dict L_Sum L_Fock L_State L_ApplyOp L_Ops L_FockP L_Ham L_Index L_Basis2 L_Basis4 L_Average L_Spectra L_Spectra2 L_Spectra3 L_Spectra6 L_RIXS L_RIXS2 L_RIXS3 L_RIXS5 L_RIXS6 L_RIXS7 L_Main L_Main2 L_Main3 L_Length L_Moments L_Moments2 L_Program L_Program2 L_Program3 L_Program4 L_Program5 L_Program6.
Import ListNotations.

(* ---- the image of a state ---- *)
Lemma apply_cut {F : ofield} n op (psi : psi_t F) swm rs cache psi' : wf_restr rs -> wf_op n op -> valid_psi n psi -> cache_ok n op swm rs cache ->
  snd (applyOp (Z.of_nat n) op psi swm rs (Some cache)) = Ok psi' -> valid_psi n psi' /\ cut_image n op rs swm psi psi'.
Proof.
  intros Hr Hw Hv Hc E. destruct (apply_kept n op psi swm rs cache Hr Hw Hv Hc) as (c' & r & Ea & _ & Hvr & _ & Hi).
  rewrite Ea in E. cbn [snd] in E. injection E as <-. auto.
Qed.

(* ---- the columns ---- *)
Section Columns.
Context {F : ofield}.
Add Field Ff7 : (f_field F).
Variable fexp : F -> F.
Hypothesis HE : exp_laws fexp.
Variable k_B : F.
Local Open Scope of_scope.
Lemma flat_nth {A B} (f : A -> list B) m l d d' k j : (forall a, In a l -> length (f a) = m) -> (j < length l)%nat -> (k < m)%nat ->
  nth (j * m + k) (flat_map f l) d = nth k (f (nth j l d')) d.
Proof.
  revert j. induction l as [|a l IH]; intros j H Hj Hk; [simpl in Hj; lia|]. cbn [flat_map]. pose proof (H a (or_introl eq_refl)) as La. destruct j as [|j].
  - rewrite app_nth1 by lia. reflexivity.
  - rewrite app_nth2 by (rewrite La; nia). replace (S j * m + k - length (f a))%nat with (j * m + k)%nat by (rewrite La; nia).
    cbn [nth]. apply IH; auto. intros; apply H; right; auto. simpl in Hj. lia.
Qed.
Lemma re_ctotal l : re (ctotal (F := F) l) = ftotal (map re l).
Proof. induction l as [|x l IH]; simpl; auto. now rewrite IH. Qed.
Lemma neg_imag_nth nE nT m (gs : garr F) i t k : (forall i t, length (gs i t) = m) -> (i < nE)%nat -> (t < nT)%nat -> (k < m)%nat ->
  nth (t * m + k) (nth i (neg_imag nE nT gs) []) c0 = creal (- im (nth k (gs i t) c0)).
Proof.
  intros Hs Hi Ht Hk. unfold neg_imag.
  set (f := fun i => flat_map (fun t => map (fun x => creal (- im x)) (gs i t)) (seq 0 nT)).
  rewrite (nth_indep (map f (seq 0 nE)) [] (f 0%nat)) by (rewrite map_length, seq_length; auto). rewrite (map_nth f), seq_nth by auto. cbn [Nat.add]. unfold f.
  rewrite (flat_nth _ m _ c0 0%nat) by (try rewrite seq_length; auto; intros; rewrite map_length; auto). rewrite seq_nth by auto. cbn [Nat.add].
  rewrite (nth_indep _ c0 (creal (- im c0))) by (rewrite map_length, Hs; auto). apply (map_nth (fun x => creal (- im x))).
Qed.
Lemma combine_seq_map {A B C} (f : A -> B -> C) (l : list A) (l' : list B) a b : length l = length l' ->
  map (fun p => f (fst p) (snd p)) (combine l l') = map (fun i => f (nth i l a) (nth i l' b)) (seq 0 (length l)).
Proof.
  revert l'. induction l as [|x l IH]; intros [|y l'] E; try discriminate; auto. cbn [combine map length seq nth fst snd]. f_equal.
  rewrite <- seq_shift, map_map. apply IH. simpl in E. lia.
Qed.
Lemma sum0_nth nw (rows : list (list F)) : Forall (fun r => length r = nw) rows ->
  length (sum_axis0 nw rows) = nw /\ forall k, nth k (sum_axis0 nw rows) 0 = ftotal (map (fun c => nth k c 0) rows).
Proof.
  intros H. unfold sum_axis0.
  assert (G : forall acc : list F, length acc = nw -> let s := fold_left radd rows acc in
    length s = nw /\ forall k, nth k s 0 = nth k acc 0 + ftotal (map (fun c => nth k c 0) rows)).
  { induction H as [|r rows Hr Hrs IH]; intros acc Ha; cbv zeta; cbn [fold_left map ftotal]; [split; [auto|]; intros; ring|].
    destruct (IH (radd acc r)) as (A & C); [rewrite radd_len; lia|]. split; [auto|]. intros k. rewrite C, radd_nth by lia. ring. }
  destruct (G (repeat 0 nw)) as (A & C); [apply repeat_length|]. split; [auto|]. intros k. rewrite C, nth_repeat. ring.
Qed.
Lemma arow_nth nw (a : list (cx F)) t k nT : length a = (nT * nw)%nat -> (t < nT)%nat -> (k < nw)%nat -> nth k (arow nw a t) 0 = re (nth (t * nw + k) a c0).
Proof.
  intros La Ht Hk. unfold arow. change (0 : F) with (re (@c0 F)). rewrite map_nth. f_equal.
  assert (L : (t * nw + k < length a)%nat) by (rewrite La; nia).
  rewrite <- (firstn_skipn (t * nw) a) at 2. rewrite app_nth2 by (rewrite firstn_length; lia).
  rewrite firstn_length, Nat.min_l by lia. replace (t * nw + k - t * nw)%nat with k by lia.
  rewrite <- (firstn_skipn nw (skipn (t * nw) a)) at 2. rewrite app_nth1; auto. rewrite firstn_length, skipn_length. nia.
Qed.
Lemma columns_mean mesh es T nT (gs : garr F) cols : k_B * T <> 0 -> (forall i t, length (gs i t) = length mesh) ->
  columns fexp k_B mesh es T nT gs = Ok cols -> mean_file fexp (k_B * T) mesh es nT (fun i t k => - im (nth k (gs i t) c0)) cols.
Proof.
  intros HkT Hl. unfold columns. destruct (thermal_average _ _ _ _ _) as [a|] eqn:Ea; [|discriminate]. cbn [bind]. intros E. injection E as <-.
  assert (La : length a = (nT * length mesh)%nat) by (eapply avg_len; [|exact Ea]; apply neg_imag_len; auto).
  assert (Hne : es <> []). { intros ->. unfold thermal_average in Ea. simpl in Ea. discriminate. }
  assert (Lo : length es = length (neg_imag (length es) nT gs)) by (unfold neg_imag; now rewrite map_length, seq_length).
  destruct (avg_ok fexp HE k_B T (k_B * T) eq_refl HkT es (neg_imag (length es) nT gs) (nT * length mesh) Hne Lo (neg_imag_len _ _ _ gs Hl)) as (r & Er & _ & Hr).
  rewrite Er in Ea. injection Ea as ->.
  set (rows := map (arow (length mesh) a) (seq 0 nT)).
  assert (Hrows : Forall (fun r => length r = length mesh) rows).
  { apply Forall_forall. intros x Hx. apply in_map_iff in Hx as (t & <- & Ht). apply in_seq in Ht. apply (arow_len _ _ _ nT); auto; lia. }
  destruct (sum0_nth (length mesh) rows Hrows) as (A & C). exists (sum_axis0 (length mesh) rows), rows.
  split; [reflexivity|]. split; [unfold rows; now rewrite map_length, seq_length|]. split; [auto|]. split; [|auto].
  intros t Ht. assert (Et : nth t rows [] = arow (length mesh) a t).
  { unfold rows. rewrite (nth_indep _ [] (arow (length mesh) a 0)) by (rewrite map_length, seq_length; auto). rewrite map_nth, seq_nth by auto. reflexivity. }
  rewrite Et. split; [apply (arow_len _ _ _ nT); auto|]. intros k Hk. rewrite (arow_nth _ _ _ _ nT) by auto. rewrite Hr by nia.
  unfold average_at, boltzmann_mean. rewrite (combine_seq_map (fun e o => cmul (creal (probability fexp (k_B * T) es e)) (nth (t * length mesh + k) o c0)) es _ 0 []) by auto.
  rewrite re_ctotal, map_map. f_equal. apply map_ext_in. intros i Hi. apply in_seq in Hi. rewrite (neg_imag_nth _ _ _ gs) by (auto; lia). simpl. ring.
Qed.
Lemma report_text es T name mesh nT (gs : garr F) outs f cols : k_B * T <> 0 -> (forall i t, length (gs i t) = length mesh) ->
  report fexp k_B es T name mesh nT gs = Ok outs -> In (Text f cols) outs -> f = (name ++ ".dat")%string /\ mean_file fexp (k_B * T) mesh es nT (fun i t k => - im (nth k (gs i t) c0)) cols.
Proof.
  intros HkT Hl. unfold report. cbv zeta. destruct (thermal_average _ _ _ _ _) as [a|]; [|discriminate]. cbn [bind].
  destruct (columns _ _ _ _ _ _ _) as [c|] eqn:Ec; [|discriminate]. cbn [bind]. intros E. injection E as <-.
  intros [H|[H|[H|[]]]]; try discriminate. injection H as <- <-. split; [auto|]. eapply columns_mean; eauto.
Qed.
Lemma mean_file_ext kT mesh es nT (I I' : nat -> nat -> nat -> F) cols : (forall i t k, (i < length es)%nat -> (t < nT)%nat -> (k < length mesh)%nat -> I i t k = I' i t k) ->
  mean_file fexp kT mesh es nT I cols -> mean_file fexp kT mesh es nT I' cols.
Proof.
  intros HI (total & parts & E & L & Lt & Hp & Ht). exists total, parts. split; [auto|]. split; [auto|]. split; [auto|]. split; [|auto].
  intros t H. destruct (Hp t H) as [A B]. split; [auto|]. intros k Hk. rewrite B by auto. unfold boltzmann_mean. f_equal. apply map_ext_in. intros i Hi. apply in_seq in Hi. rewrite HI; auto; lia.
Qed.
End Columns.

(* ---- the files of simulate_spectra ---- *)
Section Files.
Context {F : ofield}.
Add Field Ff8 : (f_field F).
Local Open Scope of_scope.
Lemma In_stage (outs : list (res (list (output F)))) next o : In o (fst (stage outs next)) -> (exists os rest, outs = Ok os :: rest /\ In o os) \/ In o (fst next).
Proof.
  unfold stage. destruct (forallb is_ok outs); cbn [fst]; intros H.
  - apply in_app_or in H as [H|H]; [left|auto]. destruct outs as [|[os|] rest]; try destruct H; eauto.
  - left. destruct outs as [|[os|] rest]; try destruct H; eauto.
Qed.
Lemma In_last (outs : list (res (list (output F)))) o : In o (fst (last_stage outs)) -> exists os rest, outs = Ok os :: rest /\ In o os.
Proof. unfold last_stage. cbn [fst]. intros H. destruct outs as [|[os|] rest]; try destruct H; eauto. Qed.
Lemma with_ops_head {A B} R (ops : res A) (f : A -> list (res B)) b rest : with_ops R ops f = Ok b :: rest -> exists o, ops = Ok o /\ f o = Ok b :: rest.
Proof. destruct ops as [o|e]; cbn [with_ops]; intros H; [eauto|]. destruct R; discriminate. Qed.

Variables fsqrt fexp arccos fsin f32 : F -> F.
Hypothesis HS : sqrt_laws fsqrt.
Hypothesis HE : exp_laws fexp.
Variables k_B pi : F.
Variable gaunt : Z -> Z -> Z -> Z -> Z -> Z -> F.
Variable spherical_jn : Z -> F -> F.
Variable sph_harm : Z -> Z -> F -> F -> cx F.
Variable bicgstab : list (vec F) -> vec F -> vec F.
Variable fuel : nat.
Variable ord : nat -> nat -> nat -> nat -> set_order.
Variable R : nat.
Hypothesis HR : (1 <= R)%nat.
Hypothesis Hord : forall c t i q l, Permutation (ord c t i q l) l.
Variables (nBaths : zdict) (rs : restrictions_t) (hOp : op_t F).
Variables (es : list F) (psis : list (psi_t F)) (T delta deltaNIXS deltaRIXS : F) (ms : @meshes F).
Variables (li lj : Z) (radial : list (F * (cx F * cx F))).
Hypothesis Hsh : wf_shells nBaths.
Let nb := nbaths_of nBaths.
Let n := n_orb nb.
Hypothesis Hrs : wf_restr (Some rs).
Hypothesis Hw : wf_op n hOp.
Hypothesis HH : assert_hermitian hOp = Ok tt.
Hypothesis Hpsis : Forall (valid_psi n) psis.
Hypothesis Hf : (2 ^ n < fuel)%nat.
Hypothesis HkT : k_B * T <> 0.
Hypothesis Hd : delta <> 0.
Hypothesis HdN : deltaNIXS <> 0.
Notation call c tOps w d := (getSpectra_call fsqrt fuel ord R nBaths rs hOp es psis c tOps w d).
Notation table h w d := (green_table n hOp (Some rs) h w d krylovSize slaterWeightMin).

(* the values on rank 0 *)
Lemma call_table c tOps w d g rest : d <> 0 -> Forall (wf_op n) tOps -> call c tOps w d = Ok g :: rest ->
  (forall i t, length (g i t) = length w) /\ forall h, restricted_op n hOp (Some rs) h -> table h w d tOps psis es g.
Proof.
  intros H0 Ht E. split.
  - unfold getSpectra_call in E. eapply hb_shape; [exact H0|]. rewrite E. left. reflexivity.
  - intros h Hh i t e tOp Ee Et.
    assert (E2 : exists gs, call c tOps w d = map Ok (g :: gs)).
    { unfold getSpectra_call, getSpectra in E |- *. destruct (hb_run _ _ _ _ _ _ _ _ _ _ _ _ _ _) as [st|l]; [|destruct l; discriminate].
      destruct (hb_gs st) as [|g' gs]; [discriminate|]. cbn [map] in E. injection E as -> _. exists gs. reflexivity. }
    destruct E2 as [gs E2]. unfold getSpectra_call in E2. rewrite (n_eq nBaths Hsh) in E2.
    destruct (hb_lanczos fsqrt HS n hOp (Some rs) Hw Hrs HH h Hh fuel Hf w d H0 krylovSize slaterWeightMin tOps Ht psis Hpsis es (ord c) (Hord c) R i t e tOp g gs HR E2 Ee Et)
      as (psi & cache & psiR & Ep & Hc & Ea & Hg & _).
    rewrite Forall_forall in Ht, Hpsis.
    destruct (apply_cut n tOp psi slaterWeightMin (Some rs) cache psiR Hrs (Ht tOp (nth_error_In _ _ Et)) (Hpsis psi (nth_error_In _ _ Ep)) Hc Ea) as [Hv Hi].
    exists psi, psiR. auto.
Qed.
Notation file := (mean_file fexp (k_B * T)).
Lemma PS_text os rest f cols : part_PS fsqrt fexp k_B fuel ord R nBaths rs hOp es psis T delta ms = Ok os :: rest -> In (Text f cols) os ->
  f = "PS.dat"%string /\ exists ips ps gI gP, getInversePhotoEmissionOperators nb 2 = Ok ips /\ getPhotoEmissionOperators nb 2 = Ok ps /\
    (forall h, restricted_op n hOp (Some rs) h -> table h (m_w ms) delta ips psis es gI /\ table h (map fopp (m_w ms)) (- delta) ps psis es gP) /\
    file (m_w ms) es (length ps) (fun i t k => im (nth k (gP i t) c0) - im (nth k (gI i t) c0)) cols.
Proof.
  intros E Hin. unfold part_PS in E. apply with_ops_head in E as ((ips, ps) & E1 & E2). fold nb in E1.
  destruct (getInversePhotoEmissionOperators nb 2) as [ips'|] eqn:Ei; [|discriminate]. cbn [bind] in E1. destruct (getPhotoEmissionOperators nb 2) as [ps'|] eqn:Ep; [|discriminate]. cbn [bind] in E1.
  injection E1 as -> ->. cbn [fst snd] in E2.
  destruct (call 0 ips (m_w ms) delta) as [|x1 r1] eqn:C1; [discriminate|]. destruct (call 1 ps (map fopp (m_w ms)) (- delta)) as [|x2 r2] eqn:C2; [discriminate|].
  cbn [combine map fst snd] in E2. injection E2 as E2 _. destruct x1 as [gI|]; [|discriminate]. destruct x2 as [gP|]; [|discriminate]. cbn [bind] in E2.
  apply call_table in C1 as [L1 G1]; auto; [|eapply (pes_wf nb (Hnb nBaths Hsh)); [|exact Ei]; auto].
  apply call_table in C2 as [L2 G2]; auto; [|apply fopp_neq; auto|eapply (pes_wf nb (Hnb nBaths Hsh)); [|exact Ep]; auto]. rewrite map_length in L2.
  eapply (report_text fexp HE) in E2 as [Ef Hm]; [|auto| |exact Hin].
  2:{ intros i t. unfold gplus, gneg. rewrite map_length, combine_length, map_length, L1, L2. lia. }
  split; [auto|]. exists ips, ps, gI, gP. split; [auto|]. split; [auto|]. split; [auto|].
  eapply mean_file_ext; [|exact Hm]. intros i t k _ _ Hk. cbv beta. unfold gplus, gneg.
  rewrite (nth_indep _ c0 ((fun p : cx F * cx F => cadd (fst p) (snd p)) (copp c0, c0))) by (rewrite map_length, combine_length, map_length, L1, L2; lia).
  rewrite (map_nth (fun p : cx F * cx F => cadd (fst p) (snd p))), combine_nth by (rewrite map_length, L1, L2; auto). rewrite (map_nth copp). cbn [fst snd]. simpl. ring.
Qed.
Lemma XPS_text os rest f cols : part_XPS fsqrt fexp k_B fuel ord R nBaths rs hOp es psis T delta ms = Ok os :: rest -> In (Text f cols) os ->
  f = "XPS.dat"%string /\ exists ps g, getPhotoEmissionOperators nb 1 = Ok ps /\
    (forall h, restricted_op n hOp (Some rs) h -> table h (map fopp (m_w ms)) (- delta) ps psis es g) /\
    file (m_w ms) es (length ps) (fun i t k => im (nth k (g i t) c0)) cols.
Proof.
  intros E Hin. unfold part_XPS in E. apply with_ops_head in E as (ps & Ep & E2). fold nb in Ep.
  destruct (call 2 ps (map fopp (m_w ms)) (- delta)) as [|x2 r2] eqn:C2; [discriminate|].
  cbn [map] in E2. injection E2 as E2 _. destruct x2 as [gP|]; [|discriminate]. cbn [bind] in E2.
  apply call_table in C2 as [L2 G2]; auto; [|apply fopp_neq; auto|eapply (pes_wf nb (Hnb nBaths Hsh)); [|exact Ep]; auto]. rewrite map_length in L2.
  eapply (report_text fexp HE) in E2 as [Ef Hm]; [|auto| |exact Hin]; [|intros; unfold gneg; now rewrite map_length].
  split; [auto|]. exists ps, gP. split; [auto|]. split; [auto|].
  eapply mean_file_ext; [|exact Hm]. intros i t k _ _ Hk. cbv beta. unfold gneg.
  rewrite (nth_indep _ c0 (copp c0)) by (rewrite map_length, L2; auto). rewrite (map_nth copp). simpl. ring.
Qed.
Lemma NIXS_text os rest f cols : part_NIXS fsqrt fexp arccos fsin k_B pi gaunt spherical_jn sph_harm fuel ord R nBaths rs hOp es psis T deltaNIXS ms li lj radial = Ok os :: rest -> In (Text f cols) os ->
  f = "NIXS.dat"%string /\ exists ops g, getNIXSOperators fsqrt arccos fsin pi gaunt spherical_jn sph_harm nb (m_qsNIXS ms) li lj radial = Ok ops /\
    (forall h, restricted_op n hOp (Some rs) h -> table h (m_wLoss ms) deltaNIXS ops psis es g) /\
    file (m_wLoss ms) es (length ops) (fun i t k => - im (nth k (g i t) c0)) cols.
Proof.
  intros E Hin. unfold part_NIXS in E. apply with_ops_head in E as (ps & Ep & E2). fold nb in Ep.
  destruct (call 3 ps (m_wLoss ms) deltaNIXS) as [|x2 r2] eqn:C2; [discriminate|].
  cbn [map] in E2. injection E2 as E2 _. destruct x2 as [gP|]; [|discriminate]. cbn [bind] in E2.
  apply call_table in C2 as [L2 G2]; auto; [|eapply (nixs_wf nb (Hnb nBaths Hsh)); exact Ep].
  eapply (report_text fexp HE) in E2 as [Ef Hm]; [|auto| |exact Hin]; [|auto].
  split; [auto|]. exists ps, gP. auto.
Qed.
Lemma XAS_text os rest f cols : part_XAS fsqrt fexp k_B pi gaunt fuel ord R nBaths rs hOp es psis T delta ms = Ok os :: rest -> In (Text f cols) os ->
  f = "XAS.dat"%string /\ exists ops g, getDipoleOperators fsqrt pi gaunt nb (m_epsilons ms) = Ok ops /\
    (forall h, restricted_op n hOp (Some rs) h -> table h (m_w ms) delta ops psis es g) /\
    file (m_w ms) es (length ops) (fun i t k => - im (nth k (g i t) c0)) cols.
Proof.
  intros E Hin. unfold part_XAS in E. apply with_ops_head in E as (ps & Ep & E2). fold nb in Ep.
  destruct (call 4 ps (m_w ms) delta) as [|x2 r2] eqn:C2; [discriminate|].
  cbn [map] in E2. injection E2 as E2 _. destruct x2 as [gP|]; [|discriminate]. cbn [bind] in E2.
  apply call_table in C2 as [L2 G2]; auto; [|eapply (dips_wf nb (Hnb nBaths Hsh)); exact Ep].
  eapply (report_text fexp HE) in E2 as [Ef Hm]; [|auto| |exact Hin]; [|auto].
  split; [auto|]. exists ps, gP. auto.
Qed.
Lemma RIXS_no_text os rest f cols : part_RIXS fsqrt fexp f32 k_B pi gaunt bicgstab fuel ord R nBaths rs hOp es psis T delta deltaRIXS ms = Ok os :: rest -> ~ In (Text f cols) os.
Proof.
  intros E Hin. unfold part_RIXS in E. apply with_ops_head in E as (ps & Ep & E2). match type of E2 with map _ ?l = _ => destruct l as [|x l'] end; [discriminate|].
  cbn [map] in E2. injection E2 as E2 _. destruct x as [g|]; [|discriminate]. cbn [bind] in E2. unfold report_RIXS in E2. cbv zeta in E2.
  destruct (thermal_average _ _ _ _ _) as [a|]; [|discriminate]. cbn [bind] in E2. destruct (write_rixs _ _ _ _) as [d|]; [|discriminate]. cbn [bind] in E2. injection E2 as <-.
  destruct Hin as [H|[H|[H|[]]]]; discriminate.
Qed.
End Files.
