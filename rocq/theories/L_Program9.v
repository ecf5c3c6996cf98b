(* RIXS.bin: Boltzmann means of the rows of the map *)
From Coq Require Import Lia List Bool Permutation Field Ring String.
From Verif Require Import M_Prelude M_Scalar M_PSR M_Ladder M_State M_Mpi M_Hamiltonian M_Lanczos M_Basis M_Average M_Expect M_Operators M_Spectra M_Simulate M_RIXS M_Main M_Program
  S_Fock S_Basis S_Ham S_Ops S_Expect S_Green S_Moments S_Spectra S_RIXS S_Thermal S_Main S_Program S_Spectrum S_RIXS2 S_Spectrum2 S_Spectrum3
  L_PSR L_Ladder L_Scalar L_Dict L_Sum L_Fock L_State L_ApplyOp L_Ops L_FockP L_Ham L_Index L_Basis2 L_Basis4 L_Average L_Spectra L_Spectra2 L_Spectra3 L_Spectra6 L_RIXS L_RIXS2 L_RIXS3 L_RIXS4 L_RIXS5 L_RIXS6 L_RIXS7 L_Main L_Main2 L_Main3 L_Length L_Moments L_Moments2 L_Program L_Program2 L_Program3 L_Program4 L_Program5 L_Program6 L_Program7 L_Program8.
Import ListNotations.

Section Map.
Context {F : ofield}.
Add Field Ff9 : (f_field F).
Variable fexp f32 : F -> F.
Hypothesis HE : exp_laws fexp.
Variable k_B : F.
Local Open Scope of_scope.
Lemma ftotal_app (l l' : list F) : ftotal (l ++ l') = ftotal l + ftotal l'.
Proof. induction l as [|x l IH]; simpl; [ring|]. rewrite IH. ring. Qed.
Lemma ftotal_grid nI nO (f : nat -> F) : ftotal (map f (seq 0 (nI * nO))) = ftotal (map (fun a => ftotal (map (fun b => f (a * nO + b)%nat) (seq 0 nO))) (seq 0 nI)).
Proof.
  induction nI as [|nI IH]; [reflexivity|]. rewrite seq_S, map_app, ftotal_app. cbn [map ftotal Nat.add]. rewrite <- IH.
  replace (S nI * nO)%nat with (nI * nO + nO)%nat by lia. rewrite seq_app, map_app, ftotal_app. f_equal. cbn [Nat.add].
  match goal with |- _ = ?y + 0 => replace (y + 0) with y by ring end. f_equal.
  generalize (nI * nO)%nat as m. clear. induction nO as [|k IH]; intros m; [reflexivity|]. rewrite !seq_S, !map_app, IH. reflexivity.
Qed.
Lemma neg4_nth nE nIn nOut nw m (gs : garr4 F) i ti to w j : (forall a b c d, (c < nOut)%nat -> length (gs a b c d) = m) ->
  (i < nE)%nat -> (ti < nIn)%nat -> (to < nOut)%nat -> (w < nw)%nat -> (j < m)%nat ->
  nth (((ti * nOut + to) * nw + w) * m + j) (nth i (neg_imag4 nE nIn nOut nw gs) []) c0 = creal (- im (nth j (gs i ti to w) c0)).
Proof.
  intros Hs Hi Hti Hto Hw Hj. unfold neg_imag4.
  set (f1 := fun i ti to w => map (fun x => creal (- im x)) (gs i ti to w)).
  set (f2 := fun i ti to => flat_map (f1 i ti to) (seq 0 nw)). set (f3 := fun i ti => flat_map (f2 i ti) (seq 0 nOut)). set (f4 := fun i => flat_map (f3 i) (seq 0 nIn)).
  assert (L1 : forall i ti to w, (to < nOut)%nat -> length (f1 i ti to w) = m) by (intros; unfold f1; rewrite map_length; auto).
  assert (L2 : forall i ti to, (to < nOut)%nat -> length (f2 i ti to) = (nw * m)%nat).
  { intros. unfold f2. rewrite (flat_len _ m); [now rewrite seq_length|]. intros; apply L1; auto. }
  assert (L3 : forall i ti, length (f3 i ti) = (nOut * (nw * m))%nat).
  { intros. unfold f3. rewrite (flat_len _ (nw * m)); [now rewrite seq_length|]. intros to' Ht. apply in_seq in Ht. apply L2. lia. }
  change (nth (((ti * nOut + to) * nw + w) * m + j) (nth i (map f4 (seq 0 nE)) []) c0 = creal (- im (nth j (gs i ti to w) c0))).
  rewrite (nth_indep (map f4 (seq 0 nE)) [] (f4 0%nat)) by (rewrite map_length, seq_length; auto). rewrite (map_nth f4), seq_nth by auto. cbn [Nat.add]. unfold f4.
  assert (B1 : (w * m + j < nw * m)%nat) by nia. assert (B2 : (to * (nw * m) + (w * m + j) < nOut * (nw * m))%nat) by nia.
  replace (((ti * nOut + to) * nw + w) * m + j)%nat with (ti * (nOut * (nw * m)) + (to * (nw * m) + (w * m + j)))%nat by ring.
  rewrite (flat_nth _ (nOut * (nw * m)) _ c0 0%nat) by (try rewrite seq_length; auto). rewrite seq_nth by auto. cbn [Nat.add]. unfold f3.
  rewrite (flat_nth _ (nw * m) _ c0 0%nat); [|intros b Hb; apply in_seq in Hb; apply L2; lia|rewrite seq_length; auto|auto]. rewrite seq_nth by auto. cbn [Nat.add]. unfold f2.
  rewrite (flat_nth _ m _ c0 0%nat); [|intros b _; apply L1; auto|rewrite seq_length; auto|auto]. rewrite seq_nth by auto. cbn [Nat.add]. unfold f1.
  rewrite (nth_indep _ c0 (creal (- im c0))) by (rewrite map_length, Hs; auto). apply (map_nth (fun x => creal (- im x))).
Qed.
Lemma report_bin es T ms nIn nOut (gs : garr4 F) outs f data : k_B * T <> 0 -> (forall a b c d, (c < nOut)%nat -> length (gs a b c d) = length (m_wLoss ms)) ->
  report_RIXS fexp f32 k_B es T ms nIn nOut gs = Ok outs -> In (Bin f data) outs ->
  f = "RIXS.bin"%string /\ mean_map fexp f32 (k_B * T) (m_wIn ms) (m_wLoss ms) es nIn nOut (fun i ti to w j => - im (nth j (gs i ti to w) c0)) data.
Proof.
  intros HkT Hl. unfold report_RIXS. cbv zeta. set (nw := length (m_wIn ms)). set (m := length (m_wLoss ms)) in *.
  destruct (thermal_average _ _ _ _ _) as [a|] eqn:Ea; [|discriminate]. cbn [bind].
  assert (La : length a = (nIn * nOut * nw * m)%nat) by (eapply avg_len; [|exact Ea]; apply neg4_len; auto).
  assert (Hne : es <> []). { intros ->. unfold thermal_average in Ea. simpl in Ea. discriminate. }
  assert (Lo : length es = length (neg_imag4 (length es) nIn nOut nw gs)) by (unfold neg_imag4; now rewrite map_length, seq_length).
  destruct (avg_ok fexp HE k_B T (k_B * T) eq_refl HkT es (neg_imag4 (length es) nIn nOut nw gs) (nIn * nOut * nw * m) Hne Lo (neg4_len _ _ _ _ _ gs Hl)) as (r & Er & _ & Hr).
  rewrite Er in Ea. injection Ea as ->.
  destruct (write_rixs _ _ _ _) as [d|] eqn:Ew; [|discriminate]. cbn [bind]. intros E. injection E as <-.
  intros [H|[H|[H|[]]]]; try discriminate. injection H as <- <-. split; [auto|].
  set (aSum := sum_axis01 (nIn * nOut) nw m a) in *.
  assert (Hrow : forall w, (w < nw)%nat -> let rows := map (fun k => arow m a (k * nw + w)) (seq 0 (nIn * nOut)) in
    nth w aSum [] = sum_axis0 m rows /\ length (sum_axis0 m rows) = m /\ forall j, nth j (sum_axis0 m rows) 0 = ftotal (map (fun c => nth j c 0) rows)).
  { intros w Hw rows. split.
    - unfold aSum, sum_axis01. rewrite (nth_indep _ [] ((fun iw => sum_axis0 m (map (fun k => arow m a (k * nw + iw)) (seq 0 (nIn * nOut)))) 0%nat)) by (rewrite map_length, seq_length; auto).
      rewrite (map_nth (fun iw => sum_axis0 m (map (fun k => arow m a (k * nw + iw)) (seq 0 (nIn * nOut))))), seq_nth by auto. reflexivity.
    - apply sum0_nth. apply Forall_forall. intros x Hx. apply in_map_iff in Hx as (k & <- & Hk). apply in_seq in Hk. apply (arow_len _ _ _ (nIn * nOut * nw)%nat); auto.
      assert (Hk2 : (k < nIn * nOut)%nat) by lia. revert Hk2. generalize (nIn * nOut)%nat. intros N Hk2. nia. }
  assert (LS : length aSum = nw) by (unfold aSum, sum_axis01; now rewrite map_length, seq_length).
  assert (FS : Forall (fun r => length r = m) aSum).
  { apply Forall_forall. intros x Hx. apply (In_nth _ _ []) in Hx as (w & Hw & <-). rewrite LS in Hw. destruct (Hrow w Hw) as (A & B & _). rewrite A. exact B. }
  rewrite (write_eq f32 (m_wIn ms) (m_wLoss ms) aSum LS FS) in Ew. injection Ew as <-.
  exists (map (fun j => map f32 (column aSum j)) (seq 0 m)). split; [now rewrite map_length, seq_length|]. split.
  - apply (f_equal (fun l => concat ((f32 (fofZ (Z.of_nat nw)) :: map f32 (m_wIn ms)) :: l))). unfold enumerate, m. generalize 0%nat as s. generalize (m_wLoss ms) as l. clear. induction l as [|x l IH]; intros s; simpl; auto. now rewrite IH.
  - fold m nw. intros j Hj.
    assert (Ej : nth j (map (fun j => map f32 (column aSum j)) (seq 0 m)) [] = map f32 (column aSum j)).
    { rewrite (nth_indep _ [] ((fun j => map f32 (column aSum j)) 0%nat)) by (rewrite map_length, seq_length; auto). rewrite (map_nth (fun j => map f32 (column aSum j))), seq_nth by auto. reflexivity. }
    rewrite Ej. unfold column. split; [now rewrite !map_length|]. intros w Hw.
    rewrite (nth_indep _ 0 (f32 (nth j [] 0))) by (rewrite !map_length, LS; auto). rewrite map_map. rewrite (map_nth (fun x => f32 (nth j x 0))). f_equal.
    destruct (Hrow w Hw) as (A & _ & C). rewrite A, C, map_map, ftotal_grid.
    f_equal. apply map_ext_in. intros ti Hti. apply in_seq in Hti. f_equal. apply map_ext_in. intros to Hto. apply in_seq in Hto.
    assert (Hk : (ti * nOut + to < nIn * nOut)%nat) by nia.
    assert (Hk3 : ((ti * nOut + to) * nw + w < nIn * nOut * nw)%nat) by (revert Hk; generalize (ti * nOut + to)%nat (nIn * nOut)%nat; intros; nia).
    rewrite (arow_nth _ _ _ _ (nIn * nOut * nw)%nat) by auto.
    rewrite Hr by (revert Hk3; generalize ((ti * nOut + to) * nw + w)%nat (nIn * nOut * nw)%nat; intros; nia).
    unfold average_at, boltzmann_mean. rewrite (combine_seq_map (fun e o => cmul (creal (probability fexp (k_B * T) es e)) (nth (((ti * nOut + to) * nw + w) * m + j) o c0)) es _ 0 []) by auto.
    rewrite re_ctotal, map_map. f_equal. apply map_ext_in. intros i Hi. apply in_seq in Hi. rewrite neg4_nth by (auto; lia). simpl. ring.
Qed.
End Map.

(* ---- the program ---- *)
Section Main.
Context {F : ofield}.
Local Open Scope of_scope.
Variables fsqrt fexp arccos fsin f32 : F -> F.
Variables k_B pi : F.
Variable gaunt : Z -> Z -> Z -> Z -> Z -> Z -> F.
Variable spherical_jn : Z -> F -> F.
Variable sph_harm : Z -> Z -> F -> F -> cx F.
Variable bicgstab : list (vec F) -> vec F -> vec F.
Variable eigh : nat -> M_Hamiltonian.mat F -> res (list F * list (list (cx F))).
Variable eigsh : nat -> M_Hamiltonian.mat F -> Z -> res (list F * list (list (cx F))).
Variable argsort : list F -> list nat.
Variable fuel : nat.
Variable ord : nat -> nat -> nat -> nat -> set_order.
Variable R : nat.

Lemma prints_no_bin a ms radial nb es psis f data : ~ In (Bin f data) (fst (rank0_prints fsqrt fexp k_B argsort a ms radial nb es psis)).
Proof.
  intros H. unfold rank0_prints in H. apply outputs_In in H.
  repeat (destruct H as [H|H]; [match type of H with rmap _ ?X = _ => destruct X; discriminate | _ => discriminate end|]). destruct H.
Qed.
Lemma report_no_bin es T name mesh nT (gs : garr F) outs f data : report fexp k_B es T name mesh nT gs = Ok outs -> ~ In (Bin f data) outs.
Proof.
  unfold report. cbv zeta. destruct (thermal_average _ _ _ _ _) as [a|]; [|discriminate]. cbn [bind].
  destruct (columns _ _ _ _ _ _ _) as [c|]; [|discriminate]. cbn [bind]. intros E. injection E as <-. intros [H|[H|[H|[]]]]; discriminate.
Qed.
Lemma low_len (es : list F) psis cut es' psis' : low_energy es psis cut = Ok (es', psis') -> length psis' = length es'.
Proof.
  unfold low_energy. match goal with |- context [bind ?X _] => destruct X as [e2|] end; [|discriminate]. cbn [bind].
  destruct (map_res _ _) as [ps|] eqn:Em; [|discriminate]. cbn [bind]. intros E. injection E as -> ->. apply map_res_len in Em. now rewrite seq_length in Em.
Qed.
Lemma main_bin hamiltonian ms (a : @args F) radial : run_input fsqrt fexp k_B fuel ord R a -> exact_solver bicgstab -> a_deltaRIXS a <> 0 ->
  (forall nv hp h, let nb := nbaths_of (ordered (a_ls a) (a_nBaths a)) in hamiltonian nb nv hp = Ok h -> wf_op (n_orb nb) h /\ assert_hermitian h = Ok tt) ->
  forall f data, In (Bin f data) (fst (main fsqrt fexp arccos fsin f32 k_B pi gaunt spherical_jn sph_harm bicgstab eigh eigsh argsort fuel ord R hamiltonian ms a radial)) ->
  exists su es psis, main_setup hamiltonian a = Ok su /\ run_states k_B eigh eigsh argsort R a su es psis /\
    bin_spec fsqrt fexp f32 k_B pi gaunt a ms su es psis f data.
Proof.
  intros (HS & HE & HR & Ho & HA & HkT & Hd & HdN & Hf) HB HdR Hh f data Hin. unfold main in Hin. destruct (main_setup hamiltonian a) as [su|] eqn:Es; [|destruct Hin].
  destruct (setup_nBaths _ _ _ Es) as [E1 (nv & hp & E2)]. destruct (setup_facts _ _ _ HA Es) as (Hsh & Hrs & Hv). cbv zeta in Hin, Hh.
  destruct (Hh _ _ _ E2) as [Hw HH]. rewrite <- E1 in Hw, Hf.
  exists su.
  destruct (eigensystem eigh eigsh argsort R (n_spin_orbitals (su_nBaths su)) (su_hOp su) (su_basis su) (a_nPsiMax a) LanczosDiag slaterWeightMin) as [|[[es0 psis0]|e0] others] eqn:Ee; try (now destruct Hin).
  destruct (forallb is_ok others); [|now destruct Hin].
  pose proof (prints_no_bin a ms radial (nbaths_of (su_nBaths su)) es0 psis0 f data) as Hnt. destruct (rank0_prints _ _ _ _ _ _ _ _ _ _) as [printed r0]. cbn [fst] in Hnt.
  destruct (forallb is_ok (_ :: _)); [|contradiction]. destruct (low_energy es0 psis0 _) as [[es psis]|] eqn:El; [|contradiction].
  assert (Hp0 : Forall (valid_psi (n_orb (nbaths_of (su_nBaths su)))) psis0).
  { apply (eigen_valid eigh eigsh argsort _ (su_hOp su) (su_basis su) (a_nPsiMax a) LanczosDiag slaterWeightMin R es0 psis0 Hv). rewrite <- (n_eq (su_nBaths su) Hsh). rewrite Ee. left. reflexivity. }
  pose proof (low_valid _ _ _ _ _ _ Hp0 El) as Hp. pose proof (low_len _ _ _ _ _ El) as HL.
  exists es, psis. split; [auto|]. split; [exists es0, psis0, others; auto|].
  destruct (simulate_spectra _ _ _ _ _ _ _ _ _ _ _ _ _ _ _ _ _ _ _ _ _ _ _ _ _ _ _) as [files ends] eqn:Esim. cbn [fst] in Hin. apply in_app_or in Hin as [Hin|Hin]; [contradiction|].
  apply (f_equal fst) in Esim. cbn [fst] in Esim. rewrite <- Esim in Hin. clear Esim. unfold simulate_spectra in Hin. unfold bin_spec. cbv zeta.
  apply In_stage in Hin as [(os & rest & Ep & Hi)|Hin].
  { exfalso. unfold part_PS in Ep. apply with_ops_head in Ep as ((ips, ps) & _ & Ep). match type of Ep with map _ ?l = _ => destruct l as [|[x1 x2] l'] end; [discriminate|].
    cbn [map fst snd] in Ep. injection Ep as Ep _. destruct x1; [|discriminate]. destruct x2; [|discriminate]. cbn [bind] in Ep. eapply report_no_bin; eauto. }
  apply In_stage in Hin as [(os & rest & Ep & Hi)|Hin].
  { exfalso. unfold part_XPS in Ep. apply with_ops_head in Ep as (ps & _ & Ep). match type of Ep with map _ ?l = _ => destruct l as [|x1 l'] end; [discriminate|].
    cbn [map fst snd] in Ep. injection Ep as Ep _. destruct x1; [|discriminate]. cbn [bind] in Ep. eapply report_no_bin; eauto. }
  apply In_stage in Hin as [(os & rest & Ep & Hi)|Hin].
  { exfalso. unfold part_NIXS in Ep. apply with_ops_head in Ep as (ps & _ & Ep). match type of Ep with map _ ?l = _ => destruct l as [|x1 l'] end; [discriminate|].
    cbn [map fst snd] in Ep. injection Ep as Ep _. destruct x1; [|discriminate]. cbn [bind] in Ep. eapply report_no_bin; eauto. }
  apply In_stage in Hin as [(os & rest & Ep & Hi)|Hin].
  { exfalso. unfold part_XAS in Ep. apply with_ops_head in Ep as (ps & _ & Ep). match type of Ep with map _ ?l = _ => destruct l as [|x1 l'] end; [discriminate|].
    cbn [map fst snd] in Ep. injection Ep as Ep _. destruct x1; [|discriminate]. cbn [bind] in Ep. eapply report_no_bin; eauto. }
  apply In_last in Hin as (os & rest & Ep & Hi). unfold part_RIXS in Ep. apply with_ops_head in Ep as ((tIn, tOut) & Eo & Ep). cbn [fst snd] in Ep.
  destruct (getDipoleOperators _ _ _ _ _) as [i0|] eqn:Ei; [|discriminate]. cbn [bind] in Eo. destruct (getDaggeredDipoleOperators _ _ _ _ _) as [p0|] eqn:Ed; [|discriminate]. cbn [bind] in Eo. injection Eo as -> ->.
  assert (Hnb := L_Basis2.wf_nb _ Hsh).
  pose proof (dips_wf _ Hnb fsqrt pi gaunt _ _ Ei) as Wi. pose proof (ddips_wf _ Hnb fsqrt pi gaunt _ _ Ed) as Wo.
  match type of Ep with map _ ?l = _ => destruct l as [|[gs|] l'] eqn:Em end; [discriminate| |discriminate].
  cbn [map bind] in Ep. injection Ep as Ep _.
  assert (Hsz : forall a0 b c d, (c < length tOut)%nat -> length (gs a0 b c d) = length (m_wLoss ms)).
  { eapply win_shape; [exact HdR|right; reflexivity|]. rewrite Em. left. reflexivity. }
  apply (report_bin fexp f32 HE k_B) with (f := f) (data := data) in Ep as [-> Hm]; auto. split; [reflexivity|].
  exists tIn, tOut, gs. split; [auto|]. split; [auto|]. split; [|exact Hm].
  intros h Hop i ti to w e tI tO wi He Hti HtO Hto Hwi.
  assert (Hi' : (i < length psis)%nat) by (rewrite HL; apply nth_error_Some; congruence).
  destruct (nth_error psis i) as [psi|] eqn:Epsi; [|apply nth_error_None in Epsi; lia]. exists psi. split; [auto|].
  destruct tOut as [|tO' ops]; [discriminate|]. injection HtO as ->. rewrite (n_eq (su_nBaths su) Hsh) in Em.
  assert (HI : spectra_input (n_orb (nbaths_of (su_nBaths su))) (su_hOp su) (Some (su_rs su)) (tO :: tIn) psis).
  { split; [exact Hw|]. split; [exact Hrs|]. split; [constructor; [inversion Wo; auto|auto]|exact Hp]. }
  eapply (rixs_cut fsqrt bicgstab (n_orb (nbaths_of (su_nBaths su))) (su_hOp su) (Some (su_rs su)) h fuel (m_wIn ms) (m_wLoss ms) (a_delta a) (a_deltaRIXS a) 150 slaterWeightMin
    tIn psis es tO HS HB HI HH Hop Hf Hd HdR ops (ord 5%nat) (repeat [] R) RHBuildwIn 0 gs); eauto.
  - apply Forall_forall. intros x Hx. apply repeat_spec in Hx. subst x. apply exact_nil.
  - destruct R; [lia|discriminate].
  - discriminate.
  - discriminate.
  - exact (f_equal (fun l => nth_error l 0) Em).
Qed.
Lemma main_pickle_bin fint h0 (a : @args F) radial : run_input fsqrt fexp k_B fuel ord R a -> exact_solver bicgstab -> a_deltaRIXS a <> 0 ->
  forall f data, In (Bin f data) (fst (main_pickle fsqrt fexp arccos fsin f32 k_B pi fint gaunt spherical_jn sph_harm bicgstab eigh eigsh argsort fuel ord R h0 a radial)) ->
  exists su es psis, main_setup (fun nb _ hp => get_hamiltonian_operator fsqrt pi gaunt fint nb hp h0) a = Ok su /\ run_states k_B eigh eigsh argsort R a su es psis /\
    bin_spec fsqrt fexp f32 k_B pi gaunt a (main_meshes fsqrt) su es psis f data.
Proof.
  intros HI HB HdR. apply main_bin; auto. intros nv hp h. cbv zeta. intros E. destruct HI as (_ & _ & _ & _ & HA & _). split; [|eapply total_herm; exact E].
  eapply total_wf; [|exact E]. apply L_Basis2.wf_nb. apply d_shells. exact HA.
Qed.
Lemma main_CF_bin fint parameters (a : @args F) radial : run_input fsqrt fexp k_B fuel ord R a -> exact_solver bicgstab -> a_deltaRIXS a <> 0 ->
  forall f data, In (Bin f data) (fst (main_CF fsqrt fexp arccos fsin f32 k_B pi fint gaunt spherical_jn sph_harm bicgstab eigh eigsh argsort fuel ord R parameters a radial)) ->
  exists su es psis, main_setup (fun nb nv hp => get_hamiltonian_operator_using_CF fsqrt pi gaunt fint nb nv hp parameters Spherical) a = Ok su /\ run_states k_B eigh eigsh argsort R a su es psis /\
    bin_spec fsqrt fexp f32 k_B pi gaunt a (main_meshes fsqrt) su es psis f data.
Proof.
  intros HI HB HdR. apply main_bin; auto. intros nv hp h. cbv zeta. intros E. destruct HI as (_ & _ & _ & _ & HA & _). split; [|eapply total_herm; exact E].
  eapply total_wf; [|exact E]. apply L_Basis2.wf_nb. apply d_shells. exact HA.
Qed.
End Main.
