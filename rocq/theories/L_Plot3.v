(* plotSpectra.py and plotRIXS.py after a run *)
From Coq Require Import Lia List Bool Permutation Field Ring String.
From Verif Require Import M_Prelude M_Scalar M_PSR M_Ladder M_State M_Mpi M_Hamiltonian M_Lanczos M_Basis M_Average M_Expect M_Operators M_Spectra M_Simulate M_RIXS M_Main M_Program M_Plot
  S_Fock S_Ham S_Ops S_Thermal S_Main S_Program S_Output S_Plot L_Scalar L_Ham L_Main2 L_Program L_Program2 L_Print L_Plot L_Plot2.
Import ListNotations.
Local Open Scope string_scope.

Section Bin.
Context {F : ofield}.
Add Field Ffs : (f_field F).
Local Open Scope of_scope.
Lemma table_list (l : list (list F)) n m (g : nat -> nat -> F) : length l = n -> Forall (fun r => length r = m) l ->
  (forall i j, (i < n)%nat -> (j < m)%nat -> nth j (nth i l []) 0 = g i j) -> l = map (fun i => map (g i) (seq 0 m)) (seq 0 n).
Proof.
  intros Hl Hr H. apply (nth_ext _ _ [] (map (g 0%nat) (seq 0 m))); [now rewrite map_length, seq_length|]. rewrite Hl. intros i Hi.
  rewrite (map_nth (fun i => map (g i) (seq 0 m))), seq_nth by auto. cbn [Nat.add]. apply list_eq_nth; [|intros k Hk; apply H; auto].
  rewrite Forall_forall in Hr. apply Hr. apply nth_In. lia.
Qed.
Lemma table_read (f32 : F -> F) (fint : F -> Z) wIn wLoss I : fint (f32 (fofZ (Z.of_nat (length wIn)))) = Z.of_nat (length wIn) ->
  read_rixs fint (rixs_table f32 wIn wLoss I) = Ok (map f32 wLoss, map f32 wIn, map (fun l => map (fun k => f32 (I l k)) (seq 0 (length wIn))) (seq 0 (length wLoss))).
Proof.
  intros Hf. set (aSum := map (fun k => map (fun l => I l k) (seq 0 (length wLoss))) (seq 0 (length wIn))).
  assert (La : length aSum = length wIn) by (unfold aSum; now rewrite map_length, seq_length).
  assert (Fa : Forall (fun a => length a = length wLoss) aSum) by (apply Forall_forall; intros r Hr; apply in_map_iff in Hr as (k & <- & _); now rewrite map_length, seq_length).
  assert (Hn : forall l k, (l < length wLoss)%nat -> (k < length wIn)%nat -> nth l (nth k aSum []) 0 = I l k).
  { intros l k Hl Hk. unfold aSum. rewrite (nth_indep _ [] (map (fun l => I l 0%nat) (seq 0 (length wLoss)))) by (rewrite map_length, seq_length; auto).
    rewrite (map_nth (fun k => map (fun l => I l k) (seq 0 (length wLoss)))), seq_nth by auto. cbn [Nat.add].
    rewrite (nth_indep _ 0 (I 0%nat k)) by (rewrite map_length, seq_length; auto). rewrite (map_nth (fun l => I l k)), seq_nth by auto. reflexivity. }
  destruct (rixs_round_trip f32 fint wIn wLoss aSum La Fa Hf) as (x & rixs & Ew & Er & L1 & L2 & Hx).
  assert (Ex : x = rixs_table f32 wIn wLoss I).
  { rewrite write_eq in Ew by auto. injection Ew as <-. unfold rixs_table. rewrite (enum_table f32 (fun j => map f32 (column aSum j))). cbn [concat app]. f_equal. f_equal. f_equal.
    apply map_ext_in. intros l Hl. apply in_seq in Hl. f_equal. unfold column. unfold aSum. rewrite !map_map. apply map_ext. intros k. f_equal.
    rewrite (nth_indep _ 0 (I 0%nat k)) by (rewrite map_length, seq_length; lia). rewrite (map_nth (fun l => I l k)), seq_nth by lia. reflexivity. }
  rewrite <- Ex, Er. do 2 f_equal. apply (table_list _ _ _ (fun l k => f32 (I l k))); auto. intros i j Hi Hj. rewrite Hx, Hn by auto. reflexivity.
Qed.
Lemma plotRIXS_ok (f32 : F -> F) (fint : F -> Z) wIn wLoss I : (2 <= length wIn)%nat -> (2 <= length wLoss)%nat -> fint (f32 (fofZ (Z.of_nat (length wIn)))) = Z.of_nat (length wIn) ->
  exists fig, plotRIXS fint (rixs_table f32 wIn wLoss I) = Ok fig /\ plotted_bin f32 wIn wLoss I fig.
Proof.
  intros H1 H2 Hf. unfold plotRIXS. rewrite table_read by auto. cbn [bind].
  destruct (extent_works (map f32 wIn) (map f32 wLoss)) as (ext & E & H); [now rewrite map_length|now rewrite map_length|]. rewrite E. cbn [bind].
  eexists. split; [reflexivity|]. exists ext. split; [exact H|]. f_equal. rewrite map_map. apply map_ext. intros l. rewrite map_map. reflexivity.
Qed.
End Bin.

Section Run.
Context {F : ofield}.
Add Field Fft : (f_field F).
Local Open Scope of_scope.
Variables fsqrt fexp arccos fsin f32 : F -> F.
Variables k_B pi : F.
Variable gaunt : Z -> Z -> Z -> Z -> Z -> Z -> F.
Variable spherical_jn : Z -> F -> F.
Variable sph_harm : Z -> Z -> F -> F -> cx F.
Variable bicgstab : list (vec F) -> vec F -> vec F.
Variable eigh : nat -> M_Hamiltonian.mat F -> res (list F * list (list (cx F))).
Variable eigsh : nat -> M_Hamiltonian.mat F -> Z -> res (list F * list (list (cx F))).
Variable argsort : list F -> list nat.
Variable fuel : nat.
Variable ord : nat -> nat -> nat -> nat -> set_order.
Variable ranks : nat.
Hypothesis Hranks : (1 <= ranks)%nat.
Variable ms : @meshes F.
Variable hamiltonian : nbaths_t -> nbaths_t -> @ham_params F -> res (op_t F).
Variable a : @args F.
Variable radial : list (F * F).
Variable psqrt : F -> F.     (* np.linalg.norm of the plot script *)
Variable ppi : F.            (* np.pi of the plot script *)
Let c := length (m_wIn ms).
Let n := length (m_wLoss ms).
Let nIn := length (m_epsilonsRIXSin ms).
Let nOut := length (m_epsilonsRIXSout ms).
Hypothesis Hd : 0 < a_delta a.
Hypothesis HdN : 0 < a_deltaNIXS a.
Hypothesis HdR : 0 < a_deltaRIXS a.
Hypothesis HIn : (2 <= length (m_wIn ms))%nat.
Hypothesis HL : (2 <= length (m_wLoss ms))%nat.
Notation run := (main fsqrt fexp arccos fsin f32 k_B pi gaunt spherical_jn sph_harm bicgstab eigh eigsh argsort fuel ord ranks hamiltonian ms a radial).

Lemma shown_ok (fs : list (figure F)) l : shown (Ok fs :: l) = ((fs ++ fst (shown l))%list, snd (shown l)).
Proof. cbn [shown]. destruct (shown l). reflexivity. Qed.
(* the first five figures and the map *)
Lemma plots_split : nth_error (snd run) 0 = Some (Ok tt) -> (1 <= nIn)%nat ->
  exists tPS pPS tXPS pXPS tXAS pXAS tN pN (I : nat -> nat -> F) data fy qe p3 p2 ext,
    let os := fst run in let w := m_w ms in let wIn := m_wIn ms in let wLoss := m_wLoss ms in
    let kk := seq 0 c in let ll := seq 0 n in
    let P i j k l := el4 nOut c n data i j k l in
    In (Text "PS.dat" (w :: tPS :: pPS)) os /\ In (Text "XPS.dat" (w :: tXPS :: pXPS)) os /\ In (Text "XAS.dat" (w :: tXAS :: pXAS)) os /\
    In (Text "NIXS.dat" (wLoss :: tN :: pN)) os /\ length pN = length (m_qsNIXS ms) /\
    In (Bin "RIXS.bin" (rixs_table f32 wIn wLoss I)) os /\ In (H5 "RIXSthermal" [nIn; nOut; c; n] data) os /\
    (forall l k, (l < n)%nat -> (k < c)%nat -> I l k = ftotal (map (fun i => ftotal (map (fun j => P i j k l) (seq 0 nOut))) (seq 0 nIn))) /\
    yield ppi wIn wLoss nIn I ll fy /\ yield ppi wIn wLoss nIn I (filter (fun l => nth l wLoss 0 <? 1 / fofZ 5) ll) qe /\
    loss_panel wIn wLoss I (-7) (fofZ 3 / fofZ 2) [1; 0; -1; -2; -3; -4; -5; -6; -7]%Z p3 /\ loss_panel wIn wLoss I 11 1 [15; 14; 13; 12; 11]%Z p2 /\
    extent_ok wIn wLoss ext /\
    plot_spectra psqrt ppi (h5_file os) = shown [Ok [Lines [[mkCurve (Name "photo-emission") w tPS]]]; Ok [Lines [[mkCurve (Name "XPS") w tXPS]]];
             Ok [Lines [[mkCurve (Name "XAS") w tXAS; mkCurve (Name "FY") wIn fy; mkCurve (Name "quasi-elastic FY") wIn qe]]];
             Ok [Lines [map (fun qc => let '((x, y, z), c) := qc in mkCurve (Norm (psqrt (x * x + y * y + z * z))) wLoss c) (combine (m_qsNIXS ms) pN)]];
             Ok [Lines [p3; p2]];
             do pol <- plot_polarisations nIn nOut c n data ext; Ok (Image (map (fun l => map (fun k => drawn (I l k)) kk) ll) ext :: pol)].
Proof.
  intros Hrun HnI. destruct (main_complete fsqrt fexp arccos fsin f32 k_B pi gaunt spherical_jn sph_harm bicgstab eigh eigsh argsort fuel ord ranks Hranks ms hamiltonian a radial _ eq_refl Hd HdN HdR Hrun)
    as (l1 & l2 & l3 & l4 & es & f1 & f2 & f3 & f4 & f5 & d1 & d2 & d3 & d4 & d5 & Eo & (s1 & o1 & E1) & (s2 & o2 & E2) & (s3 & o3 & E3) & (s4 & o4 & E4) & (s5 & o5 & E5)).
  subst f1 f2 f3 f4 f5. rewrite Eo. clear Eo. set (os := (_ ++ _)%list). set (f := h5_file os).
  assert (Fw : dget f "w" = Some ([length (m_w ms)], m_w ms)) by reflexivity.
  assert (FIn : dget f "wIn" = Some ([length (m_wIn ms)], m_wIn ms)) by reflexivity.
  assert (FL : dget f "wLoss" = Some ([length (m_wLoss ms)], m_wLoss ms)) by reflexivity.
  assert (FP : dget f "PSthermal" = Some ([10%nat; length (m_w ms)], d1)) by reflexivity.
  assert (FX : dget f "XPSthermal" = Some ([6%nat; length (m_w ms)], d2)) by reflexivity.
  assert (FN : dget f "NIXSthermal" = Some ([length (m_qsNIXS ms); n], d3)) by reflexivity.
  assert (FA : dget f "XASthermal" = Some ([length (m_epsilons ms); length (m_w ms)], d4)) by reflexivity.
  assert (FR : dget f "RIXSthermal" = Some ([nIn; nOut; c; n], d5)) by reflexivity.
  assert (FQ : dget f "qsNIXS" = Some ([length (m_qsNIXS ms); 3%nat], flat_map (fun q => let '(q0, q1, q2) := q in [q0; q1; q2]) (m_qsNIXS ms))) by reflexivity.
  destruct (XAS_ok ppi f (m_w ms) (m_wIn ms) (m_wLoss ms) _ _ _ Fw FIn FL nIn nOut d5 FR (length (m_epsilons ms)) d4 HnI HL FA) as (fy & qe & EX & Y1 & Y2).
  destruct (plot_loss_ok f (m_wIn ms) (m_wLoss ms) _ _ FIn FL nIn nOut d5 FR) as (p3 & p2 & EL & H3 & H2); [lia|].
  destruct (plot_map_ok f (m_wIn ms) (m_wLoss ms) _ _ FIn FL nIn nOut d5 FR HIn HL) as (ext & He & EM).
  do 8 eexists. exists (fun l k => total nIn (fun i => total nOut (fun j => el4 nOut c n d5 i j k l))), d5, fy, qe, p3, p2, ext. cbv zeta.
  split; [do 14 right; left; reflexivity|]. split; [do 17 right; left; reflexivity|]. split; [do 23 right; left; reflexivity|]. split; [do 20 right; left; reflexivity|].
  split; [now rewrite map_length, seq_length|]. split; [do 26 right; left; reflexivity|]. split; [do 25 right; left; reflexivity|].
  split. { intros l k _ _. rewrite total_ftotal. apply ftotal_ext. intros i _. apply total_ftotal. }
  split; [exact Y1|]. split; [exact Y2|]. split; [exact H3|]. split; [exact H2|]. split; [exact He|].
  match goal with |- plot_spectra _ _ _ = ?r => change (plot_spectra psqrt ppi f = r) end.
  unfold plot_spectra. rewrite (plot_sum_ok f (m_w ms) _ Fw _ _ _ _ FP), (plot_sum_ok f (m_w ms) _ Fw _ _ _ _ FX), EX, (plot_NIXS_ok psqrt f (m_wLoss ms) _ FL _ _ FN FQ), EL, EM. reflexivity.
Qed.
Theorem plots_ok : nth_error (snd run) 0 = Some (Ok tt) -> (nIn = 1 /\ nOut = 1 \/ 3 <= nIn /\ 2 <= nOut)%nat ->
  exists figs, plot_spectra psqrt ppi (h5_file (fst run)) = (figs, Ok tt) /\ plotted psqrt f32 ppi ms (fst run) figs.
Proof.
  intros Hrun Hp. destruct (plots_split Hrun) as (tPS & pPS & tXPS & pXPS & tXAS & pXAS & tN & pN & I & data & fy & qe & p3 & p2 & ext & A1 & A2 & A3 & A4 & A5 & A6 & A7 & A8 & A9 & A10 & A11 & A12 & A13 & E); [lia|].
  rewrite E. pose proof (polarisations_ok (m_wIn ms) (m_wLoss ms) nIn nOut data ext Hp) as EP. fold c n in EP. rewrite EP. cbn [bind]. eexists. split; [reflexivity|].
  exists tPS, pPS, tXPS, pXPS, tXAS, pXAS, tN, pN, I, data, fy, qe, p3, p2, ext. cbv zeta.
  repeat (split; [assumption|]). cbn [shown app]. rewrite app_nil_r. reflexivity.
Qed.
Theorem plots_fail : nth_error (snd run) 0 = Some (Ok tt) -> (1 <= nIn)%nat -> (1 <= nOut)%nat -> ~ (nIn = 1 /\ nOut = 1 \/ 3 <= nIn /\ 2 <= nOut)%nat ->
  exists figs, length figs = 5%nat /\ Forall (fun g => exists p, g = Lines p) figs /\ plot_spectra psqrt ppi (h5_file (fst run)) = (figs, Err IndexError).
Proof.
  intros Hrun H1 H2 Hp. destruct (plots_split Hrun H1) as (tPS & pPS & tXPS & pXPS & tXAS & pXAS & tN & pN & I & data & fy & qe & p3 & p2 & ext & A1 & A2 & A3 & A4 & A5 & A6 & A7 & A8 & A9 & A10 & A11 & A12 & A13 & E).
  rewrite E. pose proof (polarisations_fail (m_wIn ms) (m_wLoss ms) nIn nOut data ext Hp H1 H2) as EP. fold c n in EP. rewrite EP. cbn [bind shown app]. eexists. split; [|split; [|reflexivity]]; [reflexivity|]. repeat constructor; eexists; reflexivity.
Qed.
Theorem bin_ok (fint : F -> Z) : nth_error (snd run) 0 = Some (Ok tt) -> fint (f32 (fofZ (Z.of_nat c))) = Z.of_nat c ->
  exists x I fig, In (Bin "RIXS.bin" x) (fst run) /\ x = rixs_table f32 (m_wIn ms) (m_wLoss ms) I /\ plotRIXS fint x = Ok fig /\ plotted_bin f32 (m_wIn ms) (m_wLoss ms) I fig.
Proof.
  intros Hrun Hf. destruct (main_complete fsqrt fexp arccos fsin f32 k_B pi gaunt spherical_jn sph_harm bicgstab eigh eigsh argsort fuel ord ranks Hranks ms hamiltonian a radial _ eq_refl Hd HdN HdR Hrun)
    as (l1 & l2 & l3 & l4 & es & f1 & f2 & f3 & f4 & f5 & d1 & d2 & d3 & d4 & d5 & Eo & (s1 & o1 & E1) & (s2 & o2 & E2) & (s3 & o3 & E3) & (s4 & o4 & E4) & (s5 & o5 & E5)).
  subst f1 f2 f3 f4 f5. rewrite Eo. clear Eo. eexists _, _.
  destruct (plotRIXS_ok f32 fint (m_wIn ms) (m_wLoss ms) (fun l k => total nIn (fun i => total nOut (fun j => el4 nOut c n d5 i j k l))) HIn HL Hf) as (fig & E & H).
  exists fig. split; [do 26 right; left; reflexivity|]. split; [reflexivity|]. split; [exact E|exact H].
Qed.
End Run.
Section Programs.
Context {F : ofield}.
Local Open Scope of_scope.
Lemma program_sizes (fsqrt : F -> F) : (2 <= length (m_wIn (main_meshes fsqrt)))%nat /\ (2 <= length (m_wLoss (main_meshes fsqrt)))%nat /\
  length (m_epsilonsRIXSin (main_meshes fsqrt)) = 3%nat /\ length (m_epsilonsRIXSout (main_meshes fsqrt)) = 3%nat.
Proof.
  split; [|split; [|split; reflexivity]].
  - destruct (linspace_even (F := F) (fofZ (-10)) (fofZ 20) 50) as [H _]; [lia|]. change (m_wIn (main_meshes fsqrt)) with (linspace (F := F) (fofZ (-10)) (fofZ 20) 50). rewrite H. lia.
  - destruct (linspace_even (F := F) (fofZ (-2)) (fofZ 12) 4000) as [H _]; [lia|]. change (m_wLoss (main_meshes fsqrt)) with (linspace (F := F) (fofZ (-2)) (fofZ 12) 4000). rewrite H. lia.
Qed.
Lemma pickle_plots fsqrt fexp arccos fsin f32 k_B pi fint gaunt jn sph bicgstab eigh eigsh argsort fuel ord ranks : (1 <= ranks)%nat ->
  forall h0 (a : @args F) radial psqrt ppi, 0 < a_delta a -> 0 < a_deltaNIXS a -> 0 < a_deltaRIXS a ->
  let oc := main_pickle fsqrt fexp arccos fsin f32 k_B pi fint gaunt jn sph bicgstab eigh eigsh argsort fuel ord ranks h0 a radial in
  nth_error (snd oc) 0 = Some (Ok tt) ->
  exists figs, plot_spectra psqrt ppi (h5_file (fst oc)) = (figs, Ok tt) /\ plotted psqrt f32 ppi (main_meshes fsqrt) (fst oc) figs.
Proof.
  intros HR h0 a radial psqrt ppi H1 H2 H3. destruct (program_sizes fsqrt) as (S1 & S2 & S3 & S4). unfold main_pickle. cbv zeta. intros Hrun.
  eapply plots_ok; eauto. right. rewrite S3, S4. lia.
Qed.
Lemma CF_plots fsqrt fexp arccos fsin f32 k_B pi fint gaunt jn sph bicgstab eigh eigsh argsort fuel ord ranks : (1 <= ranks)%nat ->
  forall parameters (a : @args F) radial psqrt ppi, 0 < a_delta a -> 0 < a_deltaNIXS a -> 0 < a_deltaRIXS a ->
  let oc := main_CF fsqrt fexp arccos fsin f32 k_B pi fint gaunt jn sph bicgstab eigh eigsh argsort fuel ord ranks parameters a radial in
  nth_error (snd oc) 0 = Some (Ok tt) ->
  exists figs, plot_spectra psqrt ppi (h5_file (fst oc)) = (figs, Ok tt) /\ plotted psqrt f32 ppi (main_meshes fsqrt) (fst oc) figs.
Proof.
  intros HR parameters a radial psqrt ppi H1 H2 H3. destruct (program_sizes fsqrt) as (S1 & S2 & S3 & S4). unfold main_CF. cbv zeta. intros Hrun.
  eapply plots_ok; eauto. right. rewrite S3, S4. lia.
Qed.
End Programs.
