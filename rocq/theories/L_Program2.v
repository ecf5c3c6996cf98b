(* The program: the outputs of every run *)
From Coq Require Import Lia List Bool Permutation Field Ring String.
From Verif Require Import M_Prelude M_Scalar M_PSR M_Ladder M_State M_Mpi M_Hamiltonian M_Lanczos M_Basis M_Average M_Expect M_Operators M_Spectra M_Simulate M_RIXS M_Main M_Program
  S_Fock S_Ham S_Ops S_Green S_Thermal S_Program
  L_PSR L_Ladder L_Scalar L_Dict L_Sum L_Fock L_State L_Average L_Green L_Green2 L_Green3 L_Green4 L_Spectra L_Spectra2 L_Spectra3 L_Spectra6 L_RIXS L_Main2 L_Length L_Program.
Import ListNotations.

Lemma map_res_len {A B} (f : A -> res B) l r : map_res f l = Ok r -> length r = length l.
Proof. intros E. apply map_res_nth in E. apply E. Qed.

Section Out.
Context {F : ofield}.
Variable ms : @meshes F.
Variable f32 : F -> F.
Notation wf := (well_formed_output f32 ms).
Definition good (names : list string) (x : res (list (output F))) : Prop :=
  match x with Ok f => map label f = names /\ Forall wf f | Err _ => True end.
Definition structured (rest : list string) (oc : outcome F) : Prop :=
  Forall wf (fst oc) /\ exists k, (k <= length rest)%nat /\ map label (fst oc) = firstn k rest /\
    (nth_error (snd oc) 0 = Some (Ok tt) <-> k = length rest).
Lemma stage_struct names rest outs next : outs <> [] -> Forall (good names) outs -> rest <> [] -> structured rest next -> structured (names ++ rest) (stage outs next).
Proof.
  intros Hne Hg Hr [Hw (k & Hk & Hl & Hc)]. destruct outs as [|x outs]; [congruence|]. unfold stage. inversion Hg as [|? ? Hx _]. subst.
  destruct (forallb is_ok (x :: outs)) eqn:E.
  - destruct x as [f|]; [|discriminate]. destruct Hx as [Hx1 Hx2]. split; cbn [fst snd]; [apply Forall_app; auto|].
    exists (length names + k)%nat. rewrite map_app, Hx1, Hl, firstn_app_2, app_length. split; [lia|]. split; [auto|]. rewrite Hc. lia.
  - assert (Hn : nth_error (stopped (x :: outs)) 0 <> Some (Ok tt)) by (destruct x; discriminate).
    destruct x as [f|]; cbn [fst snd].
    + destruct Hx as [Hx1 Hx2]. split; [auto|]. exists (length names). rewrite app_length. split; [lia|]. split.
      * cbn [fst]. rewrite Hx1, firstn_app, Nat.sub_diag, firstn_all. simpl. now rewrite app_nil_r.
      * split; [intros C; contradiction|]. destruct rest; [congruence|simpl; lia].
    + split; [constructor|]. exists 0%nat. split; [lia|]. split; [reflexivity|]. split; [intros C; contradiction|]. rewrite app_length. destruct rest; [congruence|simpl; lia].
Qed.
Lemma last_struct names outs : outs <> [] -> Forall (good names) outs -> names <> [] -> structured names (last_stage outs).
Proof.
  intros Hne Hg Hr. destruct outs as [|x outs]; [congruence|]. inversion Hg as [|? ? Hx _]. subst. unfold last_stage. destruct x as [f|]; cbn [fst snd map bind].
  - destruct Hx as [H1 H2]. split; [auto|]. exists (length names). rewrite firstn_all. split; [lia|]. split; [auto|]. simpl. split; auto.
  - split; [constructor|]. exists 0%nat. split; [lia|]. split; [reflexivity|]. simpl. split; [discriminate|]. destruct names; [congruence|discriminate].
Qed.
Lemma no_output rest l : rest <> [] -> (forall x, In x l -> x <> Ok tt) -> structured rest ([], l).
Proof.
  intros Hr Hl. split; [constructor|]. exists 0%nat. split; [lia|]. split; [reflexivity|]. cbn [snd]. split.
  - intros E. apply nth_error_In in E. exfalso. exact (Hl _ E eq_refl).
  - destruct rest; [congruence|discriminate].
Qed.
End Out.

Section Program.
Context {F : ofield}.
Add Field Ff : (f_field F).
Local Open Scope of_scope.
Variables fsqrt fexp arccos fsin f32 : F -> F.
Variables k_B pi : F.
Variable gaunt : Z -> Z -> Z -> Z -> Z -> Z -> F.
Variable spherical_jn : Z -> F -> F.
Variable sph_harm : Z -> Z -> F -> F -> cx F.
Variable bicgstab : list (vec F) -> vec F -> vec F.
Variable eigh : nat -> M_Hamiltonian.mat F -> res (list F * list (list (cx F))).
Variable eigsh : nat -> M_Hamiltonian.mat F -> Z -> res (list F * list (list (cx F))).
Variable argsort : list F -> list nat.
Variable fuel : nat.
Variable ord : nat -> nat -> nat -> nat -> set_order.
Variable ranks : nat.
Hypothesis HE : exp_laws fexp.
Hypothesis Hf32 : forall x, 0 <= x -> 0 <= f32 x.
Hypothesis Hranks : (1 <= ranks)%nat.
Variable ms : @meshes F.
Notation wf := (well_formed_output f32 ms).

Section Spectra.
Variables (nBaths : zdict) (rs : restrictions_t) (hOp : op_t F).
Variables (es : list F) (psis : list (psi_t F)) (T delta deltaNIXS deltaRIXS : F).
Variables (li lj : Z) (radial : list (F * (cx F * cx F))).
Hypothesis Hd : 0 < delta.
Hypothesis HdN : 0 < deltaNIXS.
Hypothesis HdR : 0 < deltaRIXS.
Notation call c tOps w d := (getSpectra_call fsqrt fuel ord ranks nBaths rs hOp es psis c tOps w d).

Lemma nonempty {A} (l : list A) : length l = ranks -> l <> [].
Proof. intros E ->. simpl in E. lia. Qed.
Lemma with_ops_len {A B} (ops : res A) (f : A -> list (res B)) : (forall o, length (f o) = ranks) -> length (with_ops ranks ops f) = ranks.
Proof. intros H. destruct ops; simpl; auto. apply repeat_length. Qed.
Lemma with_ops_good {A} names (ops : res A) f : (forall o, ops = Ok o -> Forall (good ms f32 names) (f o)) -> Forall (good ms f32 names) (with_ops ranks ops f).
Proof. intros H. destruct ops; simpl; auto. apply Forall_forall. intros x Hx. apply repeat_spec in Hx. subst x. exact I. Qed.
Lemma call_len c tOps w d : length (call c tOps w d) = ranks.
Proof. apply hb_len. Qed.
(* absorption and emission *)
Lemma call_pos c tOps w d gs : 0 < d -> In (Ok gs) (call c tOps w d) -> (forall i t, length (gs i t) = length w) /\ forall i t, downward (gs i t).
Proof.
  intros H0 Hin. unfold getSpectra_call in Hin. split; [eapply hb_shape; [|exact Hin]; apply fpos_neq; auto|].
  intros i t. apply (signed_le d); auto. eapply (getSpectra_signed fsqrt); [apply fpos_neq; auto|exact Hin].
Qed.
Lemma call_neg c tOps w d gs : 0 < d -> In (Ok gs) (call c tOps (map fopp w) (- d)) -> (forall i t, length (gneg gs i t) = length w) /\ forall i t, downward (gneg gs i t).
Proof.
  intros H0 Hin. unfold getSpectra_call in Hin. split.
  - intros i t. unfold gneg. rewrite map_length. rewrite <- (map_length fopp w). eapply hb_shape; [|exact Hin]. apply fpos_opp; auto.
  - intros i t. unfold gneg. apply (signed_opp d); auto. eapply (getSpectra_signed fsqrt); [apply fpos_opp; auto|exact Hin].
Qed.
Lemma report_good name mesh nT (gs : garr F) : (forall i t, length (gs i t) = length mesh) -> (forall i t, downward (gs i t)) ->
  (forall d1 d2, array_of [length es; nT; length mesh] d1 -> array_of [nT; length mesh] d2 ->
    wf (H5 name [length es; nT; length mesh] d1) /\ wf (H5 (name ++ "thermal")%string [nT; length mesh] d2)) ->
  (forall cols, spectrum_file mesh nT cols -> wf (Text (name ++ ".dat")%string cols)) ->
  good ms f32 [name; (name ++ "thermal")%string; (name ++ ".dat")%string] (report fexp k_B es T name mesh nT gs).
Proof.
  intros H1 H2 H3 H4. unfold good. destruct (report fexp k_B es T name mesh nT gs) as [outs|] eqn:E; auto.
  apply (report_ok fexp HE) in E as (obs & a & cols & -> & Ho & Ha & Hc); auto. split; [reflexivity|].
  destruct (H3 obs a Ho Ha) as [W1 W2]. constructor; [exact W1|]. constructor; [exact W2|]. constructor; [apply H4; auto|constructor].
Qed.
Lemma h5_wf name shape data : array_of shape data -> spectral_shape ms (length es) name = Some shape -> mesh_of ms name = None -> wf (H5 name shape data).
Proof. intros [L P] Hs Hm. split; [exact L|]. split; [intros _; split; [exact P|]; exists (length es); exact Hs|]. intros m Em. rewrite Hm in Em. discriminate. Qed.
Ltac h5 := intros d1 d2 Hd1 Hd2; split; (apply h5_wf; [assumption| |reflexivity]).
Lemma PS_good : length (part_PS fsqrt fexp k_B fuel ord ranks nBaths rs hOp es psis T delta ms) = ranks /\
  Forall (good ms f32 ["PS"; "PSthermal"; "PS.dat"]%string) (part_PS fsqrt fexp k_B fuel ord ranks nBaths rs hOp es psis T delta ms).
Proof.
  unfold part_PS. split.
  - apply with_ops_len. intros [ips ps]. rewrite map_length, combine_length, !call_len. apply Nat.min_id.
  - apply with_ops_good. intros [ips ps] Eo. apply Forall_forall. intros x Hx. apply in_map_iff in Hx as ([rI rP] & <- & Hin). cbn [fst snd] in *.
    destruct rI as [gI|]; [|exact I]. destruct rP as [gP|]; [|exact I]. cbn [bind].
    destruct (call_pos _ _ _ _ _ Hd (in_combine_l _ _ _ _ Hin)) as [A1 A2]. destruct (call_neg _ _ _ _ _ Hd (in_combine_r _ _ _ _ Hin)) as [B1 B2].
    apply (report_good "PS").
    + intros i t. unfold gplus. rewrite map_length, combine_length, A1, B1. apply Nat.min_id.
    + intros i t. unfold gplus. specialize (A2 i t). specialize (B2 i t). unfold downward in *. revert A2. generalize (gI i t) as y. induction B2 as [|a x Ha Hx IH]; intros [|b y] H2; simpl; constructor; inversion H2; subst; auto.
      simpl. replace (0 : F) with (0 + 0 : F) by ring. apply fadd_le; auto.
    + assert (Lp : length ps = 10%nat).
      { destruct (getInversePhotoEmissionOperators _ _) as [i0|]; [|discriminate]. cbn [bind] in Eo. destruct (getPhotoEmissionOperators _ _) as [p0|] eqn:Ep; [|discriminate].
        cbn [bind] in Eo. injection Eo as <- <-. apply map_res_len in Ep. rewrite Ep. reflexivity. }
      rewrite Lp. h5; reflexivity.
    + intros cols Hc. exists (m_w ms), (length ps). split; [|exact Hc].
      destruct (getInversePhotoEmissionOperators _ _) as [i0|]; [|discriminate]. cbn [bind] in Eo. destruct (getPhotoEmissionOperators _ _) as [p0|] eqn:Ep; [|discriminate].
      cbn [bind] in Eo. injection Eo as <- <-. apply map_res_len in Ep. rewrite Ep. reflexivity.
Qed.
Lemma XPS_good : length (part_XPS fsqrt fexp k_B fuel ord ranks nBaths rs hOp es psis T delta ms) = ranks /\
  Forall (good ms f32 ["XPS"; "XPSthermal"; "XPS.dat"]%string) (part_XPS fsqrt fexp k_B fuel ord ranks nBaths rs hOp es psis T delta ms).
Proof.
  unfold part_XPS. split.
  - apply with_ops_len. intros ps. rewrite map_length. apply call_len.
  - apply with_ops_good. intros ps Ep. apply Forall_forall. intros x Hx. apply in_map_iff in Hx as ([g|] & <- & Hin); [|exact I]. cbn [bind].
    destruct (call_neg _ _ _ _ _ Hd Hin) as [A1 A2]. apply (report_good "XPS"); auto; [apply map_res_len in Ep; rewrite Ep; h5; reflexivity|].
    intros cols Hc. exists (m_w ms), (length ps). split; [|exact Hc]. apply map_res_len in Ep. rewrite Ep. reflexivity.
Qed.
Lemma NIXS_good : let p := part_NIXS fsqrt fexp arccos fsin k_B pi gaunt spherical_jn sph_harm fuel ord ranks nBaths rs hOp es psis T deltaNIXS ms li lj radial in
  length p = ranks /\ Forall (good ms f32 ["NIXS"; "NIXSthermal"; "NIXS.dat"]%string) p.
Proof.
  unfold part_NIXS. cbv zeta. split.
  - apply with_ops_len. intros ps. rewrite map_length. apply call_len.
  - apply with_ops_good. intros ps Ep. apply Forall_forall. intros x Hx. apply in_map_iff in Hx as ([g|] & <- & Hin); [|exact I]. cbn [bind].
    destruct (call_pos _ _ _ _ _ HdN Hin) as [A1 A2]. apply (report_good "NIXS"); auto; [apply map_res_len in Ep; rewrite Ep; h5; reflexivity|].
    intros cols Hc. exists (m_wLoss ms), (length ps). split; [|exact Hc]. apply map_res_len in Ep. rewrite Ep. reflexivity.
Qed.
Lemma XAS_good : let p := part_XAS fsqrt fexp k_B pi gaunt fuel ord ranks nBaths rs hOp es psis T delta ms in
  length p = ranks /\ Forall (good ms f32 ["XAS"; "XASthermal"; "XAS.dat"]%string) p.
Proof.
  unfold part_XAS. cbv zeta. split.
  - apply with_ops_len. intros ps. rewrite map_length. apply call_len.
  - apply with_ops_good. intros ps Ep. apply Forall_forall. intros x Hx. apply in_map_iff in Hx as ([g|] & <- & Hin); [|exact I]. cbn [bind].
    destruct (call_pos _ _ _ _ _ Hd Hin) as [A1 A2]. apply (report_good "XAS"); auto; [apply map_res_len in Ep; rewrite Ep; h5; reflexivity|].
    intros cols Hc. exists (m_w ms), (length ps). split; [|exact Hc]. apply map_res_len in Ep. rewrite Ep. reflexivity.
Qed.
Lemma RIXS_good : let p := part_RIXS fsqrt fexp f32 k_B pi gaunt bicgstab fuel ord ranks nBaths rs hOp es psis T delta deltaRIXS ms in
  length p = ranks /\ Forall (good ms f32 ["RIXS"; "RIXSthermal"; "RIXS.bin"]%string) p.
Proof.
  unfold part_RIXS. cbv zeta. split.
  - apply with_ops_len. intros [i o]. rewrite map_length, win_len by auto. apply repeat_length.
  - apply with_ops_good. intros [tI tO] Ep. apply Forall_forall. intros x Hx. apply in_map_iff in Hx as ([g|] & <- & Hin); [|exact I]. cbn [bind fst snd] in *.
    unfold good. destruct (report_RIXS _ _ _ _ _ _ _ _ _) as [outs|] eqn:E; auto.
    apply (report_rixs_ok fexp HE k_B f32 Hf32) in E as (obs & a & data & -> & Ho & Ha & Hb).
    + assert (LI : length tI = length (m_epsilonsRIXSin ms) /\ length tO = length (m_epsilonsRIXSout ms)).
      { unfold getDaggeredDipoleOperators in Ep. destruct (getDipoleOperators _ _ _ _ (m_epsilonsRIXSin ms)) as [x|] eqn:E1; [|discriminate]. cbn [bind] in Ep.
        destruct (map_res _ _) as [y|] eqn:E2; [|discriminate]. cbn [bind] in Ep. injection Ep as <- <-. apply map_res_len in E1, E2. auto. }
      destruct LI as [LI LO]. rewrite LI, LO in *. split; [reflexivity|]. constructor; [apply h5_wf; [exact Ho|reflexivity|reflexivity]|].
      constructor; [apply h5_wf; [exact Ha|reflexivity|reflexivity]|]. constructor; [split; auto|constructor].
    + eapply win_shape; [|right; reflexivity|exact Hin]. apply fpos_neq; auto.
    + intros a0 b0 c0 d0. apply (signed_le deltaRIXS); auto. eapply (getRIXSmap_signed fsqrt); [apply fpos_neq; auto|exact Hin].
Qed.
Lemma simulate_struct : structured ms f32 (skipn 12 complete_run)
  (simulate_spectra fsqrt fexp arccos fsin f32 k_B pi gaunt spherical_jn sph_harm bicgstab fuel ord ranks nBaths rs hOp es psis T delta deltaNIXS deltaRIXS ms li lj radial).
Proof.
  destruct PS_good as [P1 P2], XPS_good as [X1 X2], NIXS_good as [N1 N2], XAS_good as [A1 A2], RIXS_good as [R1 R2].
  change (skipn 12 complete_run) with (["PS"; "PSthermal"; "PS.dat"]%string ++ ["XPS"; "XPSthermal"; "XPS.dat"]%string ++ ["NIXS"; "NIXSthermal"; "NIXS.dat"]%string ++ ["XAS"; "XASthermal"; "XAS.dat"]%string ++ ["RIXS"; "RIXSthermal"; "RIXS.bin"]%string)%list.
  unfold simulate_spectra. apply stage_struct; [apply nonempty; auto|auto|discriminate|]. apply stage_struct; [apply nonempty; auto|auto|discriminate|].
  apply stage_struct; [apply nonempty; auto|auto|discriminate|]. apply stage_struct; [apply nonempty; auto|auto|discriminate|].
  apply last_struct; [apply nonempty; auto|auto|discriminate].
Qed.
End Spectra.

Lemma outputs_struct (l : list (res (output F))) names : length names = length l ->
  (forall o name, In (Ok o, name) (combine l names) -> label o = name /\ wf o) ->
  let '(os, r) := outputs l in Forall wf os /\ exists k, (k <= length names)%nat /\ map label os = firstn k names /\ (r = Ok tt <-> k = length names).
Proof.
  revert names. induction l as [|x l IH]; intros [|nm names] L H; try discriminate.
  - simpl. split; [constructor|]. exists 0%nat. split; [lia|]. split; [auto|]. split; auto.
  - simpl in L. cbn [outputs]. destruct x as [o|e].
    + specialize (IH names ltac:(lia) (fun o' n' Hi => H o' n' (or_intror Hi))). destruct (outputs l) as [os r]. destruct IH as [H1 (k & K1 & K2 & K3)].
      destruct (H o nm (or_introl eq_refl)) as [Ho1 Ho2]. split; [constructor; auto|]. exists (S k). simpl. rewrite Ho1, K2. split; [lia|]. split; [auto|]. rewrite K3. lia.
    + split; [constructor|]. exists 0%nat. split; [lia|]. split; [auto|]. split; [discriminate|simpl; lia].
Qed.
Lemma len1 (l : list F) : length l = fold_right Nat.mul 1%nat [length l].
Proof. cbn [fold_right]. lia. Qed.
Lemma len3 (l : list (F * F * F)) : length (flat_map (fun q => let '(q0, q1, q2) := q in [q0; q1; q2]) l) = fold_right Nat.mul 1%nat [length l; 3%nat].
Proof. induction l as [|[[x y] z] l IH]; [reflexivity|]. cbn [flat_map]. rewrite app_length, IH. cbn [fold_right length]. lia. Qed.
Lemma prints_struct a radial nb es psis :
  let '(os, r) := rank0_prints fsqrt fexp k_B argsort a ms radial nb es psis in
  Forall wf os /\ exists k, (k <= 12)%nat /\ map label os = firstn k complete_run /\ (r = Ok tt <-> k = 12%nat).
Proof.
  pose proof (outputs_struct [ rmap PThermal (printThermalExpValues fsqrt fexp k_B nb es psis (fofZ 300) (fofZ 10));
            rmap PExpValues (printExpValues fsqrt nb es psis);
            rmap PWeights (print_weights argsort (a_nPrintSlaterWeights a) psis);
            rmap PDensity (print_density fsqrt nb (a_tolPrintOccupation a) psis);
            H5_1d "E" es; H5_1d "w" (m_w ms); H5_1d "wIn" (m_wIn ms); H5_1d "wLoss" (m_wLoss ms);
            Ok (H5 "qsNIXS" [length (m_qsNIXS ms); 3%nat] (flat_map (fun q => let '(q0, q1, q2) := q in [q0; q1; q2]) (m_qsNIXS ms)));
            H5_1d "r" (map fst radial); H5_1d "RiNIXS" (map snd radial); H5_1d "RjNIXS" (map snd radial) ] (firstn 12 complete_run) eq_refl) as H.
  unfold rank0_prints. set (l := [ _; _; _; _; _; _; _; _; _; _; _; _ ]) in *. destruct (outputs l) as [os r].
  destruct H as [H1 (k & K1 & K2 & K3)].
  - intros o nm Hi. unfold l in Hi. cbn [combine firstn complete_run] in Hi. cbn [In] in Hi.
    repeat (destruct Hi as [Hi|Hi]; [injection Hi as Hi <-|]); try contradiction.
    + destruct (printThermalExpValues _ _ _ _ _ _ _ _); [|discriminate]. injection Hi as <-. split; [reflexivity|exact I].
    + destruct (printExpValues _ _ _ _); [|discriminate]. injection Hi as <-. split; [reflexivity|exact I].
    + destruct (print_weights _ _ _); [|discriminate]. injection Hi as <-. split; [reflexivity|exact I].
    + destruct (print_density _ _ _ _); [|discriminate]. injection Hi as <-. split; [reflexivity|exact I].
    + subst o. split; [reflexivity|]. split; [apply len1|]. split; [intros C; exfalso; cbn [In spectral] in C; intuition discriminate|discriminate].
    + subst o. split; [reflexivity|]. split; [apply len1|]. split; [intros C; exfalso; cbn [In spectral] in C; intuition discriminate|]. intros m Em. injection Em as <-. reflexivity.
    + subst o. split; [reflexivity|]. split; [apply len1|]. split; [intros C; exfalso; cbn [In spectral] in C; intuition discriminate|]. intros m Em. injection Em as <-. reflexivity.
    + subst o. split; [reflexivity|]. split; [apply len1|]. split; [intros C; exfalso; cbn [In spectral] in C; intuition discriminate|]. intros m Em. injection Em as <-. reflexivity.
    + subst o. split; [reflexivity|]. split; [apply len3|]. split; [intros C; exfalso; cbn [In spectral] in C; intuition discriminate|discriminate].
    + subst o. split; [reflexivity|]. split; [apply len1|]. split; [intros C; exfalso; cbn [In spectral] in C; intuition discriminate|discriminate].
    + subst o. split; [reflexivity|]. split; [apply len1|]. split; [intros C; exfalso; cbn [In spectral] in C; intuition discriminate|discriminate].
    + subst o. split; [reflexivity|]. split; [apply len1|]. split; [intros C; exfalso; cbn [In spectral] in C; intuition discriminate|discriminate].
  - split; [auto|]. exists k. cbn [length firstn complete_run] in K1, K3. split; [auto|]. split; [|auto]. rewrite K2. rewrite firstn_firstn. f_equal. lia.
Qed.
Lemma not_ok_rep (e : exc) k (x : res unit) : In x (repeat (Err e) k) -> x <> Ok tt.
Proof. intros H. apply repeat_spec in H. subst. discriminate. Qed.
Lemma not_ok_stopped {A} (l : list (res A)) x : In x (stopped l) -> x <> Ok tt.
Proof. intros H. apply in_map_iff in H as (y & <- & _). destruct y; discriminate. Qed.
Theorem main_struct hamiltonian a radial : 0 < a_delta a -> 0 < a_deltaNIXS a -> 0 < a_deltaRIXS a ->
  structured ms f32 complete_run (main fsqrt fexp arccos fsin f32 k_B pi gaunt spherical_jn sph_harm bicgstab eigh eigsh argsort fuel ord ranks hamiltonian ms a radial).
Proof.
  intros Hd HdN HdR. unfold main. destruct (main_setup hamiltonian a) as [su|e]; [|apply no_output; [discriminate|intros x; apply not_ok_rep]]. cbv zeta.
  set (outs := eigensystem _ _ _ _ _ _ _ _ _ _).
  destruct outs as [|[[es psis]|e] others]; [apply no_output; [discriminate|intros x []]| |apply no_output; [discriminate|intros x; apply not_ok_stopped]].
  destruct (forallb is_ok others); [|apply no_output; [discriminate|intros x; apply not_ok_stopped]].
  pose proof (prints_struct a radial (nbaths_of (su_nBaths su)) es psis) as HP. destruct (rank0_prints _ _ _ _ _ _ _ _ _ _) as [printed r0]. destruct HP as [HP1 (k & K1 & K2 & K3)].
  assert (Hstop : forall l, (forall x, In x l -> x <> Ok tt) -> structured ms f32 complete_run (printed, l)).
  { intros l Hl. split; [exact HP1|]. exists k. split; [cbn [length complete_run]; lia|]. split; [exact K2|]. cbn [snd]. split; [intros E; apply nth_error_In in E; exfalso; exact (Hl _ E eq_refl)|].
    cbn [length complete_run]. lia. }
  cbv zeta. destruct (forallb is_ok (r0 :: _)) eqn:Er; [|apply Hstop; intros x; apply not_ok_stopped].
  destruct (low_energy _ _ _) as [[es' psis']|e]; [|apply Hstop; intros x; apply not_ok_rep].
  assert (Hk : k = 12%nat) by (apply K3; destruct r0 as [[]|]; [reflexivity|discriminate]).
  pose proof (simulate_struct (su_nBaths su) (su_rs su) (su_hOp su) es' psis' (a_T a) (a_delta a) (a_deltaNIXS a) (a_deltaRIXS a) 2 2 (map (fun rR => (fst rR, (creal (snd rR), creal (snd rR)))) radial) Hd HdN HdR) as HS.
  destruct (simulate_spectra _ _ _ _ _ _ _ _ _ _ _ _ _ _ _ _ _ _ _ _ _ _ _ _ _ _ _) as [files ends]. destruct HS as [S1 (k' & S2 & S3 & S4)]. cbn [fst snd] in *.
  split; cbn [fst snd]; [apply Forall_app; auto|]. exists (12 + k')%nat. rewrite map_app, K2, S3, Hk. cbn [skipn length complete_run] in S2, S4 |- *. split; [lia|]. split; [reflexivity|]. rewrite S4. lia.
Qed.
End Program.
