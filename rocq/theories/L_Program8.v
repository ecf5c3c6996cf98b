(* The text files of main *)
From Coq Require Import Lia List Bool Permutation Field Ring String.
From Verif Require Import M_Prelude M_Scalar M_PSR M_Ladder M_State M_Mpi M_Hamiltonian M_Lanczos M_Basis M_Average M_Expect M_Operators M_Spectra M_Simulate M_RIXS M_Main M_Program
  S_Fock S_Basis S_Ham S_Ops S_Expect S_Green S_Moments S_Spectra S_RIXS S_Thermal S_Main S_Program S_Spectrum S_Spectrum2
  L_PSR L_Ladder L_Scalar L_Dict L_Ops L_Program L_Program2 L_Program3 L_Program4 L_Program5 L_Program6 L_Program7.
Import ListNotations.

Section Main.
Context {F : ofield}.
Local Open Scope of_scope.
Variables fsqrt fexp arccos fsin f32 : F -> F.
Variables k_B pi : F.
Variable gaunt : Z -> Z -> Z -> Z -> Z -> Z -> F.
Variable spherical_jn : Z -> F -> F.
Variable sph_harm : Z -> Z -> F -> F -> cx F.
Variable bicgstab : list (vec F) -> vec F -> vec F.
Variable eigh : nat -> M_Hamiltonian.mat F -> res (list F * list (list (cx F))).
Variable eigsh : nat -> M_Hamiltonian.mat F -> Z -> res (list F * list (list (cx F))).
Variable argsort : list F -> list nat.
Variable fuel : nat.
Variable ord : nat -> nat -> nat -> nat -> set_order.
Variable R : nat.

Lemma outputs_In (l : list (res (output F))) o : In o (fst (outputs l)) -> In (Ok o) l.
Proof.
  induction l as [|[x|e] l IH]; cbn [outputs]; [intros []| |intros []]. destruct (outputs l) as [os r] eqn:El. cbn [fst] in *. intros [->|H]; [left; auto|right; auto].
Qed.
Lemma prints_no_text a ms radial nb es psis f cols : ~ In (Text f cols) (fst (rank0_prints fsqrt fexp k_B argsort a ms radial nb es psis)).
Proof.
  intros H. unfold rank0_prints in H. apply outputs_In in H.
  repeat (destruct H as [H|H]; [match type of H with rmap _ ?X = _ => destruct X; discriminate | _ => discriminate end|]). destruct H.
Qed.
Lemma main_texts hamiltonian ms (a : @args F) radial : run_input fsqrt fexp k_B fuel ord R a ->
  (forall nv hp h, let nb := nbaths_of (ordered (a_ls a) (a_nBaths a)) in hamiltonian nb nv hp = Ok h -> wf_op (n_orb nb) h /\ assert_hermitian h = Ok tt) ->
  forall f cols, In (Text f cols) (fst (main fsqrt fexp arccos fsin f32 k_B pi gaunt spherical_jn sph_harm bicgstab eigh eigsh argsort fuel ord R hamiltonian ms a radial)) ->
  exists su es psis, main_setup hamiltonian a = Ok su /\ run_states k_B eigh eigsh argsort R a su es psis /\
    text_spec fsqrt fexp arccos fsin k_B pi gaunt spherical_jn sph_harm a ms radial su es psis f cols.
Proof.
  intros (HS & HE & HR & Ho & HA & HkT & Hd & HdN & Hf) Hh f cols Hin. unfold main in Hin. destruct (main_setup hamiltonian a) as [su|] eqn:Es; [|destruct Hin].
  destruct (setup_nBaths _ _ _ Es) as [E1 (nv & hp & E2)]. destruct (setup_facts _ _ _ HA Es) as (Hsh & Hrs & Hv). cbv zeta in Hin, Hh.
  destruct (Hh _ _ _ E2) as [Hw HH]. rewrite <- E1 in Hw, Hf.
  exists su.
  destruct (eigensystem eigh eigsh argsort R (n_spin_orbitals (su_nBaths su)) (su_hOp su) (su_basis su) (a_nPsiMax a) LanczosDiag slaterWeightMin) as [|[[es0 psis0]|e0] others] eqn:Ee; try (now destruct Hin).
  destruct (forallb is_ok others); [|now destruct Hin].
  pose proof (prints_no_text a ms radial (nbaths_of (su_nBaths su)) es0 psis0 f cols) as Hnt. destruct (rank0_prints _ _ _ _ _ _ _ _ _ _) as [printed r0]. cbn [fst] in Hnt.
  destruct (forallb is_ok (_ :: _)); [|contradiction]. destruct (low_energy es0 psis0 _) as [[es psis]|] eqn:El; [|contradiction].
  assert (Hp0 : Forall (valid_psi (n_orb (nbaths_of (su_nBaths su)))) psis0).
  { apply (eigen_valid eigh eigsh argsort _ (su_hOp su) (su_basis su) (a_nPsiMax a) LanczosDiag slaterWeightMin R es0 psis0 Hv). rewrite <- (n_eq (su_nBaths su) Hsh). rewrite Ee. left. reflexivity. }
  pose proof (low_valid _ _ _ _ _ _ Hp0 El) as Hp.
  exists es, psis. split; [auto|]. split; [exists es0, psis0, others; auto|].
  destruct (simulate_spectra _ _ _ _ _ _ _ _ _ _ _ _ _ _ _ _ _ _ _ _ _ _ _ _ _ _ _) as [files ends] eqn:Esim. cbn [fst] in Hin. apply in_app_or in Hin as [Hin|Hin]; [contradiction|].
  apply (f_equal fst) in Esim. cbn [fst] in Esim. rewrite <- Esim in Hin. clear Esim. unfold simulate_spectra in Hin. unfold text_spec. cbv zeta.
  apply In_stage in Hin as [(os & rest & Ep & Hi)|Hin]. { left. eapply PS_text; eauto. }
  apply In_stage in Hin as [(os & rest & Ep & Hi)|Hin]. { right. left. eapply XPS_text; eauto. }
  apply In_stage in Hin as [(os & rest & Ep & Hi)|Hin]. { right. right. left. eapply NIXS_text; eauto. }
  apply In_stage in Hin as [(os & rest & Ep & Hi)|Hin]. { right. right. right. eapply XAS_text; eauto. }
  apply In_last in Hin as (os & rest & Ep & Hi). exfalso. eapply RIXS_no_text; eauto.
Qed.
Lemma total_herm fint nb hp h0 (h : op_t F) : total_hamiltonian fsqrt pi gaunt fint nb hp h0 = Ok h -> assert_hermitian h = Ok tt.
Proof.
  unfold total_hamiltonian. cbv zeta. intros E.
  repeat match type of E with bind ?X _ = _ => destruct X as [?|] eqn:?; [cbn [bind] in E|discriminate] end.
  injection E as <-. match goal with u : unit |- _ => destruct u end. assumption.
Qed.
Lemma main_pickle_texts fint h0 (a : @args F) radial : run_input fsqrt fexp k_B fuel ord R a ->
  forall f cols, In (Text f cols) (fst (main_pickle fsqrt fexp arccos fsin f32 k_B pi fint gaunt spherical_jn sph_harm bicgstab eigh eigsh argsort fuel ord R h0 a radial)) ->
  exists su es psis, main_setup (fun nb _ hp => get_hamiltonian_operator fsqrt pi gaunt fint nb hp h0) a = Ok su /\ run_states k_B eigh eigsh argsort R a su es psis /\
    text_spec fsqrt fexp arccos fsin k_B pi gaunt spherical_jn sph_harm a (main_meshes fsqrt) radial su es psis f cols.
Proof.
  intros HI. apply main_texts; auto. intros nv hp h. cbv zeta. intros E. destruct HI as (_ & _ & _ & _ & HA & _). split; [|eapply total_herm; exact E].
  eapply total_wf; [|exact E]. apply L_Basis2.wf_nb. apply d_shells. exact HA.
Qed.
Lemma main_CF_texts fint parameters (a : @args F) radial : run_input fsqrt fexp k_B fuel ord R a ->
  forall f cols, In (Text f cols) (fst (main_CF fsqrt fexp arccos fsin f32 k_B pi fint gaunt spherical_jn sph_harm bicgstab eigh eigsh argsort fuel ord R parameters a radial)) ->
  exists su es psis, main_setup (fun nb nv hp => get_hamiltonian_operator_using_CF fsqrt pi gaunt fint nb nv hp parameters Spherical) a = Ok su /\ run_states k_B eigh eigsh argsort R a su es psis /\
    text_spec fsqrt fexp arccos fsin k_B pi gaunt spherical_jn sph_harm a (main_meshes fsqrt) radial su es psis f cols.
Proof.
  intros HI. apply main_texts; auto. intros nv hp h. cbv zeta. intros E. destruct HI as (_ & _ & _ & _ & HA & _). split; [|eapply total_herm; exact E].
  eapply total_wf; [|exact E]. apply L_Basis2.wf_nb. apply d_shells. exact HA.
Qed.
End Main.
