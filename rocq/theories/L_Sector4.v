(* Sectors: final states of the transitions. *)
From Coq Require Import Permutation Ring Field.
From Verif Require Import M_Prelude M_Scalar M_PSR M_State M_Basis M_Expect M_Hamiltonian M_Operators M_Main M_Program S_Fock S_Ops S_Basis S_Expect S_Ham S_Green S_Moments S_Spectrum S_Operators S_Program S_Spectrum2 S_Sector.
From Verif Require Import L_Scalar L_Sum L_Dict L_Fock L_State L_Ops L_Index L_Basis2 L_RIXS L_Program3 L_Program4 L_Program5 L_Program6 L_Sector L_Sector2 L_Sector3.
Local Open Scope Z_scope.

Section T.
Context {F : ofield}.
Variable nb : nbaths_t.
Hypothesis W : wf_nbaths nb.
Hypothesis Ha : NoDup (angs nb).
Notation n := (n_orb nb).
Lemma all_electrons t : length t = n -> charge (at_index nb q_N) t = electrons t.
Proof.
  intros Ht. rewrite <- charge_electrons. apply charge_ext. intros i Hi. rewrite Ht in Hi. unfold n_orb in Hi. destruct (i2c_bijection nb i W Ha) as (x & Ex & _); [lia|]. unfold at_index. rewrite Ex. reflexivity.
Qed.
Lemma sector_iff N Nc (v : config -> cx F) : sector nb N Nc v <-> in_sector n (at_index nb q_N) N v /\ in_sector n (at_index nb (q_shell 1)) Nc v.
Proof.
  split.
  - intros H. split; intros t Ht Hne; destruct (H t Ht Hne) as [A B]; [rewrite all_electrons by auto; exact A|exact B].
  - intros [A B] t Ht Hne. split; [rewrite <- all_electrons by auto; auto|apply B; auto].
Qed.
Definition fN (_ : Z) : Z := 1.
Definition fS (l l' : Z) : Z := if l' =? l then 1 else 0.
Lemma hN l s m : q_N (SImp l s m) = fN l. Proof. reflexivity. Qed.
Lemma hS l0 l s m : q_shell l0 (SImp l s m) = fS l0 l. Proof. reflexivity. Qed.
Variables fsqrt arccos fsin : F -> F.
Variable pi : F.
Variable gaunt : Z -> Z -> Z -> Z -> Z -> Z -> F.
Variable jn : Z -> F -> F.
Variable sph : Z -> Z -> F -> F -> cx F.
Lemma transitions ops dN dNc : dkeys nb = [KInt 1; KInt 2] -> transition_ops fsqrt arccos fsin pi gaunt jn sph nb ops dN dNc ->
  Forall (fun op : op_t F => wf_op n op /\ shifts (at_index nb q_N) dN op /\ shifts (at_index nb (q_shell 1)) dNc op) ops.
Proof.
  intros Hk HT. rewrite Forall_forall. intros op Hop. destruct HT as [ops E|ops E|ops E|qs radial ops E|eps ops E|eps ops E].
  - pose proof (pes_wf nb W _ _ _ (or_introl eq_refl) E) as A. pose proof (pes_shifts nb W q_N fN hN _ _ _ (or_introl eq_refl) E) as B. pose proof (pes_shifts nb W (q_shell 1) (fS 1) (hS 1) _ _ _ (or_introl eq_refl) E) as C.
    rewrite Forall_forall in A, B, C. split; [exact (A op Hop)|]; split; [exact (B op Hop)|exact (C op Hop)].
  - pose proof (pes_wf nb W _ _ _ (or_intror eq_refl) E) as A. pose proof (pes_shifts nb W q_N fN hN _ _ _ (or_intror eq_refl) E) as B. pose proof (pes_shifts nb W (q_shell 1) (fS 1) (hS 1) _ _ _ (or_intror eq_refl) E) as C.
    rewrite Forall_forall in A, B, C. split; [exact (A op Hop)|]; split; [exact (B op Hop)|exact (C op Hop)].
  - pose proof (pes_wf nb W _ _ _ (or_introl eq_refl) E) as A. pose proof (pes_shifts nb W q_N fN hN _ _ _ (or_introl eq_refl) E) as B. pose proof (pes_shifts nb W (q_shell 1) (fS 1) (hS 1) _ _ _ (or_introl eq_refl) E) as C.
    rewrite Forall_forall in A, B, C. split; [exact (A op Hop)|]; split; [exact (B op Hop)|exact (C op Hop)].
  - pose proof (nixs_wf nb W _ _ _ _ _ _ _ _ _ _ _ _ E) as A. pose proof (nixs_shifts nb W fsqrt pi gaunt q_N fN hN _ _ _ _ _ _ _ _ _ E) as B. pose proof (nixs_shifts nb W fsqrt pi gaunt (q_shell 1) (fS 1) (hS 1) _ _ _ _ _ _ _ _ _ E) as C.
    rewrite Forall_forall in A, B, C. split; [exact (A op Hop)|]; split; [exact (B op Hop)|exact (C op Hop)].
  - pose proof (dips_wf nb W _ _ _ _ _ E) as A. pose proof (dips_shifts nb W fsqrt pi gaunt q_N fN hN _ _ _ _ Hk E) as B. pose proof (dips_shifts nb W fsqrt pi gaunt (q_shell 1) (fS 1) (hS 1) _ _ _ _ Hk E) as C.
    rewrite Forall_forall in A, B, C. split; [exact (A op Hop)|]; split; [exact (B op Hop)|exact (C op Hop)].
  - pose proof (ddips_wf nb W _ _ _ _ _ E) as A. pose proof (ddips_shifts nb W fsqrt pi gaunt q_N fN hN _ _ _ _ Hk E) as B. pose proof (ddips_shifts nb W fsqrt pi gaunt (q_shell 1) (fS 1) (hS 1) _ _ _ _ Hk E) as C.
    rewrite Forall_forall in A, B, C. split; [exact (A op Hop)|]; split; [exact (B op Hop)|exact (C op Hop)].
Qed.
(* the final states: all powers of the hamiltonian and the solution of (z - h) x = psiR *)
Lemma final_sector (hOp : op_t F) rs rs' swm h N Nc dN dNc (tOp : op_t F) psi psiR : wf_op n hOp -> conserves (at_index nb q_N) hOp -> conserves (at_index nb (q_shell 1)) hOp ->
  restricted_op n hOp rs h -> wf_op n tOp -> shifts (at_index nb q_N) dN tOp -> shifts (at_index nb (q_shell 1)) dNc tOp ->
  sector nb N Nc (amp psi) -> cut_image n tOp rs' swm psi psiR ->
  (forall p, sector nb (N + dN) (Nc + dNc) (fpow n h p psiR)) /\
  forall z g, fock_green n z h psiR g -> exists x, fock_solves n z h x psiR /\ sector nb (N + dN) (Nc + dNc) x /\ csum (fun t => cconj (amp psiR t) * x t)%C (allcfg n) = g.
Proof.
  intros Hw C1 C2 Hr Tw T1 T2 Hs Hi. apply sector_iff in Hs as [S1 S2].
  pose proof (image_sector n _ _ _ _ _ _ _ _ Tw T1 Hi S1) as R1. pose proof (image_sector n _ _ _ _ _ _ _ _ Tw T2 Hi S2) as R2. split.
  - intros p. apply sector_iff. split; [exact (pow_sector n _ _ _ _ _ _ Hw C1 Hr R1 p)|exact (pow_sector n _ _ _ _ _ _ Hw C2 Hr R2 p)].
  - intros z g Hg. pose proof (fock_green_sector n _ _ _ _ _ _ _ _ Hw C1 Hr R1 Hg) as (x & X1 & X2 & X3). pose proof (fock_green_sector n _ _ _ _ _ _ _ _ Hw C2 Hr R2 Hg) as (y & Y1 & Y2 & Y3).
    exists x. split; [exact X1|]. split; [|exact X3]. apply sector_iff. split; [exact X2|]. destruct Hg as (u & _ & _ & Hu). intros t Ht Hne. apply Y2; auto. rewrite (Hu y Y1 t Ht), <- (Hu x X1 t Ht). exact Hne.
Qed.
(* the hamiltonian *)
Lemma total_sector fint hp g (h : op_t F) : (forall h0, g = Ok h0 -> NoDup (dkeys h0) /\ conserves q_N h0 /\ conserves (q_shell 1) h0) -> total_hamiltonian fsqrt pi gaunt fint nb hp g = Ok h ->
  wf_op n h /\ conserves (at_index nb q_N) h /\ conserves (at_index nb (q_shell 1)) h.
Proof.
  intros Hg E. split; [eapply total_wf; eauto|]. split.
  - apply (total_shell nb W fsqrt pi gaunt q_N fN hN fint hp g); auto. intros h0 E0. destruct (Hg h0 E0) as (A & B & C). auto.
  - apply (total_shell nb W fsqrt pi gaunt (q_shell 1) (fS 1) (hS 1) fint hp g); auto. intros h0 E0. destruct (Hg h0 E0) as (A & B & C). auto.
Qed.
Lemma CF_sector fint nv hp p b (h : op_t F) : get_hamiltonian_operator_using_CF fsqrt pi gaunt fint nb nv hp p b = Ok h ->
  wf_op n h /\ conserves (at_index nb q_N) h /\ conserves (at_index nb (q_shell 1)) h.
Proof.
  intros E. eapply total_sector; [|exact E]. intros h0 E0. split; [|split].
  - eapply (CF_shell nb fsqrt q_N); [|exact E0]. intros; reflexivity.
  - eapply (CF_shell nb fsqrt q_N); [|exact E0]. intros; reflexivity.
  - eapply (CF_shell nb fsqrt (q_shell 1)); [|exact E0]. intros [l s m|k b0] H; cbn in *; [subst l; reflexivity|reflexivity].
Qed.
End T.

Section Run.
Context {F : ofield}.
Variables fsqrt arccos fsin : F -> F.
Variables k_B pi : F.
Variable gaunt : Z -> Z -> Z -> Z -> Z -> Z -> F.
Variable jn : Z -> F -> F.
Variable sph : Z -> Z -> F -> F -> cx F.
Variable eigh : nat -> M_Hamiltonian.mat F -> res (list F * list (list (cx F))).
Variable eigsh : nat -> M_Hamiltonian.mat F -> Z -> res (list F * list (list (cx F))).
Variable argsort : list F -> list nat.
Variable R : nat.
Lemma main_sector hamiltonian (a : @args F) su es psis Nc nd t : sound_args a -> main_setup hamiltonian a = Ok su -> run_states k_B eigh eigsh argsort R a su es psis ->
  a_ls a = [1; 2] -> a_n0imps a = [Nc; nd] -> a_dnTols a = 0 :: t ->
  let nb := nbaths_of (su_nBaths su) in let N := Nc + nd + zsum (a_nValBaths a) in
  (forall nv hp h, hamiltonian nb nv hp = Ok h -> wf_op (n_orb nb) h /\ conserves (at_index nb q_N) h /\ conserves (at_index nb (q_shell 1)) h) ->
  forall psi, In psi psis -> sector nb N Nc (amp psi) /\
  forall ops dN dNc tOp psiR h swm, transition_ops fsqrt arccos fsin pi gaunt jn sph nb ops dN dNc -> In tOp ops -> cut_image (n_orb nb) tOp (Some (su_rs su)) swm psi psiR ->
    restricted_op (n_orb nb) (su_hOp su) (Some (su_rs su)) h ->
    (forall p, sector nb (N + dN) (Nc + dNc) (fpow (n_orb nb) h p psiR)) /\
    forall z g, fock_green (n_orb nb) z h psiR g ->
      exists x, fock_solves (n_orb nb) z h x psiR /\ sector nb (N + dN) (Nc + dNc) x /\ csum (fun t => cconj (amp psiR t) * x t)%C (allcfg (n_orb nb)) = g.
Proof.
  intros HS Es Hr El En Et nb N HH psi Hpsi.
  assert (S0 : sector nb N Nc (amp psi)).
  { unfold N. replace (Nc + nd) with (zsum (a_n0imps a)) by (rewrite En; cbn; lia). eapply (run_sector _ _ _ _ _ _ _ _ _ _ _ 0); eauto; [rewrite El|rewrite Et|rewrite En]; reflexivity. }
  split; [exact S0|]. intros ops dN dNc tOp psiR h swm HT Hi Hc Hres. destruct (setup_nBaths _ _ _ Es) as (Ed & nv & hp & Eh).
  pose proof (d_shells a HS) as Hsh. assert (Hnb : nb = nbaths_of (ordered (a_ls a) (a_nBaths a))) by (unfold nb; rewrite Ed; reflexivity). rewrite <- Hnb in Eh.
  destruct (HH _ _ _ Eh) as (H1 & H2 & H3). assert (W : wf_nbaths nb) by (rewrite Hnb; apply wf_nb; auto). assert (Hang : NoDup (angs nb)) by (rewrite Hnb, angs_nb by auto; apply Hsh).
  assert (Hk : dkeys nb = [KInt 1; KInt 2]). { rewrite Hnb. pose proof (d_keys a HS) as D. unfold nbaths_of, dkeys in *. rewrite map_map. cbn [fst]. rewrite <- (map_map fst KInt), D, El. reflexivity. }
  pose proof (transitions nb W fsqrt arccos fsin pi gaunt jn sph ops dN dNc Hk HT) as Tr. rewrite Forall_forall in Tr. destruct (Tr tOp Hi) as (T1 & T2 & T3).
  exact (final_sector nb W Hang _ _ _ _ _ _ _ _ _ _ _ _ H1 H2 H3 Hres T1 T2 T3 S0 Hc).
Qed.
Lemma CF_run_sector fint parameters b (a : @args F) su es psis Nc nd t : sound_args a -> main_setup (fun nb nv hp => get_hamiltonian_operator_using_CF fsqrt pi gaunt fint nb nv hp parameters b) a = Ok su ->
  run_states k_B eigh eigsh argsort R a su es psis ->
  a_ls a = [1; 2] -> a_n0imps a = [Nc; nd] -> a_dnTols a = 0 :: t ->
  let nb := nbaths_of (su_nBaths su) in let N := Nc + nd + zsum (a_nValBaths a) in
  forall psi, In psi psis -> sector nb N Nc (amp psi) /\
  forall ops dN dNc tOp psiR h swm, transition_ops fsqrt arccos fsin pi gaunt jn sph nb ops dN dNc -> In tOp ops -> cut_image (n_orb nb) tOp (Some (su_rs su)) swm psi psiR ->
    restricted_op (n_orb nb) (su_hOp su) (Some (su_rs su)) h ->
    (forall p, sector nb (N + dN) (Nc + dNc) (fpow (n_orb nb) h p psiR)) /\
    forall z g, fock_green (n_orb nb) z h psiR g ->
      exists x, fock_solves (n_orb nb) z h x psiR /\ sector nb (N + dN) (Nc + dNc) x /\ csum (fun t => cconj (amp psiR t) * x t)%C (allcfg (n_orb nb)) = g.
Proof.
  intros HS Es Hr El En Et. eapply main_sector; eauto. intros nv hp h. cbv beta. intros E. eapply CF_sector; [|exact E].
  destruct (setup_nBaths _ _ _ Es) as (Ed & _). rewrite Ed. apply wf_nb, d_shells. exact HS.
Qed.
Lemma pickle_run_sector fint h0 (a : @args F) su es psis Nc nd t : sound_args a -> main_setup (fun nb _ hp => get_hamiltonian_operator fsqrt pi gaunt fint nb hp h0) a = Ok su ->
  run_states k_B eigh eigsh argsort R a su es psis ->
  a_ls a = [1; 2] -> a_n0imps a = [Nc; nd] -> a_dnTols a = 0 :: t -> NoDup (dkeys h0) -> conserves q_N h0 -> conserves (q_shell 1) h0 ->
  let nb := nbaths_of (su_nBaths su) in let N := Nc + nd + zsum (a_nValBaths a) in
  forall psi, In psi psis -> sector nb N Nc (amp psi) /\
  forall ops dN dNc tOp psiR h swm, transition_ops fsqrt arccos fsin pi gaunt jn sph nb ops dN dNc -> In tOp ops -> cut_image (n_orb nb) tOp (Some (su_rs su)) swm psi psiR ->
    restricted_op (n_orb nb) (su_hOp su) (Some (su_rs su)) h ->
    (forall p, sector nb (N + dN) (Nc + dNc) (fpow (n_orb nb) h p psiR)) /\
    forall z g, fock_green (n_orb nb) z h psiR g ->
      exists x, fock_solves (n_orb nb) z h x psiR /\ sector nb (N + dN) (Nc + dNc) x /\ csum (fun t => cconj (amp psiR t) * x t)%C (allcfg (n_orb nb)) = g.
Proof.
  intros HS Es Hr El En Et K1 K2 K3. eapply main_sector; eauto. intros nv hp h. cbv beta. intros E. eapply total_sector; [| |exact E].
  - destruct (setup_nBaths _ _ _ Es) as (Ed & _). rewrite Ed. apply wf_nb, d_shells. exact HS.
  - intros h1 E1. injection E1 as <-. auto.
Qed.
End Run.
