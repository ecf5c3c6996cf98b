(* Waiting ranks are explained: the whole program. *)
From Coq Require Import String.
From Verif Require Import M_Prelude M_Scalar M_PSR M_Ladder M_State M_Mpi M_Hamiltonian M_Lanczos M_Basis M_Average M_Expect M_Operators.
From Verif Require Import M_Spectra M_Simulate M_RIXS M_Main M_Program S_Program L_Hang L_Length L_Hang2 L_RIXS4 L_Hang3.
Local Open Scope Z_scope.

Lemma expl_zip A B C (f : A -> B -> res C) a : (forall x y, nd (f x y)) -> forall b, length a = length b -> explained a -> explained b ->
  explained (map (fun rr => do x <- fst rr; do y <- snd rr; f x y) (combine a b)).
Proof.
  intros Hf b L Ea Eb Hd. apply in_map_iff in Hd as ([x y] & Ed & Hi). cbn [fst snd] in Ed.
  assert (K : forall e, e <> Deadlock -> In (Err e) a -> exists e', e' <> Deadlock /\ In (Err e') (map (fun rr : res A * res B => do x <- fst rr; do y <- snd rr; f x y) (combine a b))).
  { clear -L. intros e Hn He. exists e. split; [exact Hn|]. revert b L. induction a as [|z a IH]; intros [|u b] L; try discriminate; [destruct He|].
    cbn. destruct He as [->|He]; [left; reflexivity|]. right. apply IH; auto. }
  destruct x as [x|ex]; cbn in Ed.
  - destruct y as [y|ey]; [destruct (Hf _ _ Ed)|]. cbn in Ed. injection Ed as ->. apply in_combine_r in Hi.
    destruct (Eb Hi) as (e & Hn & He). apply In_nth_error in He as (j & Hj).
    destruct (nth_error a j) as [aj|] eqn:Ej.
    2: { apply nth_error_None in Ej. assert (j < length b)%nat by (apply nth_error_Some; congruence). lia. }
    destruct aj as [xj|ej].
    + exists e. split; [exact Hn|]. apply in_map_iff. exists (Ok xj, Err e). split; [reflexivity|]. clear -Ej Hj. revert b j Ej Hj.
      induction a as [|z a IH]; intros [|u b] [|j] Ej Hj; try discriminate; cbn in *; [left; congruence|right; eauto].
    + apply nth_error_In in Ej. destruct (expl_genuine _ _ _ Ea Ej) as (e' & Hn' & He'). eapply K; eauto.
  - injection Ed as ->. apply in_combine_l in Hi. destruct (Ea Hi) as (e & Hn & He). eapply K; eauto.
Qed.
Section A.
Context {F : ofield}.
Variables fsqrt fexp arccos fsin f32 : F -> F.
Variables k_B pi : F.
Variable fint : F -> Z.
Variable gaunt : Z -> Z -> Z -> Z -> Z -> Z -> F.
Variable spherical_jn : Z -> F -> F.
Variable sph_harm : Z -> Z -> F -> F -> cx F.
Variable bicgstab : list (vec F) -> vec F -> vec F.
Variable eigh : nat -> M_Hamiltonian.mat F -> res (list F * list (list (cx F))).
Variable eigsh : nat -> M_Hamiltonian.mat F -> Z -> res (list F * list (list (cx F))).
Variable argsort : list F -> list nat.
Variable fuel : nat.
Variable ord : nat -> nat -> nat -> nat -> set_order.
Variable ranks : nat.
Hypothesis eigh_nd : forall N h, eigh N h <> Err Deadlock.
Hypothesis eigsh_nd : forall N h k, eigsh N h k <> Err Deadlock.

Definition oexpl (o : outcome F) : Prop := explained (snd o).
Lemma stage_expl outs next : explained outs -> oexpl next -> oexpl (stage outs next).
Proof. intros H N. unfold stage, oexpl. destruct (forallb is_ok outs) eqn:E; cbn [snd]; [exact N|apply expl_stopped; auto]. Qed.
Lemma last_expl outs : explained outs -> oexpl (@last_stage F outs).
Proof. intros H. unfold last_stage, oexpl. cbn [snd]. apply expl_bind; [discriminate|exact H]. Qed.
Lemma with_ops_expl A B (ops : res A) (f : A -> list (res B)) : nd ops -> (forall o, explained (f o)) -> explained (with_ops ranks ops f).
Proof. intros H Hf. destruct ops; cbn; [apply Hf|]. apply expl_repeat. intros E. injection E as ->. auto. Qed.
Lemma report_nd es T name mesh nT gs : nd (report fexp k_B es T name mesh nT gs).
Proof. unfold report. cbv zeta. apply exn_nd. apply exn_bind; [apply exn_avg|]. intros a. apply exn_bind; [apply exn_columns|]. intros; apply exn_Ok. Qed.
Lemma spectra_stage_expl nBaths rs hOp es psis T d dN dR ms li lj radial :
  oexpl (simulate_spectra fsqrt fexp arccos fsin f32 k_B pi gaunt spherical_jn sph_harm bicgstab fuel ord ranks nBaths rs hOp es psis T d dN dR ms li lj radial).
Proof.
  unfold simulate_spectra. apply stage_expl; [|apply stage_expl; [|apply stage_expl; [|apply stage_expl; [|apply last_expl]]]].
  - unfold part_PS. apply with_ops_expl.
    + apply exn_nd, exn_bind; [apply exn_pes|]. intros. apply exn_bind; [apply exn_pes|]. intros; apply exn_Ok.
    + intros o. apply expl_zip; [intros; apply report_nd| |apply spectra_expl|apply spectra_expl]. unfold getSpectra_call. rewrite !hb_len. reflexivity.
  - unfold part_XPS. apply with_ops_expl; [apply exn_nd, exn_pes|]. intros o. apply expl_bind; [intros; apply report_nd|apply spectra_expl].
  - unfold part_NIXS. apply with_ops_expl; [apply exn_nd, exn_nixs|]. intros o. apply expl_bind; [intros; apply report_nd|apply spectra_expl].
  - unfold part_XAS. apply with_ops_expl; [apply exn_nd, exn_dips|]. intros o. apply expl_bind; [intros; apply report_nd|apply spectra_expl].
  - unfold part_RIXS. apply with_ops_expl.
    + apply exn_nd, exn_bind; [apply exn_dips|]. intros. apply exn_bind; [apply exn_ddips|]. intros; apply exn_Ok.
    + intros o. apply expl_bind; [|apply RIXS_expl]. intros gs. unfold report_RIXS. cbv zeta. apply exn_nd, exn_bind; [apply exn_avg|]. intros. apply exn_bind; [apply exn_rixs|]. intros; apply exn_Ok.
Qed.
Lemma outputs_nd (l : list (res (output F))) : Forall nd l -> nd (snd (outputs l)).
Proof.
  induction 1 as [|[o|e] l H Hl IH]; cbn [outputs]; [discriminate| |].
  - destruct (outputs l) as [os r]. exact IH.
  - intros E. cbn in E. injection E as ->. auto.
Qed.
Lemma prints_nd a ms radial nb es psis : nd (snd (rank0_prints fsqrt fexp k_B argsort a ms radial nb es psis)).
Proof.
  unfold rank0_prints. apply outputs_nd. repeat (apply Forall_cons || apply Forall_nil); try discriminate; apply exn_nd, exn_rmap;
  [apply exn_thermal|apply exn_print|apply exn_weights|apply exn_density].
Qed.
Lemma main_expl hamiltonian ms a radial : (forall nb nv hp, hamiltonian nb nv hp <> Err Deadlock) ->
  oexpl (main fsqrt fexp arccos fsin f32 k_B pi gaunt spherical_jn sph_harm bicgstab eigh eigsh argsort fuel ord ranks hamiltonian ms a radial).
Proof.
  intros Hh. unfold main.
  assert (S : nd (main_setup hamiltonian a)).
  { unfold main_setup. cbv zeta. apply nd_bind; [apply exn_nd, exn_restrictions|]. intros rs. apply nd_bind.
    - unfold hField3. destruct (a_hField a) as [|x [|y [|z [|]]]]; discriminate.
    - intros [[hx hy] hz]. apply nd_bind; [apply Hh|]. intros h. apply nd_bind; [apply exn_nd, exn_get_basis|]. discriminate. }
  destruct (main_setup hamiltonian a) as [su|e]; [|apply expl_repeat; intros E; injection E as ->; auto]. cbv zeta.
  match goal with |- context [eigensystem ?a ?b ?c ?d ?e ?f ?g ?h ?i ?j] => pose proof (eigensystem_expl a b c eigh_nd eigsh_nd d e f g h i j) as E; set (outs := eigensystem a b c d e f g h i j) in * end.
  destruct outs as [|[[es psis]|e] others] eqn:Eo.
  - apply expl_nil.
  - destruct (forallb is_ok others) eqn:Ok1.
    + destruct (rank0_prints _ _ _ _ _ _ _ _ _ _) as [printed r0] eqn:Er.
      pose proof (prints_nd a ms radial (nbaths_of (su_nBaths su)) es psis) as P. rewrite Er in P. cbn [snd] in P.
      set (rr := r0 :: _). destruct (forallb is_ok rr) eqn:Ok2.
      * pose proof (exn_low es psis (a_energy_cut a * (k_B * a_T a))%F) as L. destruct (low_energy _ _ _) as [[es' psis']|e].
        -- match goal with |- context [let (_, _) := ?x in _] => pose proof (spectra_stage_expl (su_nBaths su) (su_rs su) (su_hOp su) es' psis' (a_T a) (a_delta a) (a_deltaNIXS a) (a_deltaRIXS a) ms 2 2 (map (fun rR => (fst rR, (creal (snd rR), creal (snd rR)))) radial)) as X; destruct x as [files ends] eqn:Es end.
           exact X.
        -- unfold oexpl. cbn [snd]. apply expl_repeat. intros E'. injection E' as ->. destruct L. auto.
      * unfold oexpl. cbn [snd]. apply expl_stopped; [|exact Ok2]. apply expl_nd. constructor; [exact P|]. apply Forall_map, Forall_forall. intros x _. apply exn_nd, exn_occ.
    + unfold oexpl. cbn [snd]. apply expl_stopped; [exact E|]. cbn. exact Ok1.
  - unfold oexpl. cbn [snd]. apply expl_stopped; [exact E|]. reflexivity.
Qed.
(* ---- the two Hamiltonians ---- *)
Lemma exn_dc a b c d e f : exn (dc_MLFT fint a b c d e f).
Proof. unfold dc_MLFT. ex. Qed.
Lemma exn_to_index nb (op : sop_t F) : exn (to_index nb op).
Proof. unfold to_index. ex. Qed.
Lemma exn_assert_herm (op : op_t F) : exn (assert_hermitian op).
Proof. unfold assert_hermitian, daggerOp, dagger_process. ex. Qed.
Lemma exn_total_h nb hp h : exn h -> exn (total_hamiltonian fsqrt pi gaunt fint nb hp h).
Proof. intros H. unfold total_hamiltonian, eDCop. ex; auto using exn_dc, exn_to_index, exn_assert_herm. Qed.
Lemma exn_CF nb nv p b : exn (get_CF_hamiltonian fsqrt nb nv p b).
Proof. unfold get_CF_hamiltonian. ex; auto using exn_u, exn_mget. Qed.
Lemma main_pickle_expl h0 a radial :
  oexpl (main_pickle fsqrt fexp arccos fsin f32 k_B pi fint gaunt spherical_jn sph_harm bicgstab eigh eigsh argsort fuel ord ranks h0 a radial).
Proof. apply main_expl. intros nb nv hp. apply exn_nd, exn_total_h, exn_Ok. Qed.
Lemma main_CF_expl params a radial :
  oexpl (main_CF fsqrt fexp arccos fsin f32 k_B pi fint gaunt spherical_jn sph_harm bicgstab eigh eigsh argsort fuel ord ranks params a radial).
Proof. apply main_expl. intros nb nv hp. apply exn_nd, exn_total_h, exn_CF. Qed.
(* ---- all ranks succeed or none ---- *)
Lemma aon_ok {A} (l : list (res A)) : forallb is_ok l = true -> all_or_none l.
Proof. intros H. left. rewrite forallb_forall in H. intros [a|e] Hr; [eauto|]. apply H in Hr. discriminate. Qed.
Lemma aon_err {A} (l : list (res A)) : Forall (fun x => is_ok x = false) l -> all_or_none l.
Proof. rewrite Forall_forall. intros H. right. intros [a|e] Hr; [apply H in Hr; discriminate|eauto]. Qed.
Lemma aon_stopped {A} (l : list (res A)) : all_or_none (stopped l).
Proof. right. intros r Hr. apply in_map_iff in Hr as ([a|e] & <- & _); eauto. Qed.
Lemma aon_repeat {A} (r : res A) k : all_or_none (repeat r k).
Proof. destruct r as [a|e]; [left|right]; intros x Hx; apply repeat_spec in Hx as ->; eauto. Qed.
Lemma aon_bind {A B} (f : A -> res B) l : ((exists a k, l = repeat (Ok a) k) \/ Forall (fun x => is_ok x = false) l) -> all_or_none (map (fun r => do x <- r; f x) l).
Proof.
  intros [(a & k & ->)|H].
  - rewrite map_repeat. apply aon_repeat.
  - apply aon_err, Forall_map. eapply Forall_impl; [|exact H]. intros [x|e] E; [discriminate|reflexivity].
Qed.
Lemma aon_unit {A} (l : list (res A)) : all_or_none l -> all_or_none (map (fun x => do _ <- x; Ok tt) l).
Proof. intros [H|H]; [left|right]; intros r Hr; apply in_map_iff in Hr as (x & <- & Hx); destruct (H _ Hx) as (y & ->); cbn; eauto. Qed.
Lemma stage_aon outs next : all_or_none (snd next) -> all_or_none (snd (@stage F outs next)).
Proof. intros H. unfold stage. destruct (forallb is_ok outs); [exact H|apply aon_stopped]. Qed.
Lemma spectra_aon nBaths rs hOp es psis T d dN dR ms li lj radial :
  all_or_none (snd (simulate_spectra fsqrt fexp arccos fsin f32 k_B pi gaunt spherical_jn sph_harm bicgstab fuel ord ranks nBaths rs hOp es psis T d dN dR ms li lj radial)).
Proof.
  unfold simulate_spectra. apply stage_aon, stage_aon, stage_aon, stage_aon. unfold last_stage. cbn [snd]. apply aon_unit. unfold part_RIXS, with_ops.
  match goal with |- context [match ?x with Ok _ => _ | Err _ => _ end] => destruct x as [o|e]; [|apply aon_repeat] end.
  apply aon_bind. match goal with |- context [getRIXSmap ?a ?b ?c ?d ?e ?f ?g ?h ?i ?j ?k ?l ?m ?n ?o ?p ?q ?r ?s] => 
    destruct (win_same a b c d e f g h i j k l m n o p q r s (or_intror eq_refl)) as [(gs & ->)|H] end; [left; eauto|right; exact H].
Qed.
Lemma main_aon hamiltonian ms a radial :
  all_or_none (snd (main fsqrt fexp arccos fsin f32 k_B pi gaunt spherical_jn sph_harm bicgstab eigh eigsh argsort fuel ord ranks hamiltonian ms a radial)).
Proof.
  unfold main. destruct (main_setup hamiltonian a) as [su|e]; [|apply aon_repeat]. cbv zeta.
  match goal with |- context [match ?x with [] => _ | _ => _ end] => destruct x as [|[[es psis]|e] others] end; [apply aon_stopped| |apply aon_stopped].
  destruct (forallb is_ok others); [|apply aon_stopped].
  destruct (rank0_prints _ _ _ _ _ _ _ _ _ _) as [printed r0]. set (rr := r0 :: _). destruct (forallb is_ok rr); [|apply aon_stopped].
  destruct (low_energy _ _ _) as [[es' psis']|e]; [|apply aon_repeat].
  match goal with |- context [let (_, _) := ?x in _] => pose proof (spectra_aon (su_nBaths su) (su_rs su) (su_hOp su) es' psis' (a_T a) (a_delta a) (a_deltaNIXS a) (a_deltaRIXS a) ms 2 2 (map (fun rR => (fst rR, (creal (snd rR), creal (snd rR)))) radial)) as X; destruct x as [files ends] end.
  exact X.
Qed.
(* ---- one end for every rank ---- *)
Lemma eigen_len R n op b k mode swm : length (eigensystem eigh eigsh argsort R n op b k mode swm) = R.
Proof. unfold eigensystem. cbn [get_hamiltonian_matrix]. unfold ham_sparse_MPI. now rewrite map_length, enumerate_len, map_length, bcast_len, map_length, seq_length. Qed.
Lemma stopped_len {A} (l : list (res A)) : length (stopped l) = length l.
Proof. apply map_length. Qed.
Lemma with_ops_len A B (ops : res A) (f : A -> list (res B)) : (forall o, length (f o) = ranks) -> length (with_ops ranks ops f) = ranks.
Proof. intros H. destruct ops; cbn; [apply H|apply repeat_length]. Qed.
Lemma stage_len outs next : length outs = ranks -> length (snd next) = ranks -> length (snd (@stage F outs next)) = ranks.
Proof. intros H N. unfold stage. destruct (forallb is_ok outs); cbn [snd]; [exact N|now rewrite stopped_len]. Qed.
Lemma spectra_len nBaths rs hOp es psis T d dN dR ms li lj radial :
  length (snd (simulate_spectra fsqrt fexp arccos fsin f32 k_B pi gaunt spherical_jn sph_harm bicgstab fuel ord ranks nBaths rs hOp es psis T d dN dR ms li lj radial)) = ranks.
Proof.
  unfold simulate_spectra. apply stage_len; [|apply stage_len; [|apply stage_len; [|apply stage_len]]].
  - unfold part_PS. apply with_ops_len. intros o. rewrite map_length, combine_length. unfold getSpectra_call. rewrite !hb_len. apply Nat.min_id.
  - unfold part_XPS. apply with_ops_len. intros o. rewrite map_length. apply hb_len.
  - unfold part_NIXS. apply with_ops_len. intros o. rewrite map_length. apply hb_len.
  - unfold part_XAS. apply with_ops_len. intros o. rewrite map_length. apply hb_len.
  - unfold last_stage. cbn [snd]. rewrite map_length. unfold part_RIXS. apply with_ops_len. intros o. rewrite map_length, win_len by auto. apply repeat_length.
Qed.
Lemma main_len hamiltonian ms a radial :
  length (snd (main fsqrt fexp arccos fsin f32 k_B pi gaunt spherical_jn sph_harm bicgstab eigh eigsh argsort fuel ord ranks hamiltonian ms a radial)) = ranks.
Proof.
  unfold main. destruct (main_setup hamiltonian a) as [su|e]; [|apply repeat_length]. cbv zeta.
  match goal with |- context [eigensystem ?a ?b ?c ?d ?e ?f ?g ?h ?i ?j] => pose proof (eigen_len d e f g h i j) as E; set (outs := eigensystem a b c d e f g h i j) in * end.
  destruct outs as [|[[es psis]|e] others] eqn:Eo; [exact E| |cbn [snd]; now rewrite stopped_len].
  destruct (forallb is_ok others); [|cbn [snd]; now rewrite stopped_len].
  destruct (rank0_prints _ _ _ _ _ _ _ _ _ _) as [printed r0]. set (rr := r0 :: _). 
  assert (L : length rr = ranks) by (unfold rr; cbn [length] in *; now rewrite map_length).
  destruct (forallb is_ok rr); [|cbn [snd]; now rewrite stopped_len].
  destruct (low_energy _ _ _) as [[es' psis']|e]; [|apply repeat_length].
  match goal with |- context [let (_, _) := ?x in _] => pose proof (spectra_len (su_nBaths su) (su_rs su) (su_hOp su) es' psis' (a_T a) (a_delta a) (a_deltaNIXS a) (a_deltaRIXS a) ms 2 2 (map (fun rR => (fst rR, (creal (snd rR), creal (snd rR)))) radial)) as X; destruct x as [files ends] end.
  exact X.
Qed.
End A.
Lemma one_rank {A} (ends : list (res A)) : explained ends -> length ends = 1%nat -> ~ In (Err Deadlock) ends.
Proof.
  intros H L Hd. destruct (H Hd) as (e & Hn & He). destruct ends as [|x [|]]; try discriminate. cbn in *. destruct Hd as [->|[]], He as [He|[]]. congruence.
Qed.
Lemma main_ends {F : ofield} fsqrt fexp arccos fsin f32 k_B pi gaunt jn sph bicgstab eigh eigsh argsort fuel ord ranks hamiltonian ms (a : @args F) radial :
  let ends := snd (main fsqrt fexp arccos fsin f32 k_B pi gaunt jn sph bicgstab eigh eigsh argsort fuel ord ranks hamiltonian ms a radial) in
  length ends = ranks /\ all_or_none ends.
Proof. split; [apply main_len|apply main_aon]. Qed.
Lemma main_one {F : ofield} fsqrt fexp arccos fsin f32 k_B pi gaunt jn sph bicgstab eigh eigsh argsort fuel ord hamiltonian ms (a : @args F) radial :
  (forall N h, eigh N h <> Err Deadlock) -> (forall N h k, eigsh N h k <> Err Deadlock) -> (forall nb nv hp, hamiltonian nb nv hp <> Err Deadlock) ->
  ~ In (Err Deadlock) (snd (main fsqrt fexp arccos fsin f32 k_B pi gaunt jn sph bicgstab eigh eigsh argsort fuel ord 1 hamiltonian ms a radial)).
Proof. intros H1 H2 H3. apply one_rank; [apply main_expl; auto|apply main_len]. Qed.
