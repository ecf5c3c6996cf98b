(* Matrix elements of the outgoing dipole operators and well-formed Hamiltonians, for the independence of the number of ranks *)
From Coq Require Import Lia List Bool Permutation Field Ring String.
From Verif Require Import M_Prelude M_Scalar M_PSR M_Ladder M_State M_Mpi M_Hamiltonian M_Lanczos M_Basis M_Average M_Expect M_Operators M_Spectra M_Simulate M_RIXS M_Main M_Program
  S_Fock S_Basis S_Ham S_Ops S_Expect S_Green S_Spectra S_Main S_Program
  L_PSR L_Ladder L_Scalar L_Dict L_Sum L_Fock L_State L_Ops L_Ham L_Index L_RIXS L_Main L_Program4.
Import ListNotations.
Local Open Scope Z_scope.

(* ---- transfer of one electron between different orbitals ---- *)
Definition hop_key (p : process) : Prop := exists i j, p = [(i, lab_c); (j, lab_a)] /\ i <> j /\ 0 <= i /\ 0 <= j.
Lemma hop_elem i j t s : 0 <= i -> 0 <= j -> i <> j -> pelem [(i, lab_c); (j, lab_a)] t s <> 0 ->
  (pelem [(i, lab_c); (j, lab_a)] t s = 1 \/ pelem [(i, lab_c); (j, lab_a)] t s = -1) /\
  (forall k, nth_error s k = Some false /\ nth_error t k = Some true <-> k = Z.to_nat i) /\
  (forall k, nth_error s k = Some true /\ nth_error t k = Some false <-> k = Z.to_nat j).
Proof.
  intros Hi Hj Hne. assert (Hn : Z.to_nat i <> Z.to_nat j) by lia. set (a := Z.to_nat i) in *. set (b := Z.to_nat j) in *.
  unfold pelem. cbn [proc_act lad snd fst Ascii.eqb lab_a lab_c]. change (lad (j, lab_a) s) with (ann b s). unfold ann.
  destruct (nth_error s b) as [[]|] eqn:Eb; try congruence. change (lad (i, lab_c) (upd s b false)) with (cre a (upd s b false)). unfold cre.
  pose proof (upd_lt Eb) as Lb. rewrite nth_error_upd_other by auto. destruct (nth_error s a) as [[]|] eqn:Ea; try congruence. pose proof (upd_lt Ea) as La.
  match goal with |- context [list_eqb t ?X] => destruct (list_eqb_spec t X) as [Et|] end; [|congruence]. intros _.
  split; [destruct (jw_sign_cases a (upd s b false)) as [-> | ->], (jw_sign_cases b s) as [-> | ->]; auto|].
  assert (Ht : forall k, nth_error t k = if Nat.eqb k a then Some true else if Nat.eqb k b then Some false else nth_error s k).
  { intros k. rewrite Et. destruct (Nat.eqb_spec k a) as [->|Ka]; [apply nth_error_upd_same; rewrite upd_length; auto|]. rewrite nth_error_upd_other by (auto; rewrite upd_length; auto).
    destruct (Nat.eqb_spec k b) as [->|Kb]; [apply nth_error_upd_same; auto|]. apply nth_error_upd_other; auto. }
  split; intros k; rewrite Ht; destruct (Nat.eqb_spec k a) as [Ka|Ka]; [| destruct (Nat.eqb_spec k b) as [Kb|Kb] | | destruct (Nat.eqb_spec k b) as [Kb|Kb]]; split; intros H; try (subst k; split; congruence); try (destruct H; congruence); try congruence.
Qed.
Section Small.
Context {F : ofield}.
Add Field Ff : (f_field F).
Add Ring Cring : (@c_ring F).
Lemma csum_one (op : op_t F) (f : process -> Z) : NoDup (dkeys op) ->
  (forall p p', In p (dkeys op) -> In p' (dkeys op) -> f p <> 0 -> f p' <> 0 -> p = p') ->
  csum (fun ph => snd ph * cofZ (f (fst ph)))%C op = c0 \/ exists p v, In (p, v) op /\ f p <> 0 /\ csum (fun ph => snd ph * cofZ (f (fst ph)))%C op = (v * cofZ (f p))%C.
Proof.
  induction op as [|[p v] op IH]; intros Hn H; [left; reflexivity|]. cbn [dkeys map fst] in Hn. inversion Hn as [|? ? H1 H2]; subst. cbn [csum fst snd].
  destruct (Z.eq_dec (f p) 0) as [E0|E0].
  - destruct IH as [E|(p' & v' & Hi & Hf & E)]; auto; [intros; apply H; auto; right; auto| |].
    + left. rewrite E, E0, cofZ_0. ring.
    + right. exists p', v'. split; [right; auto|]. split; [auto|]. rewrite E, E0, cofZ_0. ring.
  - right. exists p, v. split; [left; auto|]. split; [auto|]. assert (E : csum (fun ph => snd ph * cofZ (f (fst ph)))%C op = c0).
    { apply csum_zero. intros [p' v'] Hi. cbn [fst snd]. destruct (Z.eq_dec (f p') 0) as [E1|E1]; [rewrite E1, cofZ_0; ring|].
      exfalso. apply H1. rewrite (H p p'); auto; [|left; auto|right; apply (in_map fst) in Hi; auto]. apply (in_map fst) in Hi. auto. }
    rewrite E. ring.
Qed.
Lemma hop_no_small n (op : op_t F) swm rs : wf_op n op -> Forall (fun pv => hop_key (fst pv) /\ (swm <= cabs2 (snd pv))%F) op -> no_small n op swm rs.
Proof.
  intros [Hn _] Hk s t _ _ _. rewrite Forall_forall in Hk.
  assert (K : forall p, In p (dkeys op) -> hop_key p). { intros p Hp. apply in_map_iff in Hp as (pv & <- & Hp). apply Hk; auto. }
  destruct (csum_one op (fun p => pelem p t s) Hn) as [E|(p & v & Hi & Hf & E)].
  - intros p p' Hp Hp' H1 H2. destruct (K p Hp) as (i & j & -> & Hne & L1 & L2). destruct (K p' Hp') as (i' & j' & -> & Hne' & L1' & L2').
    destruct (hop_elem i j t s L1 L2 Hne H1) as (_ & A1 & A2). destruct (hop_elem i' j' t s L1' L2' Hne' H2) as (_ & B1 & B2).
    assert (Z.to_nat i = Z.to_nat i') by (apply B1, A1; reflexivity). assert (Z.to_nat j = Z.to_nat j') by (apply B2, A2; reflexivity).
    assert (i = i') by lia. assert (j = j') by lia. congruence.
  - left. exact E.
  - right. change (opelem op t s) with (csum (fun ph => snd ph * cofZ (pelem (fst ph) t s))%C op). rewrite E, cabs2_mul. destruct (Hk _ Hi) as [(i & j & Ep & Hne & L1 & L2) Hv]. cbn [fst snd] in *.
    subst p. destruct (hop_elem i j t s L1 L2 Hne Hf) as ([-> | ->] & _); [rewrite cofZ_1|rewrite cofZ_m1].
    + replace (cabs2 v * cabs2 c1)%F with (cabs2 v); [exact Hv|]. unfold c1, cabs2. simpl. ring.
    + replace (cabs2 v * cabs2 (- c1)%C)%F with (cabs2 v); [exact Hv|]. unfold c1, cabs2. simpl. ring.
Qed.
Variable nb : nbaths_t.
Hypothesis W : wf_nbaths nb.
Variable fsqrt : F -> F.
Variable pi : F.
Variable gaunt : Z -> Z -> Z -> Z -> Z -> Z -> F.
Lemma hop_dset (op : op_t F) p v : Forall (fun pv => hop_key (fst pv)) op -> hop_key p -> Forall (fun pv => hop_key (fst pv)) (dset op p v).
Proof.
  intros H Hp. apply Forall_forall. intros [p' v'] Hi. cbn [fst]. apply (in_map fst) in Hi. cbn [fst] in Hi. change (map fst (dset op p v)) with (dkeys (dset op p v)) in Hi. apply in_dkeys_dset in Hi as [->|Hi]; auto.
  unfold dkeys in Hi. apply in_map_iff in Hi as ([p2 v2] & <- & Hi). rewrite Forall_forall in H. apply (H _ Hi).
Qed.
Lemma c2i_coord x i : c2i nb x = Ok i -> coord_ok nb x /\ i = coord_index nb x.
Proof. intros E. destruct (coord_dec nb x) as [H|H]; [|rewrite c2i_err in E by auto; discriminate]. rewrite c2i_ok in E by auto. split; [auto|congruence]. Qed.
Lemma dip_hops v (op : op_t F) : getDipoleOperator fsqrt pi gaunt nb v = Ok op -> Forall (fun pv => hop_key (fst pv)) op.
Proof.
  unfold getDipoleOperator. destruct (py_nth v 0) as [n0|]; [|discriminate]. cbn [bind]. destruct (py_nth v 1) as [n1|]; [|discriminate]. cbn [bind].
  destruct (py_nth v 2) as [n2|]; [|discriminate]. cbn [bind]. destruct (dkeys nb) as [|k1 [|k2 [|]]] eqn:Ek; try discriminate. destruct k2 as [l2|], k1 as [l1|]; try discriminate.
  assert (Hll : l2 <> l1). { destruct W as (Hn & _). rewrite Ek in Hn. inversion Hn as [|? ? H1 _]; subst. intros ->. apply H1. left. reflexivity. }
  apply (fold_res_inv' _ (Forall (fun pv => hop_key (fst pv)))); [|constructor]. intros s1 m s2 H1 _. revert H1. apply (fold_res_inv' _ (Forall (fun pv => hop_key (fst pv)))). clear s1 s2.
  intros s1 mp s2 H1 _. revert H1. apply (fold_res_inv' _ (Forall (fun pv => hop_key (fst pv)))). clear s1 s2. intros s1 s s2 H1 _.
  destruct (Z.abs (m - mp) <=? 1); [|congruence]. destruct (pol _ _ _ _ _) as [nd|]; [|discriminate]. cbn [bind]. destruct (negb _); [|congruence].
  destruct (c2i nb (SImp _ s m)) as [i|] eqn:Ei; [|discriminate]. cbn [bind]. destruct (c2i nb (SImp _ s mp)) as [j|] eqn:Ej; [|discriminate]. cbn [bind]. intros E. injection E as <-.
  apply hop_dset; auto. exists i, j. split; [reflexivity|]. pose proof (c2i_range _ _ _ W Ei). pose proof (c2i_range _ _ _ W Ej).
  apply c2i_coord in Ei as [Ci ->]. apply c2i_coord in Ej as [Cj ->]. split; [|lia]. intros E. apply (coord_index_inj nb) in E; auto. injection E as E. congruence.
Qed.
Lemma ddip_hops vs (ops : list (op_t F)) : getDaggeredDipoleOperators fsqrt pi gaunt nb vs = Ok ops -> Forall (Forall (fun pv => hop_key (fst pv))) ops.
Proof.
  unfold getDaggeredDipoleOperators. intros E. eapply map_res_all; [|exact E]. intros v d _ Hd. cbn beta in Hd.
  destruct (getDipoleOperator fsqrt pi gaunt nb v) as [op|] eqn:Ed; [|discriminate]. cbn [bind] in Hd. pose proof (dip_hops _ _ Ed) as Hh.
  apply daggerOp_ok_inv in Hd as [_ ->]; [|eapply dip_wf; eauto]. unfold dagl. apply Forall_forall. intros pv Hi. apply in_map_iff in Hi as ([p x] & <- & Hi). rewrite Forall_forall in Hh.
  destruct (Hh _ Hi) as (i & j & Ep & Hne & L1 & L2). cbn [fst] in *. subst p. exists j, i. split; [reflexivity|]. auto.
Qed.
Lemma ddip_no_small vs op0 ops swm rs : getDaggeredDipoleOperators fsqrt pi gaunt nb vs = Ok (op0 :: ops) -> Forall (fun pv => (swm <= cabs2 (snd pv))%F) op0 -> no_small (n_orb nb) op0 swm rs.
Proof.
  intros E Hv. apply hop_no_small; [pose proof (ddips_wf nb W _ _ _ _ _ E) as H; inversion H; auto|].
  pose proof (ddip_hops _ _ E) as H. apply Forall_inv in H. rewrite Forall_forall in *. auto.
Qed.
(* ---- the Hamiltonian ---- *)
Lemma total_wf (fint : F -> Z) hp h0 (h : op_t F) : total_hamiltonian fsqrt pi gaunt fint nb hp h0 = Ok h -> wf_op (n_orb nb) h.
Proof.
  unfold total_hamiltonian. intros E. repeat match type of E with bind ?X _ = _ => destruct X as [?x|] eqn:?Ex; [|discriminate]; cbn [bind] in E end. injection E as ->.
  match goal with H : to_index _ _ = Ok h |- _ => rename H into Et end. match goal with H : assert_hermitian h = _ |- _ => rename H into Eh end.
  assert (H : NoDup (dkeys h) /\ Forall (fun ph => Forall (fun l => 0 <= fst l < Z.of_nat (n_orb nb)) (fst ph)) h).
  { revert Et. unfold to_index. apply (fold_res_inv' _ (fun op : op_t F => NoDup (dkeys op) /\ Forall (fun ph => Forall (fun l => 0 <= fst l < Z.of_nat (n_orb nb)) (fst ph)) op)); [|split; constructor].
    intros s1 [p v] s2 [H1 H2] _. cbn [fst snd]. destruct (map_res _ p) as [p'|] eqn:Ep; [|discriminate]. cbn [bind]. intros E. injection E as <-. split; [apply NoDup_dset; auto|].
    apply map_res_all with (P := fun l => 0 <= fst l < Z.of_nat (n_orb nb)) in Ep.
    - apply Forall_forall. intros [p2 v2] Hi. cbn [fst]. apply (in_map fst) in Hi. cbn [fst] in Hi. change (map fst (dset s1 p' v)) with (dkeys (dset s1 p' v)) in Hi. apply in_dkeys_dset in Hi as [->|Hi]; auto.
      unfold dkeys in Hi. apply in_map_iff in Hi as ([p3 v3] & <- & Hi). rewrite Forall_forall in H2. apply (H2 _ Hi).
    - intros [y lb] b _ Eb. cbn [fst snd] in Eb. destruct (c2i nb y) as [i|] eqn:Ei; [|discriminate]. cbn [bind] in Eb. injection Eb as <-. cbn [fst]. eapply c2i_range; eauto. }
  destruct H as [H1 H2]. split; [auto|]. match type of Eh with _ = Ok ?u => destruct u end. apply assert_hermitian_perm in Eh as [Hg _]; auto. unfold good_labels in Hg. rewrite Forall_forall in *. intros ph Hi.
  specialize (H2 _ Hi). specialize (Hg _ Hi). rewrite Forall_forall in *. intros l Hl. split; [apply H2; auto|]. exact (Hg l Hl).
Qed.
End Small.

(* ---- the program ---- *)
From Verif Require Import L_Program3 L_Program5.
Section Runs.
Context {F : ofield}.
Local Open Scope of_scope.
Lemma setup_nBaths hamiltonian (a : @args F) su : main_setup hamiltonian a = Ok su -> su_nBaths su = ordered (a_ls a) (a_nBaths a) /\
  exists nv hp, hamiltonian (nbaths_of (ordered (a_ls a) (a_nBaths a))) nv hp = Ok (su_hOp su).
Proof.
  unfold main_setup. cbv zeta. destruct (excited_restrictions _ _ _ _ _ _) as [rs|]; [|discriminate]. cbn [bind]. destruct (hField3 _) as [[[hx hy] hz]|]; [|discriminate]. cbn [bind].
  destruct (hamiltonian _ _ _) as [h|] eqn:Eh; [|discriminate]. cbn [bind]. destruct (get_basis _ _ _ _ _ _) as [b|]; [|discriminate]. cbn [bind]. intros E. injection E as <-. cbn [su_nBaths su_hOp]. eauto.
Qed.
Lemma main_ranks fsqrt fexp arccos fsin f32 k_B pi gaunt jn sph bicgstab eigh eigsh argsort fuel ord ord' R R' hamiltonian ms (a : @args F) radial :
  (forall N h h' k, (forall i j, h i j = h' i j) -> eigsh N h k = eigsh N h' k) -> (1 <= R)%nat -> (1 <= R')%nat ->
  (forall c t i q l, Permutation (ord c t i q l) l) -> (forall c t i q l, Permutation (ord' c t i q l) l) ->
  sound_args a -> a_delta a <> 0 -> a_deltaNIXS a <> 0 -> a_deltaRIXS a <> 0 ->
  let nb := nbaths_of (ordered (a_ls a) (a_nBaths a)) in
  (forall nv hp h, hamiltonian nb nv hp = Ok h -> wf_op (n_orb nb) h) -> (2 ^ n_orb nb < fuel)%nat ->
  (forall op0 ops, getDaggeredDipoleOperators fsqrt pi gaunt nb (m_epsilonsRIXSout ms) = Ok (op0 :: ops) -> Forall (fun pv => slaterWeightMin <= cabs2 (snd pv)) op0) ->
  oc_sim (main fsqrt fexp arccos fsin f32 k_B pi gaunt jn sph bicgstab eigh eigsh argsort fuel ord R hamiltonian ms a radial)
    (main fsqrt fexp arccos fsin f32 k_B pi gaunt jn sph bicgstab eigh eigsh argsort fuel ord' R' hamiltonian ms a radial).
Proof.
  intros Hext HR HR' Ho Ho' HS D1 D2 D3 nb Hh Hf Hs. apply main_sim; auto. intros su Es nb'. destruct (setup_nBaths _ _ _ Es) as [E1 (nv & hp & E2)].
  destruct (setup_facts _ _ _ HS Es) as (Hsh & _). unfold nb'. clear nb'. rewrite E1. split; [eapply Hh; exact E2|]. split; [exact Hf|]. intros op0 ops Eo. eapply ddip_no_small; eauto.
  rewrite E1 in Hsh. apply L_Basis2.wf_nb. exact Hsh.
Qed.
Lemma main_pickle_ranks fsqrt fexp arccos fsin f32 k_B pi fint gaunt jn sph bicgstab eigh eigsh argsort fuel ord ord' R R' h0 (a : @args F) radial :
  (forall N h h' k, (forall i j, h i j = h' i j) -> eigsh N h k = eigsh N h' k) -> (1 <= R)%nat -> (1 <= R')%nat ->
  (forall c t i q l, Permutation (ord c t i q l) l) -> (forall c t i q l, Permutation (ord' c t i q l) l) ->
  sound_args a -> a_delta a <> 0 -> a_deltaNIXS a <> 0 -> a_deltaRIXS a <> 0 ->
  let nb := nbaths_of (ordered (a_ls a) (a_nBaths a)) in
  (2 ^ n_orb nb < fuel)%nat ->
  (forall op0 ops, getDaggeredDipoleOperators fsqrt pi gaunt nb [[1; 0; 0]; [0; 1; 0]; [0; 0; 1]] = Ok (op0 :: ops) -> Forall (fun pv => slaterWeightMin <= cabs2 (snd pv)) op0) ->
  oc_sim (main_pickle fsqrt fexp arccos fsin f32 k_B pi fint gaunt jn sph bicgstab eigh eigsh argsort fuel ord R h0 a radial)
    (main_pickle fsqrt fexp arccos fsin f32 k_B pi fint gaunt jn sph bicgstab eigh eigsh argsort fuel ord' R' h0 a radial).
Proof.
  intros Hext HR HR' Ho Ho' HS D1 D2 D3 nb Hf Hs. apply main_ranks; auto. intros nv hp h. apply total_wf. apply L_Basis2.wf_nb. apply d_shells. exact HS.
Qed.
Lemma main_CF_ranks fsqrt fexp arccos fsin f32 k_B pi fint gaunt jn sph bicgstab eigh eigsh argsort fuel ord ord' R R' parameters (a : @args F) radial :
  (forall N h h' k, (forall i j, h i j = h' i j) -> eigsh N h k = eigsh N h' k) -> (1 <= R)%nat -> (1 <= R')%nat ->
  (forall c t i q l, Permutation (ord c t i q l) l) -> (forall c t i q l, Permutation (ord' c t i q l) l) ->
  sound_args a -> a_delta a <> 0 -> a_deltaNIXS a <> 0 -> a_deltaRIXS a <> 0 ->
  let nb := nbaths_of (ordered (a_ls a) (a_nBaths a)) in
  (2 ^ n_orb nb < fuel)%nat ->
  (forall op0 ops, getDaggeredDipoleOperators fsqrt pi gaunt nb [[1; 0; 0]; [0; 1; 0]; [0; 0; 1]] = Ok (op0 :: ops) -> Forall (fun pv => slaterWeightMin <= cabs2 (snd pv)) op0) ->
  oc_sim (main_CF fsqrt fexp arccos fsin f32 k_B pi fint gaunt jn sph bicgstab eigh eigsh argsort fuel ord R parameters a radial)
    (main_CF fsqrt fexp arccos fsin f32 k_B pi fint gaunt jn sph bicgstab eigh eigsh argsort fuel ord' R' parameters a radial).
Proof.
  intros Hext HR HR' Ho Ho' HS D1 D2 D3 nb Hf Hs. apply main_ranks; auto. intros nv hp h. apply total_wf. apply L_Basis2.wf_nb. apply d_shells. exact HS.
Qed.
End Runs.
