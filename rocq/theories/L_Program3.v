(* The program: printed quantities and parameters *)
From Coq Require Import Lia List Bool Permutation Sorted Field Ring String.
From Verif Require Import M_Prelude M_Scalar M_PSR M_Ladder M_State M_Mpi M_Hamiltonian M_Lanczos M_Basis M_Average M_Expect M_Operators M_Spectra M_Simulate M_RIXS M_Main M_Program
  S_Fock S_Basis S_Main S_Program L_PSR L_Scalar L_Dict L_Basis L_Basis2 L_Basis3 L_Basis4 L_Main L_Main2 L_Main3.
Import ListNotations.

(* ---- product states ---- *)
Lemma strip_pad b : exists z, b = (strip_zeros b ++ repeat 0%N z)%list.
Proof.
  induction b as [|x b [z IH]]; [exists 0%nat; reflexivity|]. cbn [strip_zeros]. destruct (strip_zeros b) as [|y r] eqn:E.
  - destruct (N.eqb_spec x 0) as [->|Hx]; [exists (S z); simpl; f_equal; exact IH|]. exists z. simpl. f_equal. exact IH.
  - exists z. simpl. f_equal. exact IH.
Qed.
Lemma ssorted_app {A} (R : A -> A -> Prop) l x : StronglySorted R l -> Forall (fun y => R y x) l -> StronglySorted R (l ++ [x]).
Proof.
  induction 1 as [|a l Hs IH Ha]; intros Hx; simpl; [repeat constructor|]. inversion Hx; subst. constructor; [apply IH; auto|]. apply Forall_app. auto.
Qed.
Lemma ssorted_rev {A} (R : A -> A -> Prop) l : StronglySorted R l -> StronglySorted (fun x y => R y x) (rev l).
Proof. induction 1 as [|a l Hs IH Ha]; simpl; [constructor|]. apply ssorted_app; auto. apply Forall_rev. exact Ha. Qed.
Lemma map_nth_all {A} (l : list A) d : map (fun i => nth i l d) (seq 0 (length l)) = l.
Proof.
  apply nth_ext with (d := d) (d' := d); [now rewrite map_length, seq_length|]. intros i Hi. rewrite map_length, seq_length in Hi.
  rewrite nth_indep with (d' := (fun i => nth i l d) 0%nat) by (now rewrite map_length, seq_length). rewrite (map_nth (fun i => nth i l d)), seq_nth by auto. reflexivity.
Qed.
Section Weights.
Context {F : ofield}.
Lemma descending_eq {A} (argsort : list F -> list nat) (ws : list F) (l : list A) d : argsort_works argsort -> length l = length ws ->
  descending (argsort ws) l = Ok (map (fun i => nth i l d) (rev (argsort ws))).
Proof.
  intros HA L. unfold descending. apply map_res_nths. intros i Hi. apply in_rev in Hi. apply (Permutation_in _ (proj1 (HA ws))) in Hi. apply in_seq in Hi. lia.
Qed.
Lemma weights_ok (argsort : list F -> list nat) nPrint (psis : list (psi_t F)) : argsort_works argsort ->
  exists r, print_weights argsort nPrint psis = Ok r /\ Forall2 (fun psi p => largest_weights (Z.to_nat nPrint) psi (fst p) (snd p)) psis r.
Proof.
  intros HA. unfold print_weights. induction psis as [|psi psis (r & IH1 & IH2)]; [exists []; auto|]. cbn [map_res].
  set (ws := map (fun sa : pybytes * cx F => cabs2 (snd sa)) psi).
  set (psi' := map (fun i => nth i psi ([], c0)) (rev (argsort ws))).
  rewrite (descending_eq argsort ws ws (cabs2 (@c0 F)) HA eq_refl). cbn [bind].
  rewrite (descending_eq argsort ws (map strip_zeros (dkeys psi)) [] HA) by (unfold dkeys, ws; now rewrite !map_length). cbn [bind]. rewrite IH1. cbn [bind].
  eexists. split; [reflexivity|]. constructor; [|exact IH2].
  assert (Hw : map (fun i => nth i ws (cabs2 (@c0 F))) (rev (argsort ws)) = map (fun sa => cabs2 (snd sa)) psi').
  { unfold psi'. rewrite map_map. apply map_ext. intros i. unfold ws. apply (map_nth (fun sa : pybytes * cx F => cabs2 (snd sa)) psi ([], c0)). }
  assert (Hs : map (fun i => nth i (map strip_zeros (dkeys psi)) []) (rev (argsort ws)) = map (fun sa => strip_zeros (fst sa)) psi').
  { unfold psi', dkeys. rewrite !map_map. apply map_ext. intros i. apply (map_nth (fun sa : pybytes * cx F => strip_zeros (fst sa)) psi ([], c0)). }
  rewrite Hw, Hs. exists psi'. destruct (HA ws) as [HP HS].
  split.
  { unfold psi'. apply Permutation_trans with (l' := map (fun i => nth i psi ([], c0)) (seq 0 (length psi))); [|now rewrite map_nth_all]. apply Permutation_map. rewrite <- (Permutation_rev (argsort ws)). rewrite HP. unfold ws. now rewrite map_length. }
  split.
  { rewrite <- Hw, map_rev. apply ssorted_rev with (R := fun x y : F => (x <= y)%F). unfold ascending in HS.
    erewrite map_ext_in; [exact HS|]. intros i Hi. cbv beta. apply nth_indep. apply (Permutation_in _ HP) in Hi. apply in_seq in Hi. lia. }
  destruct (Z.ltb_spec 0 nPrint) as [Hn|Hn].
  - unfold slice_to. replace (nPrint <? 0)%Z with false by (symmetry; apply Z.ltb_ge; lia). cbn [fst snd]. split; [reflexivity|].
    rewrite !firstn_map. clear. induction (firstn (Z.to_nat nPrint) psi') as [|sa l IH]; simpl; constructor; auto. apply strip_pad.
  - replace (Z.to_nat nPrint) with 0%nat by lia. cbn [fst snd firstn]. split; [reflexivity|constructor].
Qed.
End Weights.

(* ---- parameters ---- *)
Lemma fold_dset (kv : list (Z * Z)) : forall d, NoDup (map fst kv) -> (forall k, In k (map fst kv) -> ~ In k (dkeys d)) ->
  fold_left (fun d kv => dset d (fst kv) (snd kv)) kv d = (d ++ kv)%list.
Proof.
  induction kv as [|[k v] kv IH]; intros d Hn Hd; simpl; [now rewrite app_nil_r|]. inversion Hn as [|? ? H1 H2]; subst.
  rewrite dset_notin by (apply Hd; left; reflexivity). rewrite IH; [now rewrite <- app_assoc|auto|].
  intros k' Hk'. unfold dkeys. rewrite map_app. intros C. apply in_app_or in C as [C|[C|[]]]; [apply (Hd k'); [right; auto|exact C]|]. simpl in C. subst k'. contradiction.
Qed.
Lemma combine_keys {A B} (l : list A) (x : list B) : length x = length l -> map fst (combine l x) = l.
Proof. revert x. induction l as [|a l IH]; intros [|b x] L; try discriminate; simpl; auto. f_equal. apply IH. simpl in L. lia. Qed.
Lemma ordered_eq ls x : NoDup ls -> length x = length ls -> ordered ls x = combine ls x.
Proof. intros Hn L. unfold ordered. rewrite fold_dset; [reflexivity|now rewrite combine_keys|]. intros k _ []. Qed.
Lemma combine_nth_error {A B} (l : list A) (x : list B) i a b : nth_error l i = Some a -> nth_error x i = Some b -> nth_error (combine l x) i = Some (a, b).
Proof. revert l x. induction i as [|i IH]; intros [|a' l] [|b' x] E1 E2; try discriminate; simpl in *; [congruence|auto]. Qed.
Lemma combine_nth_inv {A B} (l : list A) (x : list B) i a b : nth_error (combine l x) i = Some (a, b) -> nth_error l i = Some a /\ nth_error x i = Some b.
Proof. revert l x. induction i as [|i IH]; intros [|a' l] [|b' x] E; try discriminate; simpl in *; [split; congruence|auto]. Qed.
Lemma ordered_get ls x i l v : NoDup ls -> length x = length ls -> nth_error ls i = Some l -> nth_error x i = Some v -> dget (ordered ls x) l = Some v.
Proof.
  intros Hn L E1 E2. rewrite ordered_eq by auto. apply In_dget; [unfold dkeys; rewrite combine_keys; auto|]. eapply nth_error_In, combine_nth_error; eauto.
Qed.
Section Setup.
Context {F : ofield}.
Variable a : @args F.
Hypothesis HS : sound_args a.
Let d := ordered (a_ls a) (a_nBaths a).
Let val := ordered (a_ls a) (a_nValBaths a).
Let n0 := ordered (a_ls a) (a_n0imps a).
Let tol := ordered (a_ls a) (a_dnTols a).
Let dnV := ordered (a_ls a) (a_dnValBaths a).
Let dnC := ordered (a_ls a) (a_dnConBaths a).
Lemma lens : Forall (fun x => length x = length (a_ls a)) [a_nBaths a; a_nValBaths a; a_n0imps a; a_dnTols a; a_dnValBaths a; a_dnConBaths a].
Proof. apply HS. Qed.
Lemma nth_some {A B} (x : list A) (ls : list B) i b : length x = length ls -> nth_error ls i = Some b -> exists v, nth_error x i = Some v.
Proof. intros L E. assert (H : (i < length x)%nat) by (rewrite L; apply nth_error_Some; congruence). destruct (nth_error x i) as [v|] eqn:E2; [eauto|]. apply nth_error_None in E2. lia. Qed.
Lemma at_shell l nB : In (l, nB) d -> exists nV o t dv dc, sound_shell l nB nV o t dv dc /\
  dget val l = Some nV /\ dget n0 l = Some o /\ dget tol l = Some t /\ dget dnV l = Some dv /\ dget dnC l = Some dc.
Proof.
  pose proof lens as HL. destruct HS as (Hn & H2 & Hh & _ & Hs). intros Hin. repeat (inversion_clear HL as [|? ? ? HL']; rename HL' into HL).
  unfold d in Hin. rewrite ordered_eq in Hin by auto. apply In_nth_error in Hin as [i Hi]. apply combine_nth_inv in Hi as [E1 E2].
  destruct (nth_some (a_nValBaths a) (a_ls a) i l) as [nV EV]; auto. destruct (nth_some (a_n0imps a) (a_ls a) i l) as [o Eo]; auto. destruct (nth_some (a_dnTols a) (a_ls a) i l) as [t Et]; auto.
  destruct (nth_some (a_dnValBaths a) (a_ls a) i l) as [dv Edv]; auto. destruct (nth_some (a_dnConBaths a) (a_ls a) i l) as [dc Edc]; auto.
  exists nV, o, t, dv, dc. split; [apply (Hs i); auto|]. unfold val, n0, tol, dnV, dnC.
  split; [eapply ordered_get; eauto|]. split; [eapply ordered_get; eauto|]. split; [eapply ordered_get; eauto|]. split; [eapply ordered_get; eauto|]. eapply ordered_get; eauto.
Qed.
Lemma d_keys : dkeys d = a_ls a.
Proof. pose proof lens as HL. inversion HL; subst. unfold d, dkeys. rewrite ordered_eq by (auto; apply HS). apply combine_keys. auto. Qed.
Lemma d_shells : wf_shells d.
Proof.
  split; [rewrite d_keys; apply HS|]. apply Forall_forall. intros [l nB] Hin. destruct (at_shell l nB Hin) as (nV & o & t & dv & dc & (H1 & H2 & _) & _). simpl. lia.
Qed.
Lemma d_feasible : feasible d val dnV dnC tol n0.
Proof.
  intros l nB Hin. destruct (at_shell l nB Hin) as (nV & o & t & dv & dc & (H1 & H2 & H3) & E1 & E2 & E3 & E4 & E5).
  exists (mk_par nV dv dc t o). split; [repeat split; auto|]. cbn [p_val p_n0]. split; [lia|]. intros mv mc (M1 & M2 & M3). cbn [p_dv p_dc p_tol] in *. unfold shell_size. specialize (H3 mv mc M1 M2 M3). lia.
Qed.
Lemma setup_ok hamiltonian : (forall nb nv hp, is_ok (hamiltonian nb nv hp) = true) ->
  exists su, main_setup hamiltonian a = Ok su /\ (exists hp, hamiltonian (nbaths_of d) (nbaths_of val) hp = Ok (su_hOp su)) /\ su_nBaths su = d /\ NoDup (su_basis su) /\
    (forall k, In k (su_basis su) <-> exists c, length c = Z.to_nat (n_total (nbaths_of d)) /\ k = key c /\ admitted d val dnV dnC tol n0 c) /\
    excited_restrictions d val dnV dnC tol n0 = Ok (su_rs su).
Proof.
  intros HH. unfold main_setup. cbv zeta. fold d val n0 tol dnV dnC.
  destruct HS as (Hn & H2 & Hh & _). rewrite <- d_keys in H2. apply dget_Some_key in H2 as [nB H2]. apply dget_In in H2.
  destruct (at_shell 2 nB H2) as (nV & o & t & dv & dc & (_ & HV & _) & E1 & E2 & E3 & E4 & E5).
  assert (Hp : shell_params val dnV dnC tol n0 2 (mk_par nV dv dc t o)) by (repeat split; auto).
  rewrite (restrictions_eq d val dnV dnC tol n0 d_shells nB H2 _ Hp HV). cbn [bind].
  unfold hField3. destruct (a_hField a) as [|hx [|hy [|hz [|]]]]; try discriminate. cbn [bind]. match goal with |- context [hamiltonian ?nb ?nv ?hp] => specialize (HH nb nv hp); destruct (hamiltonian nb nv hp) as [h|] eqn:Eh; [|discriminate] end. cbn [bind].
  rewrite (basis_eq d val dnV dnC tol n0 d_shells d_feasible). cbn [bind]. eexists. split; [reflexivity|]. cbn [su_hOp su_nBaths su_basis su_rs].
  split; [eexists; exact Eh|]. split; [reflexivity|]. split; [apply (basis_NoDup d val dnV dnC tol n0 d_shells d_feasible)|]. split; [apply (basis_In d val dnV dnC tol n0 d_shells d_feasible)|reflexivity].
Qed.
End Setup.

(* ---- the temperature of the printed averages ---- *)
Section Temperature.
Context {F : ofield}.
Definition with_T (a : @args F) (T : F) : args :=
  mkArgs (a_ls a) (a_nBaths a) (a_nValBaths a) (a_n0imps a) (a_dnTols a) (a_dnValBaths a) (a_dnConBaths a) (a_Fdd a) (a_Fpp a) (a_Fpd a) (a_Gpd a)
    (a_xi_2p a) (a_xi_3d a) (a_ctc a) (a_hField a) (a_nPsiMax a) (a_nPrintSlaterWeights a) (a_tolPrintOccupation a) T (a_energy_cut a) (a_delta a) (a_deltaRIXS a) (a_deltaNIXS a).
Variables fsqrt fexp arccos fsin f32 : F -> F.
Variables k_B pi : F.
Variable gaunt : Z -> Z -> Z -> Z -> Z -> Z -> F.
Variable spherical_jn : Z -> F -> F.
Variable sph_harm : Z -> Z -> F -> F -> cx F.
Variable bicgstab : list (vec F) -> vec F -> vec F.
Variable eigh : nat -> M_Hamiltonian.mat F -> res (list F * list (list (cx F))).
Variable eigsh : nat -> M_Hamiltonian.mat F -> Z -> res (list F * list (list (cx F))).
Variable argsort : list F -> list nat.
Variable fuel : nat.
Variable ord : nat -> nat -> nat -> nat -> set_order.
Variable ranks : nat.
Notation prog := (main fsqrt fexp arccos fsin f32 k_B pi gaunt spherical_jn sph_harm bicgstab eigh eigsh argsort fuel ord ranks).
Lemma outputs_cons (o : output F) l : outputs (Ok o :: l) = (o :: fst (outputs l), snd (outputs l)).
Proof. cbn [outputs]. now destruct (outputs l). Qed.
Lemma main_first hamiltonian ms a radial su es psis others l : main_setup hamiltonian a = Ok su ->
  eigensystem eigh eigsh argsort ranks (n_spin_orbitals (su_nBaths su)) (su_hOp su) (su_basis su) (a_nPsiMax a) LanczosDiag slaterWeightMin = Ok (es, psis) :: others ->
  forallb is_ok others = true -> printThermalExpValues fsqrt fexp k_B (nbaths_of (su_nBaths su)) es psis (fofZ 300) (fofZ 10) = Ok l ->
  hd_error (fst (prog hamiltonian ms a radial)) = Some (PThermal l).
Proof.
  intros E1 E2 E3 E4. unfold main. rewrite E1. cbv zeta. rewrite E2, E3. unfold rank0_prints. rewrite E4. cbn [rmap bind]. rewrite outputs_cons. clear E1 E2 E3 E4.
  match goal with |- context [outputs ?x] => destruct (outputs x) as [os r] end. cbn [fst snd]. destruct (forallb _ _); [|reflexivity]. destruct (low_energy _ _ _) as [[es' psis']|]; [|reflexivity]. destruct (simulate_spectra _ _ _ _ _ _ _ _ _ _ _ _ _ _ _ _ _ _ _ _ _ _ _ _ _ _ _); reflexivity.
Qed.
(* all printed quantities *)
Lemma main_T hamiltonian ms a radial T : firstn 12 (fst (prog hamiltonian ms a radial)) = firstn 12 (fst (prog hamiltonian ms (with_T a T) radial)).
Proof.
  unfold main. change (main_setup hamiltonian (with_T a T)) with (main_setup hamiltonian a). destruct (main_setup hamiltonian a) as [su|]; [|reflexivity]. cbv zeta.
  change (a_nPsiMax (with_T a T)) with (a_nPsiMax a). destruct (eigensystem _ _ _ _ _ _ _ _ _ _) as [|[[es psis]|] others]; try reflexivity.
  destruct (forallb is_ok others); [|reflexivity].
  change (rank0_prints fsqrt fexp k_B argsort (with_T a T)) with (rank0_prints fsqrt fexp k_B argsort a).
  assert (H8 : forall l, snd (outputs l) = Ok tt -> length (@fst _ (res unit) (outputs (F:=F) l)) = length l).
  { induction l as [|[o|] l IH]; simpl; auto; [|discriminate]. destruct (outputs l) as [os r]. simpl in *. intros E. rewrite IH; auto. }
  specialize (H8 [ rmap PThermal (printThermalExpValues fsqrt fexp k_B (nbaths_of (su_nBaths su)) es psis (fofZ 300) (fofZ 10));
            rmap PExpValues (printExpValues fsqrt (nbaths_of (su_nBaths su)) es psis);
            rmap PWeights (print_weights argsort (a_nPrintSlaterWeights a) psis);
            rmap PDensity (print_density fsqrt (nbaths_of (su_nBaths su)) (a_tolPrintOccupation a) psis);
            H5_1d "E" es; H5_1d "w" (m_w ms); H5_1d "wIn" (m_wIn ms); H5_1d "wLoss" (m_wLoss ms);
            Ok (H5 "qsNIXS" [length (m_qsNIXS ms); 3%nat] (flat_map (fun q => let '(q0, q1, q2) := q in [q0; q1; q2]) (m_qsNIXS ms)));
            H5_1d "r" (map fst radial); H5_1d "RiNIXS" (map snd radial); H5_1d "RjNIXS" (map snd radial) ]).
  change (snd (rank0_prints fsqrt fexp k_B argsort a ms radial (nbaths_of (su_nBaths su)) es psis) = Ok tt -> length (fst (rank0_prints fsqrt fexp k_B argsort a ms radial (nbaths_of (su_nBaths su)) es psis)) = 12%nat) in H8.
  destruct (rank0_prints _ _ _ _ _ _ _ _ _ _) as [printed r0]. cbn [fst snd] in H8.
  destruct (forallb is_ok (r0 :: _)) eqn:E; [|reflexivity]. assert (Hl : length printed = 12%nat) by (apply H8; destruct r0 as [[]|]; [reflexivity|discriminate]).
  assert (HF : forall x y : outcome F, firstn 12 (fst (let (files, ends) := x in ((printed ++ files)%list, ends))) = firstn 12 (fst (let (files, ends) := y in ((printed ++ files)%list, ends)))).
  { intros [x1 x2] [y1 y2]. cbn [fst]. rewrite !firstn_app, Hl. reflexivity. }
  assert (HP : forall x : outcome F, firstn 12 (fst (let (files, ends) := x in ((printed ++ files)%list, ends))) = firstn 12 printed).
  { intros [x1 x2]. cbn [fst]. rewrite firstn_app, Hl. simpl. now rewrite app_nil_r. }
  destruct (low_energy es psis (a_energy_cut a * (k_B * a_T a))%F) as [[e1 p1]|], (low_energy es psis (a_energy_cut (with_T a T) * (k_B * a_T (with_T a T)))%F) as [[e2 p2]|]; cbv beta iota; rewrite ?HP; try reflexivity.
Qed.
End Temperature.
