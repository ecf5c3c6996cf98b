(* Lemmas on the printed quantities, the meshes and the checks of the command line. *)
From Coq Require Import Lia List Bool Field Ring String Permutation.
From Verif Require Import M_Prelude M_Scalar M_PSR M_Ladder M_State M_Mpi M_Hamiltonian M_Lanczos M_Basis M_Average M_Expect M_Operators M_Spectra M_Main M_Program.
From Verif Require Import S_Fock S_Basis S_Ham S_Expect S_Thermal S_Green S_Print S_Main S_Program S_Spectrum S_Spectrum2 S_Output.
From Verif Require Import L_Scalar L_Dict L_PSR L_Fock L_State L_Ops L_Ham L_RIXS L_Basis2 L_Expect3 L_Expect4 L_Expect5 L_Expect6 L_Expect7 L_Main L_Main3 L_Program2 L_Program3 L_Program5 L_Program6 L_Program7 L_Program8.
Import ListNotations.
Local Open Scope Z_scope.

Section P.
Context {F : ofield}.
Add Field Ff : (f_field F).
Add Ring Cring : (@c_ring F).
Add Field Cf : (@c_field F).
Variable fsqrt fexp : F -> F.
Hypothesis HS : sqrt_laws fsqrt.
Variable nb : nbaths_t.
Hypothesis Hsh : has_shell nb 2.
Notation n := (n_orb nb).
Variable u : list (list (cx F)).
Hypothesis Hu : get_spherical_2_cubic_matrix fsqrt false 2 = Ok u.

(* ---- the rows ---- *)
Lemma map_res_Ok {A B} (f : A -> res B) (g : A -> B) l : (forall x, In x l -> f x = Ok (g x)) -> map_res f l = Ok (map g l).
Proof. induction l as [|a l IH]; intros H; [reflexivity|]. cbn [map_res map]. rewrite H by (left; auto). cbn [bind]. rewrite IH by (intros; apply H; right; auto). reflexivity. Qed.
Lemma combine_map_l {A B C} (f : A -> C) (l : list A) : forall m : list B, combine (map f l) m = map (fun ep => (f (fst ep), snd ep)) (combine l m).
Proof. induction l as [|a l IH]; intros [|b m]; simpl; f_equal; auto. Qed.
Lemma map_res_map {A B C} (f : B -> res C) (g : A -> B) l : map_res f (map g l) = map_res (fun x => f (g x)) l.
Proof. induction l as [|a l IH]; [reflexivity|]. cbn [map map_res]. destruct (f (g a)); cbn [bind]; [rewrite IH|]; reflexivity. Qed.
Lemma rows_ok es psis e0 : hd_error es = Some e0 -> (forall psi, In psi psis -> valid_psi n psi) ->
  printExpValues fsqrt nb es psis = Ok (map (fun ep => map (fun f => f ep) (observables fsqrt nb u e0)) (combine es psis)).
Proof.
  intros He0 Hval. unfold printExpValues. assert (E0 : nth_res es 0 = Ok e0) by (destruct es; [discriminate|]; simpl in He0; injection He0 as ->; reflexivity).
  rewrite E0. cbn [bind]. rewrite combine_map_l, map_res_map. apply map_res_Ok. intros [e psi] Hin. cbn [fst snd].
  pose proof (Hval psi (in_combine_r _ _ _ _ Hin)) as Hv.
  destruct (occ_u F fsqrt nb Hsh HS psi Hv u Hu) as (o1 & o2 & o3 & o4 & E & E1 & E2 & E3 & E4 & _). rewrite E. cbn [bind].
  destruct (trace_agree nb psi 2 Hsh Hv) as (v & Et & Et1 & _). rewrite Et. cbn [bind]. unfold nth_res. cbn [nth_error bind].
  destruct (Lz_agree nb psi Hsh Hv) as (lz & p1 & Ez & _ & Ez1 & Ez2). rewrite Ez. cbn [bind].
  destruct (Sz_agree nb psi Hsh Hv) as (sz & p2 & Es & _ & Es1 & Es2). rewrite Es. cbn [bind].
  unfold getLsqr3d, getSsqr3d.
  destruct (acts_is_op nb Hsh _ _ psi (ok_Lz nb Hsh) (acts_Lz nb Hsh) Hv) as (z1 & A1 & O1).
  destruct (acts_is_op nb Hsh _ _ psi (ok_Lp fsqrt nb Hsh) (acts_Lp fsqrt nb Hsh) Hv) as (z2 & A2 & O2).
  destruct (acts_is_op nb Hsh _ _ psi (ok_Lm fsqrt nb Hsh) (acts_Lm fsqrt nb Hsh) Hv) as (z3 & A3 & O3).
  destruct (acts_is_op nb Hsh _ _ psi (ok_Sz nb Hsh) (acts_Sz nb Hsh) Hv) as (y1 & B1 & Q1).
  destruct (acts_is_op nb Hsh _ _ psi (ok_Sp nb Hsh) (acts_Sp nb Hsh) Hv) as (y2 & B2 & Q2).
  destruct (acts_is_op nb Hsh _ _ psi (ok_Sm nb Hsh) (acts_Sm nb Hsh) Hv) as (y3 & B3 & Q3).
  rewrite A1, A2, A3, B1, B2, B3. cbn [bind]. f_equal. unfold observables, square_ev. cbn [map app as_complex fst snd].
  rewrite <- E1, <- E2, <- E3, <- E4. rewrite <- (inner_is_ev nb _ _ _ Ez1), <- (inner_is_ev nb _ _ _ Es1), Ez2, Es2, <- Et1.
  rewrite <- (norm2_is_op nb _ _ _ O1), <- (norm2_is_op nb _ _ _ O2), <- (norm2_is_op nb _ _ _ O3),
    <- (norm2_is_op nb _ _ _ Q1), <- (norm2_is_op nb _ _ _ Q2), <- (norm2_is_op nb _ _ _ Q3). reflexivity.
Qed.

(* ---- the density matrix ---- *)
Definition in_range (k : cubkey) : Prop := (0 <= fst (fst k) < 2 /\ 0 <= fst (snd k) < 2 /\ 0 <= snd (fst k) < 5 /\ 0 <= snd (snd k) < 5)%Z.
Lemma zr_in k m : In k (zrange m) -> (0 <= k < m)%Z.
Proof. intros H. unfold zrange in H. apply in_map_iff in H as (i & <- & H). apply in_seq in H. lia. Qed.
Lemma cubic_keys (psi : psi_t F) d : getDensityMatrixCubic fsqrt nb psi = Ok d -> NoDup (dkeys d) /\ Forall in_range (dkeys d).
Proof.
  unfold getDensityMatrixCubic. destruct (getDensityMatrix nb psi 2) as [nSph|]; [|discriminate]. cbn [bind]. rewrite Hu. cbn [bind].
  set (I := fun d : dict cubkey (cx F) => NoDup (dkeys d) /\ Forall in_range (dkeys d)).
  apply (fold_res_inv' _ I); [|split; constructor]. intros s1 i s2 H1 Hi. revert H1.
  apply (fold_res_inv' _ I). clear s1 s2. intros s1 j s2 H1 Hj. revert H1.
  apply (fold_res_inv' _ I). clear s1 s2. intros s1 si s2 H1 Hsi. revert H1.
  apply (fold_res_inv' _ I). clear s1 s2. intros s1 sj s2 H1 Hsj. revert H1.
  apply (fold_res_inv' _ I). clear s1 s2. intros s1 kmk s2 H1 _. revert H1.
  apply (fold_res_inv' _ I). clear s1 s2. intros s1 mmm s2 H1 _.
  destruct (dget nSph _) as [v|]; [|congruence]. destruct (mget u _ i) as [x|]; [|discriminate]. cbn [bind]. destruct (mget u _ j) as [y|]; [|discriminate]. cbn [bind].
  destruct (negb _); [|congruence]. intros E. injection E as <-. destruct H1 as [N1 R1].
  apply zr_in in Hi, Hj, Hsi, Hsj. unfold dadd.
  destruct (dget _ _); (split; [apply NoDup_dset; exact N1|]; apply Forall_forall; intros k Hk; apply in_dkeys_dset in Hk as [->|Hk]; [unfold in_range; cbn [fst snd]; lia|rewrite Forall_forall in R1; auto]).
Qed.
Lemma NoDup_map_filter {A B} (f : A -> B) p l : NoDup (map f l) -> NoDup (map f (filter p l)).
Proof.
  induction l as [|a l IH]; intros H; [constructor|]. cbn [map] in H. apply NoDup_cons_iff in H as [H1 H2]. cbn [filter]. destruct (p a); [|auto]. cbn [map]. constructor; [|auto].
  intros H. apply H1. apply in_map_iff in H as (b & <- & H). apply filter_In in H as [H _]. apply in_map. auto.
Qed.
Lemma density_ok tol psis : (forall psi, In psi psis -> valid_psi n psi) ->
  exists ds, print_density fsqrt nb tol psis = Ok ds /\ Forall2 (density_elements nb u tol) psis ds.
Proof.
  unfold print_density. induction psis as [|psi psis IH]; intros Hval; [exists []; auto|]. cbn [map_res].
  destruct (IH ltac:(intros; apply Hval; right; auto)) as (ds & E & H). pose proof (Hval psi (or_introl eq_refl)) as Hv.
  destruct (cubic_u F fsqrt nb Hsh psi Hv u Hu) as (d & Ed & Hd). destruct (cubic_keys psi d Ed) as [HN HR]. rewrite Ed. cbn [bind]. rewrite E. cbn [bind].
  eexists. split; [reflexivity|]. constructor; [|exact H]. clear E H IH.
  assert (Hd' : forall si i sj j, in_range ((si, i), (sj, j)) -> dval d ((si, i), (sj, j)) = ev n (one_body nb (cub_hop 2 u sj (Z.to_nat j) si (Z.to_nat i))) psi).
  { intros si i sj j (R1 & R2 & R3 & R4). cbn [fst snd] in *. rewrite <- Hd by lia. rewrite !Z2Nat.id by lia. reflexivity. }
  assert (Hc : forall v : cx F, (tol <? 0)%F || (tol * tol <? cabs2 v)%F = true <-> (tol < 0)%F \/ (tol * tol < cabs2 v)%F) by (intros; apply orb_true_iff).
  split; [apply NoDup_map_filter; exact HN|]. split; intros si i sj j v.
  - intros Hin. apply filter_In in Hin as [Hin Ht]. cbn [snd] in Ht. apply Hc in Ht.
    assert (HRk : in_range ((si, i), (sj, j))). { rewrite Forall_forall in HR. apply HR. apply (in_map fst) in Hin. exact Hin. }
    split; [exact HRk|]. split; [|exact Ht]. rewrite <- Hd' by exact HRk. unfold dval. rewrite (In_dget d _ v HN Hin). reflexivity.
  - intros (HRk & Ev & Ht) Hnz. apply filter_In. cbn [snd]. split; [|apply Hc; exact Ht].
    rewrite <- (Hd' si i sj j HRk) in Ev. unfold dval in Ev. destruct (dget d (si, i, (sj, j))) as [w|] eqn:Ew; [|congruence]. subst v. apply dget_In. exact Ew.
Qed.

(* ---- all that rank 0 prints ---- *)
Variable k_B : F.
Hypothesis HE : exp_laws fexp.
Hypothesis Hk : (0 < k_B)%F.
Variable argsort : list F -> list nat.
Hypothesis HA : argsort_works argsort.
Lemma k300 : (0 < fofZ 10 * k_B * fofZ 300)%F /\ (k_B * fofZ 300 <> 0)%F.
Proof.
  assert (H1 : (0 < @fofZ F 10)%F) by (apply (fofZ_pos 10); lia). assert (H2 : (0 < @fofZ F 300)%F) by (apply (fofZ_pos 300); lia).
  split; [repeat (apply (flt_mul F); auto)|]. intros E. assert (H3 : (0 < k_B * fofZ 300)%F) by (apply (flt_mul F); auto). rewrite E in H3. rewrite (flt_irrefl F) in H3. discriminate.
Qed.
Lemma prints_ok a ms radial es psis e0 : hd_error es = Some e0 -> length psis = length es -> (forall psi, In psi psis -> valid_psi n psi) ->
  exists os, rank0_prints fsqrt fexp k_B argsort a ms radial nb es psis = (os, Ok tt) /\ printed fsqrt fexp k_B nb u a ms radial e0 es psis os.
Proof.
  intros He0 Hl Hval. unfold rank0_prints. destruct k300 as [K1 K2].
  rewrite (print_ok fsqrt fexp HE HS k_B (fofZ 300) K2 nb Hsh u Hu es psis e0 (fofZ 10) He0 Hl K1 Hval).
  rewrite (rows_ok es psis e0 He0 Hval). destruct (weights_ok argsort (a_nPrintSlaterWeights a) psis HA) as (ws & Ew & Hw). rewrite Ew.
  destruct (density_ok (a_tolPrintOccupation a) psis Hval) as (ds & Ed & Hd). rewrite Ed. cbn [rmap bind outputs].
  eexists. split; [reflexivity|]. exists ws, ds. split; [|auto].
  assert (Eq : flat_map (fun q : F * F * F => let '(q0, q1, q2) := q in [q0; q1; q2]) (m_qsNIXS ms) = concat (map (fun q => [fst (fst q); snd (fst q); snd q]) (m_qsNIXS ms))).
  { rewrite flat_map_concat_map. f_equal. apply map_ext. intros [[x y] z]. reflexivity. }
  rewrite Eq, !map_length. reflexivity.
Qed.
End P.

(* ---- main ---- *)
Section Main.
Context {F : ofield}.
Variables fsqrt fexp arccos fsin f32 : F -> F.
Variables k_B pi : F.
Variable gaunt : Z -> Z -> Z -> Z -> Z -> Z -> F.
Variable spherical_jn : Z -> F -> F.
Variable sph_harm : Z -> Z -> F -> F -> cx F.
Variable bicgstab : list (vec F) -> vec F -> vec F.
Variable eigh : nat -> M_Hamiltonian.mat F -> res (list F * list (list (cx F))).
Variable eigsh : nat -> M_Hamiltonian.mat F -> Z -> res (list F * list (list (cx F))).
Variable argsort : list F -> list nat.
Variable fuel : nat.
Variable ord : nat -> nat -> nat -> nat -> set_order.
Variable R : nat.
Lemma eigen_lengths r n (op : op_t F) basis nPsiMax mode swm es psis others :
  eigensystem eigh eigsh argsort r n op basis nPsiMax mode swm = Ok (es, psis) :: others -> length psis = length es.
Proof.
  intros E. assert (Hi : In (Ok (es, psis)) (eigensystem eigh eigsh argsort r n op basis nPsiMax mode swm)) by (rewrite E; left; auto). clear E.
  unfold eigensystem in Hi. apply in_map_iff in Hi as ([q h] & E & _). cbn [fst snd] in E. destruct h as [h|]; [|discriminate]. cbn [bind] in E.
  unfold eigen_local in E. destruct (_ && _); [discriminate|]. destruct (diagonalize _ _ _ _ _ _ _) as [[es0 vecs]|]; [|discriminate]. cbn [bind] in E.
  destruct (map_res _ _) as [ps|] eqn:Em; [|discriminate]. cbn [bind] in E. injection E as -> ->. apply map_res_len in Em. now rewrite seq_length in Em.
Qed.
Lemma sound_has_shell (a : @args F) : sound_args a -> has_shell (nbaths_of (ordered (a_ls a) (a_nBaths a))) 2.
Proof.
  intros HS. pose proof (d_shells a HS) as Hw. split; [apply wf_nb; exact Hw|]. split.
  - unfold int_keys, nbaths_of. apply Forall_forall. intros k Hk. apply in_map_iff in Hk as (kn & <- & _). eexists. reflexivity.
  - destruct HS as (Hn & H2 & Hh & Hl & Hs). assert (HS : sound_args a) by (repeat (split; auto)). rewrite <- (d_keys a HS) in H2. unfold angs.
    apply in_map_iff in H2 as (kn & <- & H2). apply in_flat_map. exists (KInt (fst kn)). split; [|left; auto].
    unfold dkeys, nbaths_of. rewrite map_map. apply in_map_iff. exists kn. auto.
Qed.
Lemma main_printed hamiltonian ms (a : @args F) radial : sqrt_laws fsqrt -> exp_laws fexp -> (0 < k_B)%F -> argsort_works argsort -> sound_args a ->
  forall u su es psis others e0, get_spherical_2_cubic_matrix fsqrt false 2 = Ok u -> main_setup hamiltonian a = Ok su ->
  eigensystem eigh eigsh argsort R (n_spin_orbitals (su_nBaths su)) (su_hOp su) (su_basis su) (a_nPsiMax a) LanczosDiag slaterWeightMin = Ok (es, psis) :: others ->
  forallb is_ok others = true -> hd_error es = Some e0 ->
  printed fsqrt fexp k_B (nbaths_of (su_nBaths su)) u a ms radial e0 es psis
    (firstn 12 (fst (main fsqrt fexp arccos fsin f32 k_B pi gaunt spherical_jn sph_harm bicgstab eigh eigsh argsort fuel ord R hamiltonian ms a radial))).
Proof.
  intros HS HE Hk HA Ha u su es psis others e0 Hu Es Ee Ho He0.
  destruct (setup_nBaths _ _ _ Es) as [E1 _]. destruct (setup_facts _ _ _ Ha Es) as (Hsh & Hrs & Hv).
  pose proof (sound_has_shell a Ha) as H2. rewrite <- E1 in H2.
  assert (Hp : Forall (valid_psi (n_orb (nbaths_of (su_nBaths su)))) psis).
  { apply (eigen_valid eigh eigsh argsort _ (su_hOp su) (su_basis su) (a_nPsiMax a) LanczosDiag slaterWeightMin R es psis Hv). rewrite <- (n_eq (su_nBaths su) Hsh). rewrite Ee. left. reflexivity. }
  rewrite Forall_forall in Hp. pose proof (eigen_lengths _ _ _ _ _ _ _ _ _ _ Ee) as Hl.
  destruct (prints_ok fsqrt fexp HS (nbaths_of (su_nBaths su)) H2 u Hu k_B HE Hk argsort HA a ms radial es psis e0 He0 Hl Hp) as (os & Er & Hos).
  unfold main. rewrite Es. cbv zeta. rewrite Ee, Ho, Er. cbv beta iota.
  assert (G : forall x : list (output F), firstn 12 (os ++ x) = os). { destruct Hos as (ws & ds & -> & _). reflexivity. }
  assert (G0 : firstn 12 os = os) by (specialize (G []); now rewrite app_nil_r in G).
  destruct (forallb is_ok (Ok tt :: _)); cbv iota; [|cbn [fst]; rewrite G0; exact Hos].
  destruct (low_energy _ _ _) as [[es' psis']|]; [|cbn [fst]; rewrite G0; exact Hos].
  destruct (simulate_spectra _ _ _ _ _ _ _ _ _ _ _ _ _ _ _ _ _ _ _ _ _ _ _ _ _ _ _) as [files ends]. cbn [fst]. rewrite G. exact Hos.
Qed.
End Main.

(* ---- meshes ---- *)
Section Mesh.
Context {F : ofield}.
Local Open Scope of_scope.
Add Field Ff2 : (f_field F).
Lemma Some_inj {A} (x y : A) : Some x = Some y -> x = y. Proof. congruence. Qed.
Lemma linspace_nth (a b : F) num i : (i < Z.to_nat num)%nat -> nth_error (linspace a b num) i = Some (a + fofZ (Z.of_nat i) * ((b - a) / fofZ (num - 1))).
Proof.
  intros H. unfold linspace, zrange. rewrite map_map, nth_error_map. rewrite (nth_error_nth' _ 0%nat) by (rewrite seq_length; auto). rewrite seq_nth by auto. reflexivity.
Qed.
Lemma linspace_even (a b : F) num : (1 < num)%Z -> even_mesh a b (Z.to_nat num) (linspace a b num).
Proof.
  intros Hn. assert (Hne : (fofZ (num - 1) : F) <> 0).
  { intros E. assert (H3 : 0 < (fofZ (num - 1) : F)) by (apply fofZ_pos; lia). rewrite E in H3. rewrite (flt_irrefl F) in H3. discriminate. }
  assert (Hl : length (linspace a b num) = Z.to_nat num) by (unfold linspace, zrange; now rewrite !map_length, seq_length).
  split; [exact Hl|]. split; [|split].
  - pose proof (linspace_nth a b num 0 ltac:(lia)) as H. destruct (linspace a b num); [discriminate|]. cbn [hd_error nth_error] in *. rewrite H. f_equal. change (fofZ (Z.of_nat 0)) with (0 : F). field. exact Hne.
  - rewrite linspace_nth by lia. f_equal. replace (Z.of_nat (Z.to_nat num - 1)) with (num - 1)%Z by lia. field. exact Hne.
  - intros i x y Hx Hy. assert (Hi : (S i < Z.to_nat num)%nat) by (rewrite <- Hl; apply nth_error_Some; congruence).
    rewrite (linspace_nth a b num i) in Hx by lia. rewrite (linspace_nth a b num (S i)) in Hy by lia. apply Some_inj in Hx, Hy. subst x y. replace (Z.of_nat (S i)) with (Z.of_nat i + 1)%Z by lia. rewrite fofZ_add.
    replace (Z.of_nat (Z.to_nat num - 1)) with (num - 1)%Z by lia. change (fofZ 1) with (1 : F). field. exact Hne.
Qed.
Lemma even_mesh_as (a b : F) k l l' : even_mesh a b k l' -> l = l' -> even_mesh a b k l. Proof. intros H ->. exact H. Qed.
Lemma meshes_ok (fsqrt : F -> F) : sqrt_laws fsqrt -> program_meshes (main_meshes fsqrt).
Proof.
  intros HS. split; [|split; [|split; [|split; [|split; [|split]]]]]; try reflexivity; try (refine (linspace_even _ _ _ _); lia).
  assert (H3 : 0 < (fofZ 3 : F)) by (apply fofZ_pos; lia). destruct (HS (fofZ 3) (flt_le _ _ H3)) as [S1 S2].
  assert (Hne : fsqrt (fofZ 3) <> 0). { intros E. rewrite E in S2. replace (0 * 0) with (0 : F) in S2 by ring. rewrite <- S2, (flt_irrefl F) in H3. discriminate. }
  assert (Hp : 0 < fsqrt (fofZ 3)). { destruct (0 <? fsqrt (fofZ 3)) eqn:E; [reflexivity|]. exfalso. apply Hne. apply (flt_total F); auto. }
  assert (G : forall z, (0 < z)%Z -> diagonal_vector (fofZ z) (let c := fofZ z * 1 / fsqrt (fofZ 3) in (c, c, c))).
  { intros z Hz. split; [reflexivity|]. split; [reflexivity|]. split.
    - apply flt_le. apply fdiv_pos; [|exact Hp]. replace (fofZ z * 1) with (fofZ z : F) by ring. apply fofZ_pos. exact Hz.
    - assert (E3 : 1 + 1 + 1 = (fofZ 3 : F)) by (change 3%Z with (1 + 1 + 1)%Z; rewrite !fofZ_add; reflexivity).
      transitivity (fofZ z * fofZ z * (1 + 1 + 1) / (fsqrt (fofZ 3) * fsqrt (fofZ 3))); [field; exact Hne|].
      assert (H3n : (fofZ 3 : F) <> 0) by (intros E; rewrite E, (flt_irrefl F) in H3; discriminate). rewrite S2, E3. revert H3n. generalize (fofZ 3 : F). intros x Hx. field. exact Hx. }
  constructor; [apply G; lia|]. constructor; [apply G; lia|constructor].
Qed.

(* ---- the checks ---- *)
Lemma forallb_combine {A B} (p : A * B -> bool) : forall l m, forallb p (combine l m) = true <-> forall i x y, nth_error l i = Some x -> nth_error m i = Some y -> p (x, y) = true.
Proof.
  induction l as [|a l IH]; intros [|b m]; cbn [combine forallb].
  - split; auto. intros _ [|i]; discriminate.
  - split; auto. intros _ [|i]; discriminate.
  - split; auto. intros _ [|i]; discriminate.
  - rewrite andb_true_iff, IH. split.
    + intros [H1 H2] [|i] x y; cbn [nth_error]; [intros X Y; injection X as <-; injection Y as <-; exact H1|apply H2].
    + intros H. split; [apply (H 0%nat); reflexivity|]. intros i. apply (H (S i)).
Qed.
Lemma assert_Ok b : assert_that b = Ok tt <-> b = true. Proof. destruct b; split; auto; discriminate. Qed.
Lemma bind_unit (r : res unit) {A} (f : unit -> res A) y : bind r f = Ok y <-> r = Ok tt /\ f tt = Ok y.
Proof. destruct r as [[]|]; cbn [bind]; [tauto|]. split; [discriminate|intros [H _]; discriminate]. Qed.
Lemma checks_exact (a : @args F) : sanity_checks a = Ok tt <-> accepted a.
Proof.
  unfold sanity_checks, accepted. rewrite !bind_unit, !assert_Ok, !Nat.eqb_eq, !forallb_combine. cbn [fst snd].
  split.
  - intros (H1 & H2 & H3 & H4 & H5 & H6 & H7 & H8 & H9). split; [auto|]. split; [auto|].
    split; [intros i nB nV Hi Hj; specialize (H3 i nB nV Hi Hj); lia|]. split; [intros i l n0 Hi Hj; specialize (H4 i l n0 Hi Hj); lia|auto 10].
  - intros (H1 & H2 & H3 & H4 & H5 & H6 & H7 & H8 & H9). split; [auto|]. split; [auto|].
    split; [intros i nB nV Hi Hj; specialize (H3 i nB nV Hi Hj); lia|]. split; [intros i l n0 Hi Hj; specialize (H4 i l n0 Hi Hj); lia|auto 10].
Qed.
Lemma nth_bind {A B} (l : list A) k (f : A -> res B) y : (do x <- nth_res l k; f x) = Ok y <-> exists x, nth_error l k = Some x /\ f x = Ok y.
Proof. unfold nth_res. destruct (nth_error l k); cbn [bind]; split; [eauto|intros (x & X & Y); congruence|discriminate|intros (x & X & Y); congruence]. Qed.
Lemma checks_CF_exact (a : @args F) : sanity_checks_CF a = Ok tt <-> accepted_CF a.
Proof.
  unfold sanity_checks_CF, accepted_CF. rewrite bind_unit, checks_exact. apply and_iff_compat_l. rewrite nth_bind. split.
  - intros (l0 & E0 & H). apply bind_unit in H as [A0 H]. apply nth_bind in H as (l1 & E1 & H). apply bind_unit in H as [A1 H]. apply nth_bind in H as (nB & E2 & H). apply bind_unit in H as [A2 H].
    apply nth_bind in H as (nV & E3 & A3). apply assert_Ok in A0, A1, A2, A3.
    destruct (a_ls a) as [|x [|y rest]]; try discriminate. destruct (a_nBaths a) as [|z [|w restB]]; try discriminate. destruct (a_nValBaths a) as [|v [|t restV]]; try discriminate.
    cbn [nth_error] in *. injection E0 as ->. injection E1 as ->. injection E2 as ->. injection E3 as ->. apply orb_true_iff in A2.
    exists rest, z, nB, restB, v, restV. replace l0 with 1%Z by lia. replace l1 with 2%Z by lia. replace nV with 10%Z by lia. repeat (split; [reflexivity|]). lia.
  - intros (rest & nB0 & nB & restB & nV0 & restV & -> & -> & -> & H). exists 1%Z. split; [reflexivity|]. apply bind_unit. split; [reflexivity|]. apply nth_bind. exists 2%Z. split; [reflexivity|].
    apply bind_unit. split; [reflexivity|]. apply nth_bind. exists nB. split; [reflexivity|]. apply bind_unit. split; [apply assert_Ok, orb_true_iff; lia|]. apply nth_bind. exists 10%Z. split; reflexivity.
Qed.
(* every other command line ends with an AssertionError or an IndexError *)
Lemma checks_err (a : @args F) e : sanity_checks a = Err e -> e = AssertionError.
Proof. unfold sanity_checks, assert_that. repeat (destruct (_ : bool); cbn [bind]; [|congruence]). congruence. Qed.
End Mesh.
