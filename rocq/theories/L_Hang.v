(* Functions without communication raise Python exceptions only: never Deadlock, and OutOfFuel only where fuel is used. *)
From Verif Require Import M_Prelude M_Scalar M_PSR M_Ladder M_State M_Mpi M_Hamiltonian M_Lanczos M_Basis M_Average M_Expect M_Operators.
From Verif Require Import M_Spectra M_Simulate M_RIXS M_Main M_Program.
Local Open Scope Z_scope.

Definition exn {A} (r : res A) : Prop := r <> Err Deadlock /\ r <> Err OutOfFuel.
Lemma exn_Ok A (a : A) : exn (Ok a). Proof. split; discriminate. Qed.
Lemma exn_bind A B (x : res A) (f : A -> res B) : exn x -> (forall a, exn (f a)) -> exn (bind x f).
Proof. destruct x as [a|e]; cbn; auto. intros [H1 H2] _. split; intros E; injection E as ->; auto. Qed.
Lemma exn_rmap A B (f : A -> B) x : exn x -> exn (rmap f x).
Proof. destruct x as [a|e]; cbn; [intros _; apply exn_Ok|]. intros [H1 H2]. split; intros E; injection E as ->; auto. Qed.
Lemma exn_fold A S (f : S -> A -> res S) l : (forall s a, exn (f s a)) -> forall s, exn (fold_res f l s).
Proof. intros H. induction l as [|a l IH]; intros s; cbn [fold_res]; [apply exn_Ok|]. apply exn_bind; auto. Qed.
Lemma exn_map A B (f : A -> res B) l : (forall a, exn (f a)) -> exn (map_res f l).
Proof. intros H. induction l as [|a l IH]; cbn [map_res]; [apply exn_Ok|]. apply exn_bind; auto. intros b. apply exn_bind; auto. intros; apply exn_Ok. Qed.
Create HintDb exn.
Ltac ex := repeat (cbv zeta; lazymatch goal with
  | |- exn (Ok _) => apply exn_Ok
  | |- exn (Err _) => split; discriminate
  | |- exn (bind _ _) => apply exn_bind; [|intro]
  | |- exn (rmap _ _) => apply exn_rmap
  | |- exn (fold_res _ _ _) => apply exn_fold; intros
  | |- exn (map_res _ _) => apply exn_map; intros
  | |- exn (match ?x with _ => _ end) => destruct x
  | |- exn _ => solve [auto with exn nocore]
  end).
Lemma exn_py_nth A (l : list A) i : exn (py_nth l i). Proof. unfold py_nth. ex. Qed.
Lemma exn_py_set A (l : list A) i x : exn (py_set l i x). Proof. unfold py_set. ex. Qed.
Lemma exn_nth_res A (l : list A) i : exn (nth_res l i). Proof. unfold nth_res. ex. Qed.
Lemma exn_dgetitem K V {E : EqB K} (d : dict K V) k : exn (dgetitem d k). Proof. unfold dgetitem. ex. Qed.
Lemma exn_assert b : exn (assert_that b). Proof. unfold assert_that. ex. Qed.
Lemma exn_jobs A r n (l : list A) : exn (get_job_tasks r n l). Proof. unfold get_job_tasks. ex. Qed.
#[export] Hint Resolve exn_py_nth exn_py_set exn_nth_res exn_dgetitem exn_assert exn_jobs : exn.
Lemma exn_rem i b : exn (remove_ubitarray i b). Proof. unfold remove_ubitarray. ex. Qed.
Lemma exn_cre i b : exn (create_ubitarray i b). Proof. unfold create_ubitarray. ex. Qed.
#[export] Hint Resolve exn_rem exn_cre : exn.
Lemma exn_remB n i b : exn (remove_ubytes n i b). Proof. unfold remove_ubytes. ex. Qed.
Lemma exn_creB n i b : exn (create_ubytes n i b). Proof. unfold create_ubytes. ex. Qed.
Lemma exn_proc l : forall b s o, exn (proc_loop l b s o).
Proof. induction l as [|[i a] l IH]; intros b s o; cbn [proc_loop]; ex. Qed.
Lemma exn_bits s : exn (bitarray_of_str s).
Proof. induction s as [|c s IH]; cbn [bitarray_of_str]; ex. Qed.
#[export] Hint Resolve exn_remB exn_creB exn_proc exn_bits : exn.
Lemma exn_t2b t n : exn (tuple2bytes t n). Proof. unfold tuple2bytes, tuple2bitarray. ex. Qed.
Lemma exn_comb A (l : list A) r : exn (combinations l r). Proof. unfold combinations. ex. Qed.
Lemma exn_c2i nb x : exn (c2i nb x). Proof. unfold c2i. ex. Qed.
Lemma exn_i2c_bath l : forall i k, exn (i2c_bath l i k).
Proof. induction l as [|[k' n] l IH]; intros i k; cbn [i2c_bath]; ex. Qed.
#[export] Hint Resolve exn_t2b exn_comb exn_c2i exn_i2c_bath : exn.
Lemma exn_i2c nb i : exn (i2c nb i). Proof. unfold i2c. ex. Qed.
#[export] Hint Resolve exn_i2c : exn.
Lemma exn_pb nb l nB v a b c : exn (partition_basis nb l nB v a b c). Proof. unfold partition_basis. ex. Qed.
#[export] Hint Resolve exn_pb : exn.
Lemma exn_sb a b c d e f l nB : exn (shell_basis a b c d e f l nB). Proof. unfold shell_basis. ex. Qed.
#[export] Hint Resolve exn_sb : exn.
Lemma exn_get_basis a b c d e f : exn (get_basis a b c d e f). Proof. unfold get_basis. ex. Qed.
#[export] Hint Resolve exn_get_basis : exn.

Section A.
Context {F : ofield}.
Implicit Types op : op_t F.

(* ---- finite.py ---- *)
Lemma exn_restr n op psi rs : exn (applyOp_restr n op psi rs). Proof. unfold applyOp_restr. ex. Qed.
Lemma exn_plain n op psi : exn (applyOp_plain n op psi). Proof. unfold applyOp_plain. ex. Qed.
Definition cexn {S C} (r : cres S C) : Prop := match r with COk _ => True | CErr e _ => e <> Deadlock /\ e <> OutOfFuel end.
Lemma exn_proc_err l b s o e : proc_loop l b s o = Err e -> e <> Deadlock /\ e <> OutOfFuel.
Proof. intros E. destruct (exn_proc l b s o) as [H1 H2]. rewrite E in *. split; intros ->; auto. Qed.
Lemma cexn_restr l : forall b (a : cx F) rs p c s, cexn (col_loop_restr l b a rs p c s).
Proof.
  induction l as [|[p h] l IH]; intros b a rs pn c s; cbn [col_loop_restr]; [exact I|].
  destruct (proc_loop (rev p) b 1 s) as [[s' [[st t]|]]|e] eqn:E; [|apply IH|eapply exn_proc_err; eauto].
  cbv zeta. destruct (dget pn _); [apply IH|]. destruct (restrictions_ok _ _); apply IH.
Qed.
Lemma cexn_plain l : forall b (a : cx F) p c s, cexn (col_loop_plain l b a p c s).
Proof.
  induction l as [|[p h] l IH]; intros b a pn c s; cbn [col_loop_plain]; [exact I|].
  destruct (proc_loop (rev p) b 1 s) as [[s' [[st t]|]]|e] eqn:E; [|apply IH|eapply exn_proc_err; eauto]. apply IH.
Qed.
Lemma cexn_cached n op swm rs l : forall p c s, cexn (cached_loop n op swm rs l p c s).
Proof.
  induction l as [|[st a] l IH]; intros p c s; cbn [cached_loop]; [exact I|].
  destruct (dget c st); [apply IH|]. cbv zeta.
  match goal with |- cexn (match ?x with _ => _ end) => assert (H : cexn x) by (destruct rs; [apply cexn_restr|apply cexn_plain]); destruct x as [[[? ?] ?]|]; [apply IH|exact H] end.
Qed.
Lemma exn_applyOp n op psi swm rs c : exn (snd (applyOp n op psi swm rs c)).
Proof.
  unfold applyOp. destruct rs, c; cbn [snd]; ex; auto using exn_restr, exn_plain;
  match goal with |- context [cached_loop ?n ?op ?w ?r ?l ?p ?c ?s] => pose proof (cexn_cached n op w r l p c s) as H; destruct (cached_loop n op w r l p c s) as [[? ?]|]; cbn [snd] end; ex;
  destruct H; split; intros E; injection E as ->; auto.
Qed.

(* ---- expectation values ---- *)
Variable fsqrt fexp : F -> F.
Lemma exn_total nb : exn (total_orbitals nb). Proof. unfold total_orbitals. ex. Qed.
Hint Resolve exn_total : exn.
Lemma exn_a n i (psi : psi_t F) : exn (op_a n i psi). Proof. unfold op_a. ex. Qed.
Lemma exn_c n i (psi : psi_t F) : exn (op_c n i psi). Proof. unfold op_c. ex. Qed.
Hint Resolve exn_a exn_c : exn.
Lemma exn_hop nb n (psi psi' : psi_t F) x y v : exn (hop_add nb n psi psi' x y v). Proof. unfold hop_add. ex. Qed.
Hint Resolve exn_hop : exn.
Lemma exn_Lz nb (psi : psi_t F) : exn (getLz3d nb psi). Proof. unfold getLz3d. ex. Qed.
Lemma exn_Sz nb (psi : psi_t F) : exn (getSz3d nb psi). Proof. unfold getSz3d. ex. Qed.
Lemma exn_aSz nb (psi : psi_t F) : exn (applySz3d nb psi). Proof. unfold applySz3d. ex. Qed.
Lemma exn_aLz nb (psi : psi_t F) : exn (applyLz3d nb psi). Proof. unfold applyLz3d. ex. Qed.
Lemma exn_aSp nb (psi : psi_t F) : exn (applySplus3d nb psi). Proof. unfold applySplus3d. ex. Qed.
Lemma exn_aSm nb (psi : psi_t F) : exn (applySminus3d nb psi). Proof. unfold applySminus3d. ex. Qed.
Lemma exn_aLp nb (psi : psi_t F) : exn (applyLplus3d fsqrt nb psi). Proof. unfold applyLplus3d. ex. Qed.
Lemma exn_aLm nb (psi : psi_t F) : exn (applyLminus3d fsqrt nb psi). Proof. unfold applyLminus3d. ex. Qed.
Hint Resolve exn_Lz exn_Sz exn_aSz exn_aLz exn_aSp exn_aSm exn_aLp exn_aLm : exn.
Lemma exn_S2 nb (psi : psi_t F) : exn (getSsqr3d nb psi). Proof. unfold getSsqr3d. ex. Qed.
Lemma exn_L2 nb (psi : psi_t F) : exn (getLsqr3d fsqrt nb psi). Proof. unfold getLsqr3d. ex. Qed.
Lemma exn_N nb (psi : psi_t F) l : exn (getTraceDensityMatrix nb psi l). Proof. unfold getTraceDensityMatrix. ex. Qed.
Lemma exn_dm nb (psi : psi_t F) l : exn (getDensityMatrix nb psi l). Proof. unfold getDensityMatrix. ex. Qed.
Hint Resolve exn_S2 exn_L2 exn_N exn_dm : exn.
Lemma exn_mset (u : M_Expect.mat) i j (v : cx F) : exn (M_Expect.mset u i j v). Proof. unfold M_Expect.mset. ex. Qed.
Lemma exn_mget (u : M_Expect.mat) i j : exn (@mget F u i j). Proof. unfold mget. ex. Qed.
Hint Resolve exn_mset exn_mget : exn.
Lemma exn_msets l : forall u : M_Expect.mat, exn (@msets F u l).
Proof. induction l as [|[[i j] v] l IH]; intros u; cbn [msets]; ex. Qed.
Hint Resolve exn_msets : exn.
Lemma exn_u b l : exn (get_spherical_2_cubic_matrix fsqrt b l). Proof. unfold get_spherical_2_cubic_matrix. ex. Qed.
Hint Resolve exn_u : exn.
Lemma exn_cub nb (psi : psi_t F) : exn (getDensityMatrixCubic fsqrt nb psi). Proof. unfold getDensityMatrixCubic. ex. Qed.
Hint Resolve exn_cub : exn.
Lemma exn_eg nb (psi : psi_t F) : exn (getEgT2gOccupation fsqrt nb psi). Proof. unfold getEgT2gOccupation. ex. Qed.
Hint Resolve exn_eg : exn.
(* ---- averages and printing ---- *)
Variable k_B : F.
Lemma exn_avg es obs T : exn (thermal_average fexp k_B es obs T). Proof. unfold thermal_average, np_shape0, np_min. ex. Qed.
Hint Resolve exn_avg : exn.
Lemma exn_columns mesh es T nT gs : exn (columns fexp k_B mesh es T nT gs). Proof. unfold columns. ex. Qed.
Hint Resolve exn_columns : exn.
Lemma exn_thermal nb es psis T c : exn (printThermalExpValues fsqrt fexp k_B nb es psis T c). Proof. unfold printThermalExpValues. ex. Qed.
Lemma exn_occ nb es psis T c : exn (thermal_occupations fsqrt fexp k_B nb es psis T c). Proof. unfold thermal_occupations. ex. Qed.
Lemma exn_print nb es psis : exn (printExpValues fsqrt nb es psis). Proof. unfold printExpValues. ex. Qed.
Lemma exn_weights argsort m (psis : list (psi_t F)) : exn (print_weights argsort m psis). Proof. unfold print_weights, descending. ex. Qed.
Lemma exn_density nb t psis : exn (print_density fsqrt nb t psis). Proof. unfold print_density. ex. Qed.
Lemma exn_low es (psis : list (psi_t F)) c : exn (low_energy es psis c). Proof. unfold low_energy. ex. Qed.
Lemma exn_restrictions a b c d e f : exn (excited_restrictions a b c d e f). Proof. unfold excited_restrictions. ex. Qed.
Lemma exn_rixs f32 wIn wLoss (a : list (list F)) : exn (write_rixs f32 wIn wLoss a). Proof. unfold write_rixs. ex. Qed.
Hint Resolve exn_rixs : exn.
(* ---- operators ---- *)
Lemma exn_dagger (op : op_t F) : exn (daggerOp op). Proof. unfold daggerOp, dagger_process. ex. Qed.
Hint Resolve exn_dagger : exn.
Lemma exn_pol (n0 n1 n2 : F) d : exn (pol fsqrt n0 n1 n2 d). Proof. unfold pol. ex. Qed.
Hint Resolve exn_pol : exn.
Variable pi : F.
Variable gaunt : Z -> Z -> Z -> Z -> Z -> Z -> F.
Lemma exn_dip nb n : exn (getDipoleOperator fsqrt pi gaunt nb n). Proof. unfold getDipoleOperator. ex. Qed.
Hint Resolve exn_dip : exn.
Lemma exn_dips nb ns : exn (getDipoleOperators fsqrt pi gaunt nb ns). Proof. unfold getDipoleOperators. ex. Qed.
Lemma exn_ddips nb ns : exn (getDaggeredDipoleOperators fsqrt pi gaunt nb ns). Proof. unfold getDaggeredDipoleOperators. ex. Qed.
Lemma exn_pes c nb l : exn (@getPESOperators F c nb l). Proof. unfold getPESOperators. ex. Qed.
Lemma exn_nixs arccos fsin jn sph nb qs li lj mesh : exn (@getNIXSOperators F fsqrt arccos fsin pi gaunt jn sph nb qs li lj mesh).
Proof. unfold getNIXSOperators, getNIXSOperator. ex. Qed.
(* ---- Hamiltonian matrices ---- *)
Hint Resolve exn_applyOp : exn.
Lemma exn_trip n (op : op_t F) b j : exn (ham_triplets n op b j). Proof. unfold ham_triplets, h_column. ex. Qed.
Lemma exn_column n (op : op_t F) rs b : exn (r_column n op rs b). Proof. unfold r_column. ex. Qed.
Hint Resolve exn_trip exn_column : exn.
Lemma exn_newA o (s : @rank_state F) : exn (newA o s). Proof. unfold newA. ex. Qed.
Lemma exn_do_jobs n (op : op_t F) rs r R tB s bn : exn (do_jobs n op rs r R tB s bn). Proof. unfold do_jobs. ex. Qed.
Lemma exn_local o (h : hdict_t F) b : exn (from_h_dict_local o h b). Proof. unfold from_h_dict_local. ex. Qed.
Lemma exn_sparse (h : hdict_t F) b : exn (from_h_dict_sparse h b). Proof. unfold from_h_dict_sparse. ex. Qed.
Lemma exn_psi_vec idx (psi : psi_t F) : exn (psi_vec idx psi). Proof. unfold psi_vec. ex. Qed.
Lemma exn_normalise (psi : psi_t F) : exn (normalise fsqrt psi). Proof. unfold normalise. ex. Qed.
Lemma exn_krylov_loop k dot : forall v w, exn (krylov_loop fsqrt k dot v w).
Proof. induction k as [|k IH]; intros v w; cbn [krylov_loop]; ex. Qed.
Lemma exn_krylov dot (v : vec F) ks : exn (krylov fsqrt dot v ks). Proof. unfold krylov. ex; apply exn_krylov_loop. Qed.
Lemma exn_psi2 bicgstab (sys : @system F) w d e : exn (psi2_at bicgstab sys w d e). Proof. unfold psi2_at, psi2_of. ex. Qed.
End A.
