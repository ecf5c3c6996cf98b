(* Lemmas on the model of main: eigensystem and the energy cut. *)
From Verif Require Import M_Prelude M_Scalar M_PSR M_Ladder M_State M_Mpi M_Hamiltonian M_Basis M_Main S_Fock S_Ham S_Main.
From Verif Require Import L_Scalar L_Sum L_Dict L_Fock L_Ham L_Ops L_Expect2.
From Coq Require Import Field Ring.
Local Open Scope Z_scope.

Lemma nth_res_eq {A} (l : list A) i a : nth_error l i = Some a -> nth_res l i = Ok a.
Proof. unfold nth_res. now intros ->. Qed.
Lemma nth_error_seq0 m i : (i < m)%nat -> nth_error (seq 0 m) i = Some i.
Proof. intros H. rewrite (nth_error_nth' _ 0%nat); [|now rewrite seq_length]. now rewrite seq_nth. Qed.
Lemma nth_error_combine {A B} (l : list A) : forall (m : list B) i p,
  nth_error (combine l m) i = Some p <-> nth_error l i = Some (fst p) /\ nth_error m i = Some (snd p).
Proof.
  induction l as [|a l IH]; intros [|b m] [|i] [x y]; simpl; try (split; [discriminate|intros []; discriminate]).
  - split; [intros H; injection H as -> ->; auto|intros [[= ->] [= ->]]; auto].
  - apply IH.
Qed.
Lemma firstn_S {A} (l : list A) m a : nth_error l m = Some a -> firstn (S m) l = firstn m l ++ [a].
Proof. revert m. induction l; intros [|m]; try discriminate; [intros [= ->]; auto|]. intros H. change (a0 :: firstn (S m) l = a0 :: firstn m l ++ [a]). now rewrite IHl. Qed.
Lemma NoDup_nth_firstn {A} (l : list A) m a : NoDup l -> nth_error l m = Some a -> ~ In a (firstn m l).
Proof.
  intros Hn Hm Hin. apply In_nth_error in Hin as [i Hi]. assert (i < m)%nat.
  { assert (H : nth_error (firstn m l) i <> None) by congruence. apply nth_error_Some in H. rewrite firstn_length in H. lia. }
  rewrite <- (firstn_skipn m l) in Hm, Hn. assert (Hi' : nth_error (firstn m l ++ skipn m l) i = Some a).
  { rewrite nth_error_app1; auto. apply nth_error_Some. congruence. }
  assert (i = m) by (apply (proj1 (NoDup_nth_error _) Hn); [apply nth_error_Some|]; congruence). lia.
Qed.

Section L.
Context {F : ofield}.
Add Field Ff : (f_field F).
Add Ring Cring : (@c_ring F).
Add Field Cf : (@c_field F).

Lemma NoDup_keys n (cs : list config) : Forall (fun c => length c = n) cs -> NoDup cs -> NoDup (map key cs).
Proof.
  intros Hl. induction 1 as [|c cs Hc Hn IH]; simpl; constructor.
  - intros Hin. apply in_map_iff in Hin as (d & E & Hd). inversion Hl; subst. apply Hc.
    rewrite Forall_forall in H2. rewrite <- (key_inj d c); auto.
  - inversion Hl; auto.
Qed.

(* ---- states from columns ---- *)
Definition big (swm : F) (bv : pybytes * cx F) : bool := negb (cabs2 (snd bv) <? swm)%F.
Lemma state_of_column_eq (basis : list pybytes) (swm : F) (v : list (cx F)) : NoDup basis -> length v = length basis ->
  state_of_column basis swm v = Ok (filter (big swm) (combine basis v)).
Proof.
  intros Hn Hl. unfold state_of_column.
  assert (H : forall m, (m <= length basis)%nat ->
    fold_res (fun psi i => do a <- nth_res v i; if (cabs2 a <? swm)%F then Ok psi else do b <- nth_res basis i; Ok (dset psi b a)) (seq 0 m) [] =
    Ok (filter (big swm) (firstn m (combine basis v)))).
  { induction m as [|m IH]; intros Hm; [reflexivity|].
    rewrite seq_S, fold_res_app, IH by lia. cbn [bind fold_res Nat.add].
    destruct (nth_error v m) as [a|] eqn:Ea; [|apply nth_error_None in Ea; lia].
    destruct (nth_error basis m) as [b|] eqn:Eb; [|apply nth_error_None in Eb; lia].
    rewrite (nth_res_eq _ _ _ Ea), (nth_res_eq _ _ _ Eb). cbn [bind].
    rewrite (firstn_S (combine basis v) m (b, a)) by (apply nth_error_combine; auto). rewrite filter_app. cbn [filter]. change (big swm (b, a)) with (negb (cabs2 a <? swm)%F).
    destruct (cabs2 a <? swm)%F; cbn [bind negb]; [now rewrite app_nil_r|]. cbn [fold_res bind].
    rewrite dset_notin; auto. intros Hin. apply (NoDup_nth_firstn basis m b Hn Eb).
    unfold dkeys in Hin. apply in_map_iff in Hin as ([b' a'] & E & Hin). simpl in E. subst b'.
    apply filter_In in Hin as [Hin _]. rewrite combine_firstn in Hin. now apply in_combine_l in Hin. }
  rewrite H by lia. rewrite firstn_all2; auto. rewrite combine_length. lia.
Qed.
Lemma keys_filter_NoDup (basis : list pybytes) (v : list (cx F)) f : NoDup basis -> NoDup (dkeys (filter f (combine basis v))).
Proof.
  revert v. induction basis as [|b basis IH]; intros [|a v] Hn; simpl; try constructor.
  inversion Hn; subst. destruct (f (b, a)); simpl; [constructor|]; auto.
  intros Hin. apply in_map_iff in Hin as ([b' a'] & E & Hin). simpl in E. subst.
  apply filter_In in Hin as [Hin _]. apply in_combine_l in Hin. contradiction.
Qed.
Lemma state_truncated n (cs : list config) (swm : F) (v : list (cx F)) : Forall (fun c => length c = n) cs -> NoDup cs -> length v = length cs ->
  exists psi, state_of_column (map key cs) swm v = Ok psi /\ truncated cs swm v psi.
Proof.
  intros Hc Hn Hl. pose proof (NoDup_keys n cs Hc Hn) as Hk.
  eexists. split; [apply state_of_column_eq; [auto|now rewrite map_length]|]. split; [now apply keys_filter_NoDup|].
  intros k a. split.
  - intros H. apply dget_In in H. apply filter_In in H as [H Hb]. apply In_nth_error in H as [i H].
    apply nth_error_combine in H as [Hi Hv]. simpl in Hi, Hv. rewrite nth_error_map in Hi.
    destruct (nth_error cs i) as [c|] eqn:Ec; [|discriminate]. simpl in Hi. exists i, c. repeat split; auto; [congruence|].
    unfold big in Hb. simpl in Hb. now apply negb_true_iff in Hb.
  - intros (i & c & Hi & Hv & -> & Hs). apply In_dget; [now apply keys_filter_NoDup|]. apply filter_In. split.
    + apply (nth_error_In _ i). apply nth_error_combine. simpl. split; auto. rewrite nth_error_map, Hi. reflexivity.
    + unfold big. simpl. now rewrite Hs.
Qed.

(* ---- diagonalisation ---- *)
Lemma sorted_nth (es : list F) : ascending es -> forall i j a b, (i <= j)%nat -> nth_error es i = Some a -> nth_error es j = Some b -> (a <= b)%F.
Proof.
  induction 1 as [|x l Hs IH Hx]; intros [|i] [|j] a b Hij Ha Hb; simpl in *; try discriminate; try lia.
  - assert (a = b) as -> by congruence. apply fle_refl.
  - injection Ha as ->. rewrite Forall_forall in Hx. apply Hx. now apply nth_error_In in Hb.
  - apply (IH i j); auto. lia.
Qed.
Lemma ascending_firstn (es : list F) : ascending es -> forall m, ascending (firstn m es).
Proof.
  induction 1 as [|x l Hs IH Hx]; intros [|m]; simpl; try constructor; [apply IH|].
  rewrite Forall_forall in *. intros y Hy. apply Hx. rewrite <- (firstn_skipn m l). apply in_or_app. auto.
Qed.
Lemma nth_error_firstn {A} (l : list A) : forall m i a, nth_error (firstn m l) i = Some a -> nth_error l i = Some a /\ (i < m)%nat.
Proof. induction l; intros [|m] [|i] x; simpl; try discriminate; [intros H; split; [auto|lia]|]. intros H. apply IHl in H as []. split; auto; lia. Qed.

Lemma eigen_equation (op : op_t F) (cs : list config) h es vecs : matrix_of op cs h -> eigen_of (length cs) h es vecs ->
  forall k e v, nth_error es k = Some e -> nth_error vecs k = Some v -> eigenvector op cs e v.
Proof.
  intros Hm (Hl & Hlen & He) k e v Hk Hv. rewrite Forall_forall in Hlen. pose proof (Hlen v (nth_error_In _ _ Hv)) as Lv.
  split; auto. intros i ci vi Hi Hvi. assert (Hlt : (i < length cs)%nat) by (apply nth_error_Some; congruence).
  specialize (He k e v Hk Hv i Hlt). rewrite (nth_error_nth v i c0 Hvi) in He. rewrite <- He.
  assert (Hcv : combine cs v = map (fun j => (nth j cs [], nth j v c0)) (seq 0 (length cs))).
  { unfold config in *. apply (nth_ext _ _ ([], c0) ([], c0)); [rewrite map_length, seq_length, combine_length; lia|].
    intros j Hj. rewrite combine_length in Hj. rewrite combine_nth by lia.
    set (g := fun j => (nth j cs [], nth j v c0)). rewrite (nth_indep (map g _) _ (g 0%nat)) by (rewrite map_length, seq_length; lia).
    rewrite (map_nth g), seq_nth by lia. reflexivity. }
  rewrite Hcv, csum_map. apply csum_ext. intros j Hj. apply in_seq in Hj. simpl.
  rewrite (Hm i j ci (nth j cs [])); auto. apply nth_error_nth'. lia.
Qed.

Section Eigen.
Variable eigh : nat -> M_Hamiltonian.mat F -> res (list F * list (list (cx F))).
Variable eigsh : nat -> M_Hamiltonian.mat F -> Z -> res (list F * list (list (cx F))).
Variable argsort : list F -> list nat.

Lemma diag_full (op : op_t F) cs h nPsiMax : eigh_works op cs eigh -> matrix_of op cs h -> hermitian (length cs) h ->
  exists es vecs, diagonalize eigh eigsh argsort (length cs) h nPsiMax FullDiag = Ok (es, vecs) /\
    length es = length (slice_to (repeat tt (length cs)) nPsiMax) /\ ascending es /\ eigen_of (length cs) h es vecs /\ orthonormal (length cs) vecs.
Proof.
  intros He Hm Hh. destruct (He h Hm Hh) as (es & vecs & E & Hl & Ha & (H1 & H2 & H3) & Ho). unfold diagonalize. rewrite E. cbn [bind].
  do 2 eexists. split; [reflexivity|]. unfold slice_to. rewrite repeat_length, H1, Hl.
  set (m := Z.to_nat _). split; [rewrite !firstn_length, repeat_length; lia|]. split; [now apply ascending_firstn|]. split; [split; [|split]|].
  - rewrite !firstn_length. lia.
  - rewrite Forall_forall in *. intros v Hv. apply H2. rewrite <- (firstn_skipn m vecs). apply in_or_app. auto.
  - intros k e v Hk Hv. apply nth_error_firstn in Hk as [Hk _], Hv as [Hv _]. now apply (H3 k).
  - intros k l v w Hv Hw. apply nth_error_firstn in Hv as [Hv _], Hw as [Hw _]. now apply Ho.
Qed.
Lemma nth_map_seq {A B} (f : A -> B) (l : list A) k b : nth_error (map f l) k = Some b -> exists a, nth_error l k = Some a /\ b = f a.
Proof. rewrite nth_error_map. destruct (nth_error l k); simpl; intros [= <-]; eauto. Qed.
Lemma map_res_nths {A} (l : list A) d is : (forall i, In i is -> (i < length l)%nat) -> map_res (nth_res l) is = Ok (map (fun i => nth i l d) is).
Proof. intros H. apply map_res_ok. intros i Hi. apply nth_res_eq. apply nth_error_nth'. auto. Qed.
Lemma diag_lanczos (op : op_t F) cs h nPsiMax : eigsh_works op cs nPsiMax eigsh -> argsort_works argsort -> matrix_of op cs h -> hermitian (length cs) h ->
  exists es vecs, diagonalize eigh eigsh argsort (length cs) h nPsiMax LanczosDiag = Ok (es, vecs) /\
    Z.of_nat (length es) = nPsiMax /\ ascending es /\ eigen_of (length cs) h es vecs /\ orthonormal (length cs) vecs.
Proof.
  intros He Ha Hm Hh. destruct (He h Hm Hh) as (es & vecs & E & Hl & (H1 & H2 & H3) & Ho). unfold diagonalize. rewrite E. cbn [bind].
  destruct (Ha es) as [Hp Hs]. assert (Hr : forall i, In i (argsort es) -> (i < length es)%nat).
  { intros i Hi. apply (Permutation_in _ Hp) in Hi. apply in_seq in Hi. lia. }
  rewrite (map_res_nths es 0%F) by auto. cbn [bind]. rewrite (map_res_nths vecs []) by (intros i Hi; rewrite H1; auto). cbn [bind].
  do 2 eexists. split; [reflexivity|]. split; [rewrite map_length, (Permutation_length Hp), seq_length; auto|]. split; [auto|]. split; [split; [|split]|].
  - now rewrite !map_length.
  - rewrite Forall_forall in *. intros v Hv. apply in_map_iff in Hv as (i & <- & Hi). apply H2. apply nth_In. rewrite H1. auto.
  - intros k e v Hk Hv. apply nth_map_seq in Hk as (i & Hi & ->), Hv as (i' & Hi' & ->). assert (i' = i) as -> by congruence.
    pose proof (Hr i (nth_error_In _ _ Hi)). apply (H3 i); apply nth_error_nth'; lia.
  - intros k l v w Hv Hw. apply nth_map_seq in Hv as (i & Hi & ->), Hw as (j & Hj & ->).
    pose proof (Hr i (nth_error_In _ _ Hi)). pose proof (Hr j (nth_error_In _ _ Hj)).
    rewrite (Ho i j) by (apply nth_error_nth'; lia). destruct (Nat.eqb_spec i j), (Nat.eqb_spec k l); auto; subst.
    + exfalso. apply n. assert (Hnd : NoDup (argsort es)) by (apply (Permutation_NoDup (Permutation_sym Hp)), seq_NoDup).
      apply (proj1 (NoDup_nth_error _) Hnd); [apply nth_error_Some|]; congruence.
    + congruence.
Qed.

(* the states of the columns *)
Lemma states_of_columns n cs (swm : F) es vecs : Forall (fun c => length c = n) cs -> NoDup cs -> length vecs = length es -> Forall (fun v => length v = length cs) vecs ->
  exists psis, map_res (fun vi => do col <- nth_res vecs vi; state_of_column (map key cs) swm col) (seq 0 (length (A:=F) es)) = Ok psis /\
    length psis = length es /\ forall k psi v, nth_error psis k = Some psi -> nth_error vecs k = Some v -> truncated cs swm v psi.
Proof.
  intros Hc Hn Hl Hv. rewrite Forall_forall in Hv.
  set (g := fun vi => filter (big swm) (combine (map key cs) (nth vi vecs []))).
  assert (E : forall vi, In vi (seq 0 (length es)) -> (do col <- nth_res vecs vi; state_of_column (map key cs) swm col) = Ok (g vi)).
  { intros vi Hi. apply in_seq in Hi. rewrite (nth_res_eq vecs vi (nth vi vecs [])) by (apply nth_error_nth'; lia). cbn [bind].
    apply state_of_column_eq; [now apply NoDup_keys with n|]. rewrite map_length. apply Hv, nth_In. lia. }
  exists (map g (seq 0 (length es))). split; [exact (map_res_ok _ g _ E)|]. split; [now rewrite map_length, seq_length|].
  intros k psi v Hk Hkv. apply nth_map_seq in Hk as (i & Hi & ->).
  assert (k < length es)%nat by (rewrite <- Hl; apply nth_error_Some; congruence).
  rewrite nth_error_seq0 in Hi by auto. injection Hi as <-.
  destruct (state_truncated n cs swm v Hc Hn (Hv v (nth_error_In _ _ Hkv))) as (psi & E1 & Ht).
  rewrite state_of_column_eq in E1; [|now apply NoDup_keys with n|rewrite map_length; apply Hv; now apply nth_error_In in Hkv].
  unfold g. rewrite (nth_error_nth vecs k [] Hkv). now injection E1 as ->.
Qed.

Lemma enumerate_repeat {A} (x : A) m : enumerate (repeat x m) = map (fun r => (r, x)) (seq 0 m).
Proof.
  unfold enumerate. rewrite repeat_length. generalize 0%nat. induction m; intros s; simpl; auto. now rewrite IHm.
Qed.
Lemma map_const_repeat {A B} (f : A -> B) b l : (forall a, In a l -> f a = b) -> map f l = repeat b (length l).
Proof. induction l; intros H; simpl; auto. rewrite H by (left; auto). f_equal. apply IHl. intros; apply H; right; auto. Qed.

Lemma eigensystem_with n (op : op_t F) cs ranks nPsiMax mode swm (Q : list F -> Prop) : wf_op n op -> assert_hermitian op = Ok tt ->
  Forall (fun c => length c = n) cs -> NoDup cs -> cs <> [] -> (1 <= ranks)%nat ->
  (forall h, matrix_of op cs h -> hermitian (length cs) h -> exists es vecs, diagonalize eigh eigsh argsort (length cs) h nPsiMax mode = Ok (es, vecs) /\
    Q es /\ ascending es /\ eigen_of (length cs) h es vecs /\ orthonormal (length cs) vecs) ->
  exists es psis, eigensystem eigh eigsh argsort ranks (Z.of_nat n) op (map key cs) nPsiMax mode swm = repeat (Ok (es, psis)) ranks /\
    Q es /\ eigenstates op cs swm es psis.
Proof.
  intros Hw Hh Hc Hn Hne Hr HD. pose proof (NoDup_keys n cs Hc Hn) as Hk.
  assert (Hvk : Forall (valid_key n) (map key cs)).
  { rewrite Forall_forall in *. intros k Hk'. apply in_map_iff in Hk' as (c & <- & Hin). exists c. auto. }
  destruct (ham_entry n op (map key cs) ranks SparseMPI Hw Hvk Hr ltac:(discriminate)) as (m & E & Hm). specialize (Hm Hk).
  destruct (ham_hermitian n op (map key cs) ranks SparseMPI Hw Hh Hvk Hk Hr ltac:(discriminate)) as (m' & E' & Hherm).
  assert (m' = m) as ->. { rewrite E in E'. destruct ranks; [lia|]. simpl in E'. congruence. }
  rewrite map_length in Hherm.
  assert (Hmat : matrix_of op cs m).
  { intros i j ci cj Hi Hj. rewrite Forall_forall in Hc. apply Hm; try (rewrite nth_error_map, ?Hi, ?Hj; reflexivity); apply Hc; eapply nth_error_In; eauto. }
  destruct (HD m Hmat Hherm) as (es & vecs & Ed & HQ & Ha & He & Ho). pose proof He as (Hl & Hlen & _).
  destruct (states_of_columns n cs swm es vecs Hc Hn Hl Hlen) as (psis & Ep & Lp & Ht).
  exists es, psis. split; [|split; [exact HQ|split; [exact Ha|split; [exact Lp|exists vecs; split; [exact Hl|split; [exact Ho|]]]]]].
  - unfold eigensystem. rewrite E, enumerate_repeat, map_map. erewrite map_const_repeat; [now rewrite seq_length|].
    intros r _. cbn [fst snd bind]. unfold eigen_local. assert (Lk : length (map key cs) = length cs) by apply map_length. rewrite Lk. assert (Hz : Nat.eqb (length cs) 0 = false) by (destruct cs; [contradiction|reflexivity]). rewrite Hz, andb_false_r. rewrite Ed. cbn [bind]. rewrite Ep. reflexivity.
  - intros k e psi v Hke Hkp Hkv. split; [now apply (eigen_equation op cs m es vecs Hmat He k)|now apply (Ht k)].
Qed.

Lemma eigensystem_full n (op : op_t F) cs ranks nPsiMax swm : wf_op n op -> assert_hermitian op = Ok tt ->
  Forall (fun c => length c = n) cs -> NoDup cs -> cs <> [] -> (1 <= ranks)%nat -> (0 <= nPsiMax) -> eigh_works op cs eigh ->
  exists es psis, eigensystem eigh eigsh argsort ranks (Z.of_nat n) op (map key cs) nPsiMax FullDiag swm = repeat (Ok (es, psis)) ranks /\
    Z.of_nat (length es) = Z.min nPsiMax (Z.of_nat (length cs)) /\ eigenstates op cs swm es psis.
Proof.
  intros Hw Hh Hc Hn Hne Hr Hp He.
  apply (eigensystem_with n op cs ranks nPsiMax FullDiag swm (fun es => Z.of_nat (length es) = Z.min nPsiMax (Z.of_nat (length cs)))); auto.
  intros h Hm Hhm. destruct (diag_full op cs h nPsiMax He Hm Hhm) as (es & vecs & E & HL & H). exists es, vecs. split; [auto|]. split; [|auto].
  rewrite HL. unfold slice_to. destruct (Z.ltb_spec nPsiMax 0); [lia|]. rewrite firstn_length, repeat_length. unfold config in *. lia.
Qed.
Lemma eigensystem_lanczos n (op : op_t F) cs ranks nPsiMax swm : wf_op n op -> assert_hermitian op = Ok tt ->
  Forall (fun c => length c = n) cs -> NoDup cs -> cs <> [] -> (1 <= ranks)%nat -> eigsh_works op cs nPsiMax eigsh -> argsort_works argsort ->
  exists es psis, eigensystem eigh eigsh argsort ranks (Z.of_nat n) op (map key cs) nPsiMax LanczosDiag swm = repeat (Ok (es, psis)) ranks /\
    Z.of_nat (length es) = nPsiMax /\ eigenstates op cs swm es psis.
Proof.
  intros Hw Hh Hc Hn Hne Hr He Ha.
  apply (eigensystem_with n op cs ranks nPsiMax LanczosDiag swm (fun es => Z.of_nat (length es) = nPsiMax)); auto.
  intros h Hm Hhm. exact (diag_lanczos op cs h nPsiMax He Ha Hm Hhm).
Qed.
(* errors *)
Lemma eigensystem_other n (op : op_t F) cs ranks nPsiMax swm : wf_op n op -> Forall (fun c => length c = n) cs -> cs <> [] -> (1 <= ranks)%nat ->
  eigensystem eigh eigsh argsort ranks (Z.of_nat n) op (map key cs) nPsiMax OtherDiag swm = repeat (Err UnboundLocalError) ranks.
Proof.
  intros Hw Hc Hne Hr. assert (Hvk : Forall (valid_key n) (map key cs)).
  { rewrite Forall_forall in *. intros k Hk'. apply in_map_iff in Hk' as (c & <- & Hin). exists c. auto. }
  destruct (ham_entry n op (map key cs) ranks SparseMPI Hw Hvk Hr ltac:(discriminate)) as (m & E & _).
  unfold eigensystem. rewrite E, enumerate_repeat, map_map. erewrite map_const_repeat; [now rewrite seq_length|].
  intros r _. cbn [fst snd bind]. unfold eigen_local. rewrite map_length. destruct cs; [contradiction|]. rewrite andb_false_r. reflexivity.
Qed.
Lemma eigensystem_empty n (op : op_t F) ranks nPsiMax mode swm : wf_op n op -> (1 <= ranks)%nat ->
  hd_error (eigensystem eigh eigsh argsort ranks (Z.of_nat n) op [] nPsiMax mode swm) = Some (Err ZeroDivisionError).
Proof.
  intros Hw Hr. destruct (ham_entry n op [] ranks SparseMPI Hw (Forall_nil _) Hr ltac:(discriminate)) as (m & E & _).
  unfold eigensystem. rewrite E, enumerate_repeat. destruct ranks; [lia|]. reflexivity.
Qed.
End Eigen.

(* ---- weight of the truncated state ---- *)
Lemma truncated_unique cs (swm : F) v psi psi' : truncated cs swm v psi -> truncated cs swm v psi' -> forall k, dget psi k = dget psi' k.
Proof.
  intros [_ H] [_ H'] k. destruct (dget psi k) as [a|] eqn:E.
  - symmetry. apply H'. now apply H.
  - destruct (dget psi' k) as [a|] eqn:E'; auto. apply H' in E'. apply H in E'. congruence.
Qed.
End L.
