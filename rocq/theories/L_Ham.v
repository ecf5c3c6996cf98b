(* Lemmas about get_hamiltonian_matrix. *)
From Coq Require Import Permutation Ring Field.
From Verif Require Import M_Prelude M_Scalar M_PSR M_Ladder M_State M_Mpi M_Hamiltonian S_Fock S_Ops S_Ham.
From Verif Require Import L_Scalar L_Sum L_Dict L_PSR L_Fock L_State L_ApplyOp L_Ops L_FockP.
Local Open Scope Z_scope.

(* ---- generic ---- *)
Lemma fold_res_ok {A S} (f : S -> A -> res S) (g : S -> A -> S) l : forall s,
  (forall s a, In a l -> f s a = Ok (g s a)) -> fold_res f l s = Ok (fold_left g l s).
Proof.
  induction l as [|a l IH]; intros s H; simpl; auto. rewrite H by (left; auto). simpl. apply IH.
  intros; apply H; right; auto.
Qed.
Lemma fold_left_ext {A S} (f g : S -> A -> S) l : (forall s a, In a l -> f s a = g s a) ->
  forall s, fold_left f l s = fold_left g l s.
Proof.
  induction l as [|a l IH]; intros H s; simpl; auto. rewrite H by (left; auto). apply IH. intros; apply H; right; auto.
Qed.
Lemma fold_left_flat_map {A B S} (f : S -> B -> S) (g : A -> list B) l : forall s,
  fold_left f (flat_map g l) s = fold_left (fun s a => fold_left f (g a) s) l s.
Proof. induction l as [|a l IH]; intros s; simpl; auto. rewrite fold_left_app. apply IH. Qed.
Lemma map_res_map {A B} (f : A -> res B) (g : A -> B) l : (forall a, In a l -> f a = Ok (g a)) ->
  map_res f l = Ok (map g l).
Proof.
  induction l as [|a l IH]; intros H; simpl; auto. rewrite H by (left; auto). simpl.
  rewrite IH by (intros; apply H; right; auto). reflexivity.
Qed.
Lemma bcast_all_ok {A} (l : list A) : bcast_all (map Ok l) = map (fun _ => Ok l) l.
Proof.
  unfold bcast_all. replace (forallb is_ok (map Ok l)) with true.
  - rewrite map_map. replace (oks (map Ok l)) with l; auto.
    unfold oks. induction l; simpl; auto. f_equal; auto.
  - symmetry. apply forallb_forall. intros x Hx. apply in_map_iff in Hx as (a & <- & _). reflexivity.
Qed.
Lemma map_const {A B} (b : B) (l : list A) : map (fun _ => b) l = repeat b (length l).
Proof. induction l; simpl; auto. f_equal; auto. Qed.
Lemma repeat_map {A B} (f : A -> B) a n : map f (repeat a n) = repeat (f a) n.
Proof. induction n; simpl; auto. f_equal; auto. Qed.

(* ---- basis_index ---- *)
Lemma basis_index_spec basis k i : dget (basis_index basis) k = Some i ->
  nth_error basis i = Some k.
Proof.
  unfold basis_index, enumerate.
  assert (H : forall (l pre : list pybytes) d, (forall k i, dget d k = Some i -> nth_error (pre ++ l) i = Some k) ->
     forall k i, dget (fold_left (fun d ib => dset d (snd ib) (fst ib)) (combine (seq (length pre) (length l)) l) d) k = Some i ->
     nth_error (pre ++ l) i = Some k).
  { clear. induction l as [|a l IH]; intros pre d Hd k i; simpl; auto.
    intros E. specialize (IH (pre ++ [a]) (dset d a (length pre))). rewrite <- app_assoc in IH. simpl in IH.
    apply IH.
    - intros k' i' E'. rewrite dget_dset in E'. destruct (eqb_spec k' a) as [->|]; auto.
      injection E' as <-. rewrite nth_error_app2, Nat.sub_diag by lia. reflexivity.
    - rewrite app_length, Nat.add_1_r. exact E. }
  intros E. apply (H basis [] []); auto. intros; discriminate.
Qed.
Lemma basis_index_In basis k : In k basis -> exists i, dget (basis_index basis) k = Some i.
Proof.
  unfold basis_index, enumerate.
  assert (H : forall (l : list pybytes) z d, (In k l \/ exists i, dget d k = Some i) ->
     exists i, dget (fold_left (fun d ib => dset d (snd ib) (fst ib)) (combine (seq z (length l)) l) d) k = Some i).
  { clear. induction l as [|a l IH]; intros z d Hd; simpl.
    - destruct Hd as [[]|]; auto.
    - apply IH. rewrite dget_dset. destruct (eqb_spec k a) as [->|]; [eauto|].
      destruct Hd as [[->|]|]; auto. congruence. }
  intros Hi. apply H. auto.
Qed.
Lemma basis_index_inj basis k k' i : dget (basis_index basis) k = Some i -> dget (basis_index basis) k' = Some i -> k = k'.
Proof. intros H1 H2. apply basis_index_spec in H1, H2. congruence. Qed.
Lemma basis_index_nodup basis i k : NoDup basis -> nth_error basis i = Some k -> dget (basis_index basis) k = Some i.
Proof.
  intros Hn E. destruct (basis_index_In basis k) as (j & Ej); [eapply nth_error_In; eauto|].
  rewrite Ej. f_equal. apply basis_index_spec in Ej. rewrite NoDup_nth_error in Hn. apply Hn; [|congruence].
  apply nth_error_Some. congruence.
Qed.

Section LHam.
Context {F : ofield}.
Add Field Ff : (f_field F).
Add Ring Cring : (@c_ring F).
Implicit Types op : op_t F.

Lemma iter_op_pos (p : positive) : forall a : F, (0 < a)%F -> (0 < Pos.iter_op fadd p a)%F.
Proof.
  induction p as [p IH|p IH|]; intros a Ha; simpl; auto.
  - apply fadd_pos; auto. apply flt_le. apply IH. apply fadd_pos; auto. apply flt_le; auto.
  - apply IH. apply fadd_pos; auto. apply flt_le; auto.
Qed.
Lemma fofZ_pos z : 0 < z -> (0 < @fofZ F z)%F.
Proof. destruct z; intros H; try lia. apply iter_op_pos. apply flt_0_1. Qed.
Lemma eps12_pos : (0 < @eps12 F)%F.
Proof. apply fdiv_pos; [apply flt_0_1|apply fofZ_pos; lia]. Qed.

(* ---- one column ---- *)
Lemma single_valid n c (v : cx F) : length c = n -> valid_psi n [(key c, v)].
Proof.
  intros Hc. split; [repeat constructor; auto|]. intros k [<-|[]]. exists c; auto.
Qed.
Lemma op_vec_single n op c t : length c = n -> op_vec n op [(key c, c1)] t = opelem op t c.
Proof.
  intros Hc. unfold op_vec.
  rewrite (csum_single _ (allcfg n) c); [|apply allcfg_NoDup|apply allcfg_In; auto|].
  - unfold amp. rewrite dget_cons, eqb_refl. ring.
  - intros s Hs Hne. unfold amp. rewrite dget_cons. apply allcfg_In in Hs.
    rewrite eqb_neq; [simpl; ring|]. intros E. apply Hne. apply key_inj; congruence.
Qed.
Lemma r_column_exact n op rs c : wf_op n op -> wf_restr rs -> length c = n ->
  exists col, r_column (Z.of_nat n) op rs (key c) = Ok col /\ col_exact n op rs c col.
Proof.
  intros Hw Hr Hc. unfold r_column.
  destruct (applyOp_cutoff n op [(key c, c1)] swm_default rs eps12_pos Hw (single_valid n c c1 Hc) Hr)
    as (col & E & Hv & H).
  exists col. rewrite E. split; [reflexivity|]. split; [auto|].
  intros t Ht. specialize (H t Ht). cbv zeta in H. fold (op_vec n op [(key c, c1)] t) in H. rewrite op_vec_single in H by auto.
  destruct H as [H1 H2]. split.
  - rewrite H1. unfold linked. tauto.
  - intros HL. apply H2. apply H1. unfold linked in HL. tauto.
Qed.
Lemma h_column_r n op b : h_column (F:=F) n op b = r_column n op None b.
Proof. reflexivity. Qed.

(* ---- triplets ---- *)
Definition trip (idx : dict pybytes nat) (j : nat) (col : psi_t F) : list (nat * nat * cx F) :=
  flat_map (fun kv => match dget idx (fst kv) with Some i => [(i, j, snd kv)] | None => [] end) col.
Definition trips (idx : dict pybytes nat) (colj : nat -> psi_t F) (jobs : list nat) :=
  flat_map (fun j => trip idx j (colj j)) jobs.
Definition mset3 (m : mat F) (x : nat * nat * cx F) : mat F := mset m (fst (fst x)) (snd (fst x)) (snd x).

Lemma csr_csum (l : list (nat * nat * cx F)) i j : csr l i j = csum (fun x : nat * nat * cx F => if Nat.eqb i (fst (fst x)) && Nat.eqb j (snd (fst x)) then snd x else c0) l.
Proof.
  unfold csr. transitivity (c0 + csum (fun x : nat * nat * cx F => if Nat.eqb i (fst (fst x)) && Nat.eqb j (snd (fst x)) then snd x else c0) l)%C.
  2: ring.
  rewrite <- fold_left_csum. apply fold_left_ext. intros s [[r c] v] _. cbn [fst snd].
  destruct (Nat.eqb i r && Nat.eqb j c); ring.
Qed.
Lemma csr_perm (l l' : list (nat * nat * cx F)) i j : Permutation l l' -> csr l i j = csr l' i j.
Proof. intros H. rewrite !csr_csum. apply csum_perm; auto. Qed.
Lemma csr_app (l l' : list (nat * nat * cx F)) i j : csr (l ++ l') i j = (csr l i j + csr l' i j)%C.
Proof. rewrite !csr_csum. apply csum_app. Qed.

Lemma mset3_csr l : NoDup (map fst l) -> forall m i j,
  fold_left mset3 l m i j = if inb (i, j) (map fst l) then csr l i j else m i j.
Proof.
  induction l as [|[[r c] v] l IH]; intros Hn m i j; [reflexivity|].
  cbn [map fst] in Hn. apply NoDup_cons_iff in Hn as [Hni Hn].
  cbn [fold_left]. rewrite IH by auto.
  rewrite !csr_csum. cbn [csum fst snd map]. rewrite <- csr_csum.
  unfold inb at 2. cbn [existsb]. fold (inb (i, j) (map fst l)).
  unfold mset3, mset. cbn [fst snd]. change (eqb (i, j) (r, c)) with (Nat.eqb i r && Nat.eqb j c).
  destruct (inb (i, j) (map fst l)) eqn:Ei.
  - rewrite orb_true_r. destruct (Nat.eqb i r && Nat.eqb j c) eqn:E; [|ring].
    apply andb_prop in E as [E1 E2]. apply Nat.eqb_eq in E1, E2. subst. apply inb_In in Ei. contradiction.
  - rewrite orb_false_r. destruct (Nat.eqb i r && Nat.eqb j c); [|reflexivity].
    rewrite csr_csum, csum_zero; [ring|]. intros [[r' c'] v'] Hx. cbn [fst snd].
    destruct (Nat.eqb i r' && Nat.eqb j c') eqn:E; auto.
    apply andb_prop in E as [E1 E2]. apply Nat.eqb_eq in E1, E2. subst.
    exfalso. assert (inb (r', c') (map fst l) = true); [|congruence]. apply inb_In. apply in_map_iff. exists (r', c', v'). auto.
Qed.
Lemma mset3_csr0 l i j : NoDup (map fst l) -> fold_left mset3 l mzeros i j = csr l i j.
Proof.
  intros Hn. rewrite mset3_csr by auto. destruct (inb (i, j) (map fst l)) eqn:E; auto.
  unfold mzeros. rewrite csr_csum, csum_zero; auto. intros [[r c] v] Hx. cbn [fst snd].
  destruct (Nat.eqb i r && Nat.eqb j c) eqn:E'; auto.
  apply andb_prop in E' as [E1 E2]. apply Nat.eqb_eq in E1, E2. subst.
  exfalso. assert (inb (r, c) (map fst l) = true); [|congruence]. apply inb_In. apply in_map_iff. exists (r, c, v). auto.
Qed.

Lemma trip_in idx j col x : In x (trip idx j col) -> snd (fst x) = j /\
  exists k, dget idx k = Some (fst (fst x)) /\ In (k, snd x) col.
Proof.
  unfold trip. rewrite in_flat_map. intros ([k v] & Hk & Hx). cbn [fst snd] in Hx.
  destruct (dget idx k) eqn:E; [|destruct Hx]. destruct Hx as [<-|[]]. cbn [fst snd]. eauto.
Qed.
Lemma trip_nodup idx j col : (forall k k' i, dget idx k = Some i -> dget idx k' = Some i -> k = k') ->
  NoDup (dkeys col) -> NoDup (map fst (trip idx j col)).
Proof.
  intros Hinj. induction col as [|[k v] col IH]; intros Hn; [constructor|].
  apply NoDup_cons_iff in Hn as [Hni Hn]. unfold trip. cbn [flat_map fst snd]. rewrite map_app.
  fold (trip idx j col). destruct (dget idx k) eqn:E; cbn [map app]; auto.
  constructor; auto. intros Hin. apply in_map_iff in Hin as ([[r c] v'] & E' & Hx). cbn [fst] in E'. injection E' as -> ->.
  apply trip_in in Hx as (_ & k' & Hk' & Hin). cbn [fst snd] in *.
  assert (k = k') by (eapply Hinj; eauto). subst k'. apply Hni. apply in_map_iff. exists (k, v'). auto.
Qed.
Lemma trips_nodup idx colj jobs : (forall k k' i, dget idx k = Some i -> dget idx k' = Some i -> k = k') ->
  (forall j, In j jobs -> NoDup (dkeys (colj j))) -> NoDup jobs -> NoDup (map fst (trips idx colj jobs)).
Proof.
  intros Hinj. induction jobs as [|j jobs IH]; intros Hc Hn; [constructor|].
  apply NoDup_cons_iff in Hn as [Hni Hn]. unfold trips. cbn [flat_map]. rewrite map_app.
  apply NoDup_app_intro.
  - apply trip_nodup; auto. apply Hc; left; auto.
  - apply IH; auto. intros; apply Hc; right; auto.
  - intros [r c] H1 H2. apply in_map_iff in H1 as (x & E1 & H1). apply trip_in in H1 as [H1 _].
    apply in_map_iff in H2 as (y & E2 & H2). apply in_flat_map in H2 as (j' & Hj' & H2). apply trip_in in H2 as [H2 _].
    rewrite E1 in H1. rewrite E2 in H2. cbn [snd] in *. subst. contradiction.
Qed.
Lemma flat_map_perm {A B} (f : A -> list B) l l' : Permutation l l' -> Permutation (flat_map f l) (flat_map f l').
Proof.
  induction 1; simpl; auto.
  - apply Permutation_app_head; auto.
  - rewrite !app_assoc. apply Permutation_app_tail. apply Permutation_app_comm.
  - etransitivity; eauto.
Qed.

(* ---- the value of one entry ---- *)
Lemma csr_trip_other idx j col i j' : j' <> j -> csr (trip idx j col) i j' = c0.
Proof.
  intros Hne. rewrite csr_csum. apply csum_zero. intros x Hx. apply trip_in in Hx as [<- _].
  destruct (Nat.eqb_spec j' (snd (fst x))); [congruence|]. rewrite andb_false_r. reflexivity.
Qed.
Lemma csr_trip idx j col i k : (forall k k' i, dget idx k = Some i -> dget idx k' = Some i -> k = k') ->
  NoDup (dkeys col) -> dget idx k = Some i ->
  csr (trip idx j col) i j = match dget col k with Some v => v | None => c0 end.
Proof.
  intros Hinj Hn Hk. rewrite csr_csum. unfold trip. rewrite csum_flat_map.
  induction col as [|[k' v] col IH]; [reflexivity|].
  apply NoDup_cons_iff in Hn as [Hni Hn]. cbn [csum fst snd]. rewrite IH by auto. rewrite dget_cons.
  destruct (eqb_spec k k') as [<-|Hne].
  - rewrite Hk. cbn [csum fst snd]. rewrite !Nat.eqb_refl. cbn [andb].
    destruct (dget col k) eqn:E; [|ring]. exfalso. apply Hni. apply dget_Some_key. eauto.
  - destruct (dget idx k') as [i'|] eqn:E; cbn [csum fst snd]; [|ring].
    destruct (Nat.eqb_spec i i') as [<-|]; [|cbn [andb]; ring]. exfalso. apply Hne. eapply Hinj; eauto.
Qed.
Lemma csr_trips idx colj jobs i j : NoDup jobs -> In j jobs ->
  csr (trips idx colj jobs) i j = csr (trip idx j (colj j)) i j.
Proof.
  induction jobs as [|j' jobs IH]; intros Hn Hi; [destruct Hi|].
  apply NoDup_cons_iff in Hn as [Hni Hn]. unfold trips. cbn [flat_map]. rewrite csr_app. fold (trips idx colj jobs).
  destruct Hi as [->|Hi].
  - replace (csr (trips idx colj jobs) i j) with (@c0 F); [ring|]. symmetry.
    clear -Hni. induction jobs as [|j' jobs IH]; [reflexivity|]. unfold trips. cbn [flat_map]. rewrite csr_app.
    fold (trips idx colj jobs). rewrite IH by (intros H; apply Hni; right; auto).
    rewrite csr_trip_other; [ring|]. intros ->. apply Hni. left; auto.
  - rewrite IH by auto. rewrite csr_trip_other; [ring|]. intros ->. contradiction.
Qed.

(* ---- the four modes ---- *)
Definition colj (n : Z) op (basis : list pybytes) (j : nat) : psi_t F :=
  match nth_error basis j with
  | Some b => match h_column n op b with Ok r => r | Err _ => [] end
  | None => []
  end.
Definition cols_ok (n : Z) op (basis : list pybytes) : Prop :=
  forall b, In b basis -> exists r, h_column n op b = Ok r /\ NoDup (dkeys r).

Lemma colj_ok n op basis j : cols_ok n op basis -> (j < length basis)%nat ->
  exists b, nth_res basis j = Ok b /\ nth_error basis j = Some b /\ h_column n op b = Ok (colj n op basis j) /\
    NoDup (dkeys (colj n op basis j)).
Proof.
  intros Hc Hj. unfold nth_res, colj. destruct (nth_error basis j) as [b|] eqn:E.
  - destruct (Hc b (nth_error_In _ _ E)) as (r & Er & Hn). exists b. rewrite Er. auto.
  - apply nth_error_None in E. lia.
Qed.
Lemma idx_inj basis : forall k k' i, dget (basis_index basis) k = Some i -> dget (basis_index basis) k' = Some i -> k = k'.
Proof. intros. eapply basis_index_inj; eauto. Qed.

Lemma ham_triplets_eq n op basis jobs : cols_ok n op basis -> (forall j, In j jobs -> (j < length basis)%nat) ->
  ham_triplets n op basis jobs = Ok (trips (basis_index basis) (colj n op basis) jobs).
Proof.
  intros Hc Hj. unfold ham_triplets.
  rewrite (fold_res_ok _ (fun data j => data ++ trip (basis_index basis) j (colj n op basis j))).
  - f_equal. unfold trips.
    assert (H : forall (l : list nat) acc, fold_left (fun data j => data ++ trip (basis_index basis) j (colj n op basis j)) l acc
       = acc ++ flat_map (fun j => trip (basis_index basis) j (colj n op basis j)) l).
    { induction l as [|j l IH]; intros acc; simpl; [rewrite app_nil_r; auto|]. rewrite IH, app_assoc. reflexivity. }
    apply H.
  - intros s j Hi. destruct (colj_ok n op basis j Hc (Hj j Hi)) as (b & -> & _ & Eb & _). cbn [bind].
    rewrite Eb. cbn [bind]. f_equal. unfold trip. generalize (colj n op basis j) as col. intros col. revert s.
    induction col as [|[k v] col IH]; intros s; simpl; [rewrite app_nil_r; auto|].
    destruct (dget (basis_index basis) k); simpl; rewrite IH; auto. rewrite <- app_assoc. reflexivity.
Qed.

Lemma jobs_lt {A} (l : list A) r ranks j : In j (chunk ranks (seq 0 (length l)) r ++ extra ranks (seq 0 (length l)) r) ->
  (r < ranks)%nat -> (j < length l)%nat.
Proof.
  intros Hi Hr. assert (In j (seq 0 (length l))); [|rewrite in_seq in *; lia].
  eapply Permutation_in; [apply (job_tasks_partition (seq 0 (length l)) ranks); lia|].
  apply in_flat_map. exists r. split; auto. apply in_seq. lia.
Qed.
Lemma jobs_nodup {A} (l : list A) r ranks : (r < ranks)%nat ->
  NoDup (chunk ranks (seq 0 (length l)) r ++ extra ranks (seq 0 (length l)) r).
Proof.
  intros Hr. assert (H : NoDup (flat_map (fun r => chunk ranks (seq 0 (length l)) r ++ extra ranks (seq 0 (length l)) r) (seq 0 ranks))).
  { eapply Permutation_NoDup; [symmetry; apply job_tasks_partition; lia|apply seq_NoDup]. }
  revert H. assert (Hi : In r (seq 0 ranks)) by (apply in_seq; lia). revert Hi. generalize (seq 0 ranks) as rs.
  induction rs as [|r' rs IH]; [intros []|]. intros Hi H. simpl in H.
  destruct Hi as [->|Hi].
  - clear -H. revert H. generalize (flat_map (fun r0 => chunk ranks (seq 0 (length l)) r0 ++ extra ranks (seq 0 (length l)) r0) rs).
    generalize (chunk ranks (seq 0 (length l)) r ++ extra ranks (seq 0 (length l)) r). intros m1 m2.
    induction m1; intros H; [constructor|]. inversion H; subst. constructor; auto. intros Hx. apply H2. apply in_or_app; auto.
  - apply IH; auto. clear -H. revert H. generalize (chunk ranks (seq 0 (length l)) r' ++ extra ranks (seq 0 (length l)) r').
    intros m1. induction m1; intros H; auto. inversion H; subst. auto.
Qed.

Definition spec_mat (n : Z) op basis : mat F := csr (trips (basis_index basis) (colj n op basis) (seq 0 (length basis))).

Lemma cols_nodup n op basis jobs : cols_ok n op basis -> (forall j, In j jobs -> (j < length basis)%nat) ->
  forall j, In j jobs -> NoDup (dkeys (colj n op basis j)).
Proof. intros Hc Hj j Hi. destruct (colj_ok n op basis j Hc (Hj j Hi)) as (b & _ & _ & _ & H). exact H. Qed.

Lemma ham_dense_serial_eq n op basis : cols_ok n op basis ->
  exists m, ham_dense_serial n op basis = Ok m /\ forall i j, m i j = spec_mat n op basis i j.
Proof.
  intros Hc. unfold ham_dense_serial.
  rewrite (fold_res_ok _ (fun h j => fold_left mset3 (trip (basis_index basis) j (colj n op basis j)) h)).
  - eexists. split; [reflexivity|]. intros i j. rewrite <- fold_left_flat_map. apply mset3_csr0.
    apply trips_nodup; [apply idx_inj| |apply seq_NoDup].
    apply cols_nodup; auto. intros j0 H. apply in_seq in H. lia.
  - intros s j Hi. apply in_seq in Hi. destruct (colj_ok n op basis j Hc) as (b & -> & _ & Eb & _); [lia|]. cbn [bind].
    rewrite Eb. cbn [bind]. f_equal. unfold trip. rewrite fold_left_flat_map. apply fold_left_ext.
    intros m [k v] _. cbn [fst snd]. destruct (dget (basis_index basis) k); reflexivity.
Qed.
Lemma ham_sparse_serial_eq n op basis : cols_ok n op basis ->
  ham_sparse_serial n op basis = Ok (spec_mat n op basis).
Proof.
  intros Hc. unfold ham_sparse_serial. rewrite ham_triplets_eq; auto. intros j H. apply in_seq in H. lia.
Qed.

Lemma fold_mplus ms : forall m i j, fold_left mplus ms m i j = (m i j + csum (fun x : mat F => x i j) ms)%C.
Proof. induction ms as [|x ms IH]; intros m i j; simpl; [ring|]. rewrite IH. unfold mplus. ring. Qed.

Definition jobs_of {A} (l : list A) ranks r := chunk ranks (seq 0 (length l)) r ++ extra ranks (seq 0 (length l)) r.
Lemma trips_jobs n op basis ranks : (1 <= ranks)%nat ->
  Permutation (flat_map (fun r => trips (basis_index basis) (colj n op basis) (jobs_of basis ranks r)) (seq 0 ranks))
              (trips (basis_index basis) (colj n op basis) (seq 0 (length basis))).
Proof.
  intros Hr. unfold trips. etransitivity; [|apply flat_map_perm; apply (job_tasks_partition _ ranks Hr)].
  change (fun r => chunk ranks (seq 0 (length basis)) r ++ extra ranks (seq 0 (length basis)) r) with (jobs_of basis ranks).
  generalize (seq 0 ranks) as l. generalize (jobs_of basis ranks) as jo. intros jo.
  induction l as [|r l IH]; simpl; auto. rewrite flat_map_app. apply Permutation_app; auto.
Qed.
Lemma ham_sparse_MPI_eq n op basis ranks : cols_ok n op basis -> (1 <= ranks)%nat ->
  exists m, ham_sparse_MPI n op basis ranks = repeat (Ok m) ranks /\ forall i j, m i j = spec_mat n op basis i j.
Proof.
  intros Hc Hk. unfold ham_sparse_MPI.
  assert (E : map (fun r => do jobs <- get_job_tasks r ranks (seq 0 (length basis));
                            rmap csr (ham_triplets n op basis jobs)) (seq 0 ranks) =
              map Ok (map (fun r => csr (trips (basis_index basis) (colj n op basis) (jobs_of basis ranks r))) (seq 0 ranks))).
  { rewrite map_map. apply map_ext_in. intros r Hr. apply in_seq in Hr.
    rewrite get_job_tasks_eq by lia. cbn [bind]. rewrite ham_triplets_eq; auto. intros j Hj. eapply jobs_lt; eauto. lia. }
  rewrite E, bcast_all_ok, !map_map. cbn [rmap]. rewrite map_const, seq_length. eexists. split; [reflexivity|].
  intros i j. rewrite fold_mplus, csum_map. unfold spec_mat.
  rewrite <- (csr_perm _ _ i j (trips_jobs n op basis ranks Hk)).
  rewrite csr_csum, csum_flat_map. unfold mzeros.
  erewrite csum_ext; [|intros r _; apply csr_csum]. ring.
Qed.

Lemma fold_dset_fresh {V} (l : list (nat * V)) : forall d : dict nat V, NoDup (map fst l) ->
  (forall k, In k (map fst l) -> ~ In k (dkeys d)) -> fold_left (fun d kv => dset d (fst kv) (snd kv)) l d = d ++ l.
Proof.
  induction l as [|[k v] l IH]; intros d Hn Hd; simpl; [rewrite app_nil_r; auto|].
  simpl in Hn. apply NoDup_cons_iff in Hn as [Hni Hn].
  rewrite dset_notin by (apply Hd; left; auto). rewrite IH; auto.
  - rewrite <- app_assoc. reflexivity.
  - intros k' Hk'. unfold dkeys. rewrite map_app. intros Hx. apply in_app_or in Hx as [Hx|[<-|[]]]; auto.
    apply (Hd k'); auto. right; auto.
Qed.
Definition rowd (idx : dict pybytes nat) (col : psi_t F) : dict nat (cx F) :=
  flat_map (fun kv => match dget idx (fst kv) with Some i => [(i, snd kv)] | None => [] end) col.
Lemma rowd_trip idx j col : trip idx j col = map (fun iv => (fst iv, j, snd iv)) (rowd idx col).
Proof.
  unfold trip, rowd. induction col as [|[k v] col IH]; simpl; auto. rewrite map_app, <- IH.
  destruct (dget idx k); reflexivity.
Qed.
Lemma rowd_nodup idx col : (forall k k' i, dget idx k = Some i -> dget idx k' = Some i -> k = k') ->
  NoDup (dkeys col) -> NoDup (map fst (rowd idx col)).
Proof.
  intros Hi Hn. pose proof (trip_nodup idx 0%nat col Hi Hn) as H. rewrite rowd_trip, map_map in H. cbn [fst] in H.
  rewrite <- (map_map fst (fun i => (i, 0%nat))) in H. apply NoDup_map_inv in H. exact H.
Qed.
Lemma rowd_fold idx col : (forall k k' i, dget idx k = Some i -> dget idx k' = Some i -> k = k') ->
  NoDup (dkeys col) ->
  fold_left (fun d kv => match dget idx (fst kv) with Some i => dset d i (snd kv) | None => d end) col [] = rowd idx col.
Proof.
  intros Hi Hn. etransitivity; [|apply (fold_dset_fresh (rowd idx col) []); [apply rowd_nodup; auto|intros ? ? []]].
  unfold rowd. rewrite fold_left_flat_map. apply fold_left_ext. intros d [k v] _. cbn [fst snd].
  destruct (dget idx k); reflexivity.
Qed.
Lemma ham_hRank_eq n op basis r ranks : cols_ok n op basis -> (r < ranks)%nat ->
  ham_hRank n op basis r ranks =
  Ok (map (fun j => (j, rowd (basis_index basis) (colj n op basis j))) (jobs_of basis ranks r)).
Proof.
  intros Hc Hr. unfold ham_hRank. rewrite get_job_tasks_eq by lia. cbn [bind]. fold (jobs_of basis ranks r).
  rewrite (fold_res_ok _ (fun d j => dset d j (rowd (basis_index basis) (colj n op basis j)))).
  - f_equal. etransitivity; [|apply (fold_dset_fresh (map (fun j => (j, rowd (basis_index basis) (colj n op basis j))) (jobs_of basis ranks r)) [])].
    + generalize (jobs_of basis ranks r) as l. generalize (@nil (nat * dict nat (cx F))) as d.
      intros d l; revert d; induction l; intros d; simpl; auto.
    + rewrite map_map. cbn [fst]. rewrite map_id. apply jobs_nodup; auto.
    + intros ? ? [].
  - intros d j Hi. destruct (colj_ok n op basis j Hc) as (b & -> & _ & Eb & Hn); [eapply jobs_lt; eauto|]. cbn [bind].
    rewrite Eb. cbn [bind]. rewrite rowd_fold; auto. apply idx_inj.
Qed.
Lemma ham_dense_MPI_eq n op basis ranks : cols_ok n op basis -> (1 <= ranks)%nat ->
  exists m, ham_dense_MPI n op basis ranks = repeat (Ok m) ranks /\ forall i j, m i j = spec_mat n op basis i j.
Proof.
  intros Hc Hk. unfold ham_dense_MPI.
  assert (E : map (fun r => ham_hRank n op basis r ranks) (seq 0 ranks) =
              map Ok (map (fun r => map (fun j => (j, rowd (basis_index basis) (colj n op basis j))) (jobs_of basis ranks r)) (seq 0 ranks))).
  { rewrite map_map. apply map_ext_in. intros r Hr. apply in_seq in Hr. apply ham_hRank_eq; auto. lia. }
  rewrite E, bcast_all_ok, !map_map. cbn [rmap]. rewrite map_const, seq_length. eexists. split; [reflexivity|].
  intros i j. unfold spec_mat. rewrite <- (csr_perm _ _ i j (trips_jobs n op basis ranks Hk)).
  rewrite <- mset3_csr0.
  - rewrite fold_left_flat_map.
    match goal with |- fold_left ?f (map ?g _) _ i j = _ => assert (H : forall l m, fold_left f (map g l) m = fold_left (fun s a => fold_left mset3 (trips (basis_index basis) (colj n op basis) (jobs_of basis ranks a)) s) l m) end.
    { induction l as [|r l IH]; intros m; simpl; auto. rewrite IH. f_equal. unfold trips. rewrite fold_left_flat_map.
      generalize (jobs_of basis ranks r) as jobs. intros jobs. revert m. induction jobs as [|j' jobs IHj]; intros m; simpl; auto.
      rewrite IHj. f_equal. rewrite rowd_trip. generalize (rowd (basis_index basis) (colj n op basis j')) as d. intros d.
      revert m; induction d as [|[i' v] d IHd]; intros m; simpl; auto. }
    rewrite H. reflexivity.
  - eapply Permutation_NoDup; [apply Permutation_map; symmetry; apply trips_jobs; auto|].
    apply trips_nodup; [apply idx_inj| |apply seq_NoDup]. apply cols_nodup; auto. intros j0 H. apply in_seq in H. lia.
Qed.

Lemma ham_all_modes n op basis ranks mode : cols_ok n op basis -> (1 <= ranks)%nat -> mode <> OtherMode ->
  exists m, get_hamiltonian_matrix ranks mode n op basis = repeat (Ok m) ranks /\ forall i j, m i j = spec_mat n op basis i j.
Proof.
  intros Hc Hk Hm. destruct mode; cbn [get_hamiltonian_matrix]; try congruence.
  - destruct (ham_dense_serial_eq n op basis Hc) as (m & -> & H). eauto.
  - apply ham_dense_MPI_eq; auto.
  - rewrite ham_sparse_serial_eq by auto. eauto.
  - apply ham_sparse_MPI_eq; auto.
Qed.

(* ---- well-formed input ---- *)
Lemma cols_ok_wf n op basis : wf_op n op -> Forall (valid_key n) basis -> cols_ok (Z.of_nat n) op basis.
Proof.
  intros Hw Hv b Hb. rewrite Forall_forall in Hv. destruct (Hv b Hb) as (c & Hc & ->).
  rewrite h_column_r. destruct (r_column_exact n op None c Hw I Hc) as (col & -> & (Hn & _) & _). eauto.
Qed.
Lemma linked_cut n op c t : length t = n -> (linked n op None c t <-> (cabs2 (opelem op t c) <? eps12)%F = false).
Proof. intros Ht. unfold linked. simpl. tauto. Qed.
Lemma spec_mat_entry n op basis i j ci cj : wf_op n op -> Forall (valid_key n) basis -> NoDup basis ->
  nth_error basis i = Some (key ci) -> nth_error basis j = Some (key cj) -> length ci = n -> length cj = n ->
  spec_mat (Z.of_nat n) op basis i j = cut12 (opelem op ci cj).
Proof.
  intros Hw Hv Hn Ei Ej Hi Hj. unfold spec_mat.
  assert (Lj : (j < length basis)%nat) by (apply nth_error_Some; congruence).
  rewrite csr_trips; [|apply seq_NoDup|apply in_seq; lia].
  destruct (r_column_exact n op None cj Hw I Hj) as (col & Ec & Hx).
  assert (Ecj : colj (Z.of_nat n) op basis j = col) by (unfold colj; rewrite Ej, h_column_r, Ec; reflexivity).
  rewrite Ecj. destruct Hx as ((Hnd & Hvk) & Hx).
  rewrite (csr_trip _ j col i (key ci)); [|apply idx_inj|auto|apply basis_index_nodup; auto].
  destruct (Hx ci Hi) as [H1 H2]. unfold cut12. rewrite (linked_cut n op cj ci Hi) in H1, H2.
  destruct (cabs2 (opelem op ci cj) <? eps12)%F eqn:E.
  - destruct (dget col (key ci)) eqn:Ed; auto. exfalso. assert (true = false) by (apply H1, dget_Some_key; eauto). discriminate.
  - rewrite H2 by auto. reflexivity.
Qed.

Lemma cut12_conj (x : cx F) : cut12 (cconj x) = cconj (cut12 x).
Proof. unfold cut12. rewrite cabs2_conj. destruct (cabs2 x <? eps12)%F; auto. symmetry. apply cconj_0. Qed.

Lemma ham_entry n op basis ranks mode : wf_op n op -> Forall (valid_key n) basis -> (1 <= ranks)%nat -> mode <> OtherMode ->
  exists m, get_hamiltonian_matrix ranks mode (Z.of_nat n) op basis = repeat (Ok m) ranks /\
    (NoDup basis -> forall i j ci cj, nth_error basis i = Some (key ci) -> nth_error basis j = Some (key cj) ->
       length ci = n -> length cj = n -> m i j = cut12 (opelem op ci cj)).
Proof.
  intros Hw Hv Hk Hm. destruct (ham_all_modes (Z.of_nat n) op basis ranks mode (cols_ok_wf n op basis Hw Hv) Hk Hm) as (m & E & H).
  exists m. split; auto. intros Hn i j ci cj Hi Hj Li Lj. rewrite H. apply spec_mat_entry; auto.
Qed.
Lemma ham_hermitian n op basis ranks mode : wf_op n op -> assert_hermitian op = Ok tt ->
  Forall (valid_key n) basis -> NoDup basis -> (1 <= ranks)%nat -> mode <> OtherMode ->
  exists m, get_hamiltonian_matrix ranks mode (Z.of_nat n) op basis = repeat (Ok m) ranks /\ hermitian (length basis) m.
Proof.
  intros Hw Hh Hv Hn Hk Hm. destruct (ham_entry n op basis ranks mode Hw Hv Hk Hm) as (m & E & H).
  exists m. split; auto. intros i j Hi Hj. rewrite Forall_forall in Hv.
  destruct (nth_error basis i) as [bi|] eqn:Ei; [|apply nth_error_None in Ei; lia].
  destruct (nth_error basis j) as [bj|] eqn:Ej; [|apply nth_error_None in Ej; lia].
  destruct (Hv bi (nth_error_In _ _ Ei)) as (ci & Lci & ->). destruct (Hv bj (nth_error_In _ _ Ej)) as (cj & Lcj & ->).
  rewrite (H Hn i j ci cj), (H Hn j i cj ci) by auto. rewrite <- cut12_conj. f_equal.
  apply herm_opelem; auto. apply Hw.
Qed.
Lemma ham_modes_agree n op basis ranks ranks' mode mode' : wf_op n op -> Forall (valid_key n) basis ->
  (1 <= ranks)%nat -> (1 <= ranks')%nat -> mode <> OtherMode -> mode' <> OtherMode ->
  exists m m', get_hamiltonian_matrix ranks mode (Z.of_nat n) op basis = repeat (Ok m) ranks /\
    get_hamiltonian_matrix ranks' mode' (Z.of_nat n) op basis = repeat (Ok m') ranks' /\ forall i j, m i j = m' i j.
Proof.
  intros Hw Hv Hk Hk' Hm Hm'.
  destruct (ham_all_modes (Z.of_nat n) op basis ranks mode (cols_ok_wf n op basis Hw Hv) Hk Hm) as (m & E & H).
  destruct (ham_all_modes (Z.of_nat n) op basis ranks' mode' (cols_ok_wf n op basis Hw Hv) Hk' Hm') as (m' & E' & H').
  exists m, m'. split; [auto|]. split; [auto|]. intros. rewrite H, H'. reflexivity.
Qed.
End LHam.
