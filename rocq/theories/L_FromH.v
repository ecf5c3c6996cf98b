(* Hamiltonian matrix from h_dict; expand_basis_and_hamiltonian. *)
From Coq Require Import Permutation Ring Field.
From Verif Require Import M_Prelude M_Scalar M_PSR M_Ladder M_State M_Mpi M_Hamiltonian S_Fock S_Ops S_Ham.
From Verif Require Import L_Scalar L_Sum L_Dict L_PSR L_Fock L_State L_ApplyOp L_Ops L_FockP L_Ham L_Sort L_Expand L_ExpandP.
Local Open Scope Z_scope.

Lemma NoDup_map_inj {A B} (f : A -> B) l : NoDup l -> (forall a b, In a l -> In b l -> f a = f b -> a = b) -> NoDup (map f l).
Proof.
  induction l as [|a l IH]; intros Hn Hi; simpl; constructor; apply NoDup_cons_iff in Hn as [Hni Hn].
  - intros Hx. apply in_map_iff in Hx as (b & E & Hb). apply Hni. replace a with b; auto. apply Hi; [right|left|]; auto.
  - apply IH; auto. intros; apply Hi; auto; right; auto.
Qed.
Lemma fold_res_ext {A S} (f g : S -> A -> res S) l : (forall s a, In a l -> f s a = g s a) -> forall s, fold_res f l s = fold_res g l s.
Proof.
  induction l as [|a l IH]; intros H s; simpl; auto. rewrite H by (left; auto). destruct (g s a); simpl; auto.
  apply IH. intros; apply H; right; auto.
Qed.

Lemma Forall2_len {A B} (P : A -> B -> Prop) l m : Forall2 P l m -> length l = length m.
Proof. induction 1; simpl; auto. Qed.

Section LFromH.
Context {F : ofield}.
Add Field Ff : (f_field F).
Add Ring Cring : (@c_ring F).
Implicit Types (h : hdict_t F) (basis : list pybytes).

Definition hcol h basis (j : nat) : psi_t F :=
  match nth_error basis j with
  | Some b => match dget h b with Some r => r | None => [] end
  | None => []
  end.
Lemma trip_fold {S} (f : S -> nat -> cx F -> S) idx (col : psi_t F) : (forall k, In k (dkeys col) -> exists i, dget idx k = Some i) ->
  forall j s, fold_res (fun s kv => do i <- dgetitem idx (fst kv); Ok (f s i (snd kv))) col s
    = Ok (fold_left (fun s x => f s (fst (fst x)) (snd x)) (trip idx j col) s).
Proof.
  intros Hk j. induction col as [|[k v] col IH]; intros s; [reflexivity|]. cbn [fold_res fst snd].
  destruct (Hk k (or_introl eq_refl)) as (i & Ei). unfold dgetitem at 1. rewrite Ei. cbn [bind].
  etransitivity; [apply IH; intros; apply Hk; right; auto|]. unfold trip. cbn [flat_map fst snd]. rewrite Ei. reflexivity.
Qed.
Lemma hcol_ok h basis j : closed_cols h basis -> (forall b, In b basis -> In b (dkeys h)) -> (j < length basis)%nat ->
  exists b, nth_res basis j = Ok b /\ dgetitem h b = Ok (hcol h basis j) /\ NoDup (dkeys (hcol h basis j)) /\
    forall k, In k (dkeys (hcol h basis j)) -> exists i, dget (basis_index basis) k = Some i.
Proof.
  intros Hc Ha Hj. unfold nth_res, hcol, dgetitem. destruct (nth_error basis j) as [b|] eqn:E; [|apply nth_error_None in E; lia].
  exists b. apply nth_error_In in E. pose proof (Ha b E) as Hk. apply dget_Some_key in Hk as (r & Er). rewrite Er.
  destruct (Hc b r E Er) as [H1 H2]. split; auto. split; auto. split; auto. intros k Hk. apply basis_index_In. auto.
Qed.
Lemma stored_csr h basis i j : NoDup basis -> closed_cols h basis -> (i < length basis)%nat ->
  csr (trip (basis_index basis) j (hcol h basis j)) i j = stored h basis i j.
Proof.
  intros Hn Hc Hi. unfold stored. destruct (nth_error basis i) as [bi|] eqn:Ei; [|apply nth_error_None in Ei; lia].
  unfold hcol. destruct (nth_error basis j) as [bj|] eqn:Ej; [|reflexivity].
  destruct (dget h bj) as [col|] eqn:Ec; [|reflexivity].
  apply csr_trip; [apply idx_inj|eapply Hc; eauto; eapply nth_error_In; eauto|apply basis_index_nodup; auto].
Qed.
Lemma csr_out (l : list (nat * nat * cx F)) N i j : (forall x, In x l -> (fst (fst x) < N)%nat /\ (snd (fst x) < N)%nat) ->
  ~ ((i < N)%nat /\ (j < N)%nat) -> csr l i j = c0.
Proof.
  intros Hl Ho. rewrite csr_csum. apply csum_zero. intros [[r c] v] Hx. apply Hl in Hx. cbn [fst snd] in *.
  destruct (Nat.eqb_spec i r), (Nat.eqb_spec j c); subst; auto. exfalso; apply Ho; auto.
Qed.
Lemma stored_out h basis i j : ~ ((i < length basis)%nat /\ (j < length basis)%nat) -> stored h basis i j = c0.
Proof.
  intros Ho. unfold stored. destruct (nth_error basis i) eqn:Ei; auto. destruct (nth_error basis j) eqn:Ej; auto.
  exfalso. apply Ho. split; apply nth_error_Some; congruence.
Qed.
Lemma csr_stored h basis jobs i j : NoDup basis -> closed_cols h basis -> NoDup jobs ->
  (forall j, In j jobs -> (j < length basis)%nat) ->
  (forall j, (j < length basis)%nat -> ~ In j jobs -> hcol h basis j = []) ->
  csr (trips (basis_index basis) (hcol h basis) jobs) i j = stored h basis i j.
Proof.
  intros Hn Hc Hnj Hj Hnot.
  destruct (lt_dec i (length basis)) as [Hi|Hi]; [destruct (lt_dec j (length basis)) as [Hjj|Hjj]|].
  2,3: rewrite stored_out by tauto; apply csr_out with (N := length basis); [|tauto];
    intros x Hx; unfold trips in Hx; apply in_flat_map in Hx as (j' & Hj' & Hx); apply trip_in in Hx as (-> & k & Hk & _);
    apply basis_index_spec in Hk; (split; [apply nth_error_Some; congruence|auto]).
  rewrite <- stored_csr by auto. destruct (in_dec Nat.eq_dec j jobs) as [Hin|Hnin].
  - apply csr_trips; auto.
  - rewrite (Hnot j Hjj Hnin). unfold trip. cbn [flat_map].
    clear -Hnin. induction jobs as [|j' jobs IH]; [reflexivity|]. unfold trips. cbn [flat_map]. rewrite csr_app.
    fold (trips (basis_index basis) (hcol h basis) jobs). rewrite IH by (intros H; apply Hnin; right; auto).
    rewrite csr_trip_other by (intros ->; apply Hnin; left; auto). unfold csr. cbn [fold_left]. ring.
Qed.

Lemma from_dense h basis : NoDup basis -> closed_cols h basis -> (forall b, In b basis -> In b (dkeys h)) ->
  exists m, from_h_dict_dense h basis = Ok m /\ forall i j, m i j = stored h basis i j.
Proof.
  intros Hn Hc Ha. unfold from_h_dict_dense.
  rewrite (fold_res_ok _ (fun m j => fold_left mset3 (trip (basis_index basis) j (hcol h basis j)) m)).
  - eexists. split; [reflexivity|]. intros i j. rewrite <- fold_left_flat_map.
    etransitivity; [apply (mset3_csr0 (trips (basis_index basis) (hcol h basis) (seq 0 (length basis))))|].
    + apply trips_nodup; [apply idx_inj| |apply seq_NoDup].
      intros j' Hj'. apply in_seq in Hj'. destruct (hcol_ok h basis j' Hc Ha) as (b & _ & _ & H & _); [lia|auto].
    + apply csr_stored; auto; [apply seq_NoDup|intros j' Hj'; apply in_seq in Hj'; lia|].
      intros j' Hj' Hx. exfalso. apply Hx, in_seq. lia.
  - intros m j Hj. apply in_seq in Hj. destruct (hcol_ok h basis j Hc Ha) as (b & -> & E & _ & Hk); [lia|]. cbn [bind]. rewrite E. cbn [bind].
    rewrite (trip_fold (fun m i v => mset m i j v) _ _ Hk j). f_equal. apply fold_left_ext. intros s x Hx.
    apply trip_in in Hx as [<- _]. reflexivity.
Qed.
Lemma app_fold {A S} (g : A -> list S) (l : list A) : forall acc, fold_left (fun d j => d ++ g j) l acc = acc ++ flat_map g l.
Proof. induction l as [|j l IH]; intros acc; simpl; [rewrite app_nil_r; auto|]. rewrite IH, app_assoc. reflexivity. Qed.
Lemma trip_snoc idx j (col : psi_t F) : forall acc : list (nat * nat * cx F),
  fold_left (fun s (x : nat * nat * cx F) => s ++ [(fst (fst x), j, snd x)]) (trip idx j col) acc = acc ++ trip idx j col.
Proof.
  intros acc. rewrite (app_fold (fun x : nat * nat * cx F => [(fst (fst x), j, snd x)])). f_equal.
  assert (H : forall x, In x (trip idx j col) -> snd (fst x) = j) by (intros x Hx; apply trip_in in Hx; tauto).
  induction (trip idx j col) as [|[[r c] v] l IH]; [reflexivity|]. cbn [flat_map fst snd app].
  rewrite IH by (intros; apply H; right; auto). specialize (H (r, c, v) (or_introl eq_refl)). cbn [fst snd] in H. rewrite H. reflexivity.
Qed.
Lemma from_sparse h basis : NoDup basis -> closed_cols h basis -> (forall b, In b basis -> In b (dkeys h)) ->
  exists m, from_h_dict_sparse h basis = Ok m /\ forall i j, m i j = stored h basis i j.
Proof.
  intros Hn Hc Ha. unfold from_h_dict_sparse.
  rewrite (fold_res_ok _ (fun d j => d ++ trip (basis_index basis) j (hcol h basis j))).
  - eexists. split; [reflexivity|]. intros i j. rewrite app_fold. cbn [app].
    apply (csr_stored h basis (seq 0 (length basis))); auto; [apply seq_NoDup|intros j' Hj'; apply in_seq in Hj'; lia|].
    intros j' Hj' Hx. exfalso. apply Hx, in_seq. lia.
  - intros m j Hj. apply in_seq in Hj. destruct (hcol_ok h basis j Hc Ha) as (b & -> & E & _ & Hk); [lia|]. cbn [bind]. rewrite E. cbn [bind].
    rewrite (trip_fold (fun d i v => d ++ [(i, j, v)]) _ _ Hk j). f_equal. apply trip_snoc.
Qed.

Definition bidx basis (b : pybytes) : nat := match dget (basis_index basis) b with Some i => i | None => 0%nat end.
Lemma bidx_ok basis b : In b basis -> dget (basis_index basis) b = Some (bidx basis b) /\ nth_error basis (bidx basis b) = Some b.
Proof. intros Hi. unfold bidx. destruct (basis_index_In basis b Hi) as (i & Ei). rewrite Ei. split; auto. apply basis_index_spec; auto. Qed.
Lemma from_local (ord : set_order) h basis : (forall l, Permutation (ord l) l) -> NoDup basis -> closed_cols h basis ->
  exists m, from_h_dict_local ord h basis = Ok m /\ forall i j, m i j = stored h basis i j.
Proof.
  intros Hord Hn Hc. unfold from_h_dict_local. set (S := ord (set_inter basis (dkeys h))).
  assert (HS : forall b, In b S <-> In b basis /\ In b (dkeys h)).
  { intros b. rewrite <- set_inter_In. split; apply Permutation_in; [|symmetry]; apply Hord. }
  assert (HSn : NoDup S) by (eapply Permutation_NoDup; [symmetry; apply Hord|apply set_inter_NoDup]).
  rewrite (fold_res_ok _ (fun d ps => d ++ trip (basis_index basis) (bidx basis ps) (hcol h basis (bidx basis ps)))).
  - eexists. split; [reflexivity|]. intros i j. rewrite app_fold. cbn [app].
    replace (flat_map (fun ps => trip (basis_index basis) (bidx basis ps) (hcol h basis (bidx basis ps))) S)
      with (trips (basis_index basis) (hcol h basis) (map (bidx basis) S)) by (unfold trips; rewrite flat_map_map; reflexivity).
    apply csr_stored; auto.
    + apply NoDup_map_inj; auto. intros a b Ha Hb E. apply HS in Ha, Hb.
      destruct (bidx_ok basis a) as [_ Ea]; [tauto|]. destruct (bidx_ok basis b) as [_ Eb]; [tauto|]. congruence.
    + intros j' Hj'. apply in_map_iff in Hj' as (b & <- & Hb). apply HS in Hb. destruct (bidx_ok basis b) as [_ Eb]; [tauto|].
      apply nth_error_Some. congruence.
    + intros j' Hj' Hx. unfold hcol. destruct (nth_error basis j') as [b|] eqn:Eb; auto. destruct (dget h b) as [r|] eqn:Er; auto.
      exfalso. apply Hx. apply in_map_iff. exists b. split.
      * unfold bidx. rewrite (basis_index_nodup basis j' b Hn Eb). reflexivity.
      * apply HS. split; [eapply nth_error_In; eauto|apply dget_Some_key; eauto].
  - intros d ps Hps. apply HS in Hps as [Hb Hk]. apply dget_Some_key in Hk as (r & Er). unfold dgetitem at 1. rewrite Er. cbn [bind].
    destruct (bidx_ok basis ps Hb) as [Ei En].
    assert (Ehc : hcol h basis (bidx basis ps) = r) by (unfold hcol; rewrite En, Er; reflexivity). rewrite Ehc.
    destruct (Hc ps r Hb Er) as [_ Hcl].
    etransitivity; [|etransitivity; [apply (trip_fold (fun d i v => d ++ [(i, bidx basis ps, v)]) (basis_index basis) r) with (j := bidx basis ps)|f_equal; apply trip_snoc]].
    + apply fold_res_ext. intros s' [k v] _. cbn [fst snd]. unfold dgetitem at 1. rewrite Ei. reflexivity.
    + intros k Hk. apply basis_index_In; auto.
Qed.

(* ---- combined with expand_basis ---- *)
Section Wf.
Variables (n : nat) (op : op_t F) (rs : option restrictions_t).
Hypothesis (Hw : wf_op n op) (Hr : wf_restr rs).

Lemma exact_closed h basis0 basis : hdict_exact n op rs h -> is_closure n op rs basis0 basis -> closed_cols h basis.
Proof.
  intros Hh (_ & Hn & HR) b col Hb Ec. destruct (Hh b col Ec) as (c & Hc & -> & Hx). split; [apply Hx|].
  intros k Hk. apply (exact_keys n op rs c col k Hc Hx) in Hk as (c' & t & Hc' & E & -> & HL).
  apply HR. exists t. split; auto. apply HR in Hb as (c2 & E2 & HR2).
  assert (L2 : length c2 = n) by (inversion HR2; subst; auto; match goal with H : linked _ _ _ _ _ |- _ => apply H end).
  assert (c2 = c) by (apply key_inj; congruence). assert (c' = c) by (apply key_inj; congruence). subst c2 c'.
  eapply ReachS; eauto.
Qed.
Lemma col_value c col t : col_exact n op rs c col -> length t = n ->
  (linked n op rs c t -> match dget col (key t) with Some v => v | None => c0 end = opelem op t c) /\
  (~ linked n op rs c t -> match dget col (key t) with Some v => v | None => c0 end = c0).
Proof.
  intros [_ Hx] Ht. destruct (Hx t Ht) as [H1 H2]. split.
  - intros HL. rewrite (H2 HL). reflexivity.
  - intros HN. destruct (dget col (key t)) eqn:E; auto. exfalso. apply HN, H1, dget_Some_key. eauto.
Qed.
Lemma stored_matrix h basis : hdict_exact n op rs h -> (forall b, In b basis -> In b (dkeys h)) ->
  restricted_matrix n op rs basis (stored h basis).
Proof.
  intros Hh Ha i j ci cj Ei Ej Li Lj. unfold stored. rewrite Ei, Ej.
  pose proof (Ha _ (nth_error_In _ _ Ej)) as Hk. apply dget_Some_key in Hk as (col & Ec). rewrite Ec.
  destruct (Hh _ _ Ec) as (c & Lc & E & Hx). assert (c = cj) by (apply key_inj; congruence). subst c. apply col_value; auto.
Qed.
Lemma stored_sum (hs : list (hdict_t F)) basis : Forall (hdict_exact n op rs) hs -> NoDup (flat_map dkeys hs) ->
  (forall b, In b basis -> In b (flat_map dkeys hs)) ->
  restricted_matrix n op rs basis (fun i j => csum (fun h => stored h basis i j) hs).
Proof.
  intros HF Hn Ha i j ci cj Ei Ej Li Lj.
  pose proof (Ha _ (nth_error_In _ _ Ej)) as Hk. clear Ha. induction hs as [|h hs IH]; [destruct Hk|].
  cbn [flat_map csum] in *. pose proof (Forall_inv HF) as Hh. apply Forall_inv_tail in HF.
  assert (Hz : forall l : list (hdict_t F), ~ In (key cj) (flat_map dkeys l) -> csum (fun h => stored h basis i j) l = c0).
  { intros l Hni. apply csum_zero. intros h' Hh'. unfold stored. rewrite Ei, Ej. destruct (dget h' (key cj)) eqn:E; auto.
    exfalso. apply Hni, in_flat_map. exists h'. split; auto. apply dget_Some_key. eauto. }
  destruct (in_dec_key (key cj) (dkeys h)) as [Hin|Hnin].
  - rewrite (Hz hs) by (intros Hx; eapply NoDup_app_disj; eauto).
    unfold stored. rewrite Ei, Ej. apply dget_Some_key in Hin as (col & Ec). rewrite Ec.
    destruct (Hh _ _ Ec) as (c & Lc & E & Hx). assert (c = cj) by (apply key_inj; congruence). subst c.
    destruct (col_value _ _ _ Hx Li) as [H1 H2]. split; intros HL; [rewrite H1 by auto|rewrite H2 by auto]; ring.
  - apply in_app_or in Hk as [Hk|Hk]; [contradiction|]. apply NoDup_app_r in Hn.
    specialize (IH HF Hn Hk). unfold stored at 1 3. rewrite Ei, Ej.
    replace (dget h (key cj)) with (@None (psi_t F)) by (symmetry; destruct (dget h (key cj)) eqn:E; auto; exfalso; apply Hnin, dget_Some_key; eauto).
    destruct IH as [I1 I2]. split; intros HL; [rewrite I1 by auto|rewrite I2 by auto]; ring.
Qed.
Lemma restricted_ext basis (m m' : nat -> nat -> cx F) : (forall i j, m i j = m' i j) -> restricted_matrix n op rs basis m' -> restricted_matrix n op rs basis m.
Proof. intros E H i j ci cj Ei Ej Li Lj. rewrite E. apply H; auto. Qed.

Lemma closure_of basis0 final : NoDup basis0 -> Forall (valid_key n) basis0 -> Exp n op rs basis0 0 final ->
  is_closure n op rs basis0 final.
Proof. intros Hn Hv HE. rewrite Forall_forall in Hv. apply Exp_spec0; auto. Qed.

Lemma hbuild_init basis0 (hs : list (hdict_t F)) : hs <> [] -> Forall (hdict_exact n op rs) hs -> NoDup (flat_map dkeys hs) ->
  NoDup basis0 -> Forall (valid_key n) basis0 -> inv n op rs basis0 0 (map (fun h => mkRS basis0 0 h []) hs).
Proof.
  intros Hne HF Hn Hb Hv. constructor; auto.
  - destruct hs; simpl; congruence.
  - apply Forall_forall. intros s Hs. apply in_map_iff in Hs as (h & <- & Hh). unfold rank_ok. cbn [rs_basis rs_i rs_h rs_new].
    rewrite Forall_forall in HF. split; [auto|]. split; [auto|]. split; [apply HF; auto|]. split; [intros k col [=]|intros k []].
  - rewrite flat_map_map. unfold keysr. cbn [rs_h rs_new dkeys map]. erewrite flat_map_ext_in'; [exact Hn|]. intros; apply app_nil_r.
  - intros k [].
  - apply Forall_forall; auto.
  - lia.
Qed.

Lemma expand_hbuild_top fuel (ord : nat -> set_order) basis0 (hs : list (hdict_t F)) : (forall r l, Permutation (ord r l) l) ->
  hs <> [] -> Forall (hdict_exact n op rs) hs -> NoDup (flat_map dkeys hs) ->
  NoDup basis0 -> Forall (valid_key n) basis0 -> (2 ^ n < fuel + length basis0)%nat ->
  exists hs' final, expand_basis fuel (Z.of_nat n) op rs ord HBuild basis0 hs = map (fun h' => (h', Ok final)) hs' /\
    Exp n op rs basis0 0 final /\ Forall (hdict_exact n op rs) hs' /\ Forall2 hext hs hs' /\
    NoDup (flat_map dkeys hs') /\ (forall k, In k (flat_map dkeys hs') <-> In k (flat_map dkeys hs) \/ In k final).
Proof.
  intros Hord Hne HF Hn Hb Hv Hf. cbn [expand_basis].
  destruct (expand_hbuild_ok n op rs Hw Hr ord Hord fuel basis0 0 _ (hbuild_init basis0 hs Hne HF Hn Hb Hv)) as
    (hs' & final & E & HE & Hx & Hext & Hn' & Hc & Hsub); [intros; lia|].
  rewrite E. exists hs', final.
  assert (Hext' : Forall2 hext hs hs').
  { revert Hext. clear. revert hs'. induction hs as [|h hs IH]; intros hs' H; inversion H; subst; constructor; auto. }
  assert (HL : length hs = length hs') by (eapply Forall2_len; eauto).
  split; [|split; [auto|split; [auto|split; [auto|split; [auto|]]]]].
  - revert HL. clear. revert hs'. induction hs as [|h hs IH]; intros [|h' hs'] HL; simpl in *; try discriminate; auto. f_equal. apply IH; lia.
  - intros k. split; [|intros [Hk|Hk]; [|auto]].
    + intros Hk. destruct (Hsub k Hk) as [Hk'|]; auto. left. rewrite flat_map_map in Hk'. unfold keysr in Hk'. cbn [rs_h rs_new dkeys map] in Hk'.
      apply in_flat_map in Hk' as (h & Hh & Hk'). apply in_flat_map. exists h. rewrite app_nil_r in Hk'. auto.
    + apply in_flat_map in Hk as (h & Hh & Hk). apply (Forall2_in_l _ _ _ h Hext') in Hh as (h' & Hh' & He).
      apply in_flat_map. exists h'. split; auto. apply dget_Some_key in Hk as (v & Ev). apply dget_Some_key. eauto.
Qed.
Lemma expand_serial_top fuel basis0 h : hdict_exact n op rs h -> NoDup basis0 -> Forall (valid_key n) basis0 ->
  (2 ^ n < fuel + length basis0)%nat ->
  exists h' final, expand_serial fuel (Z.of_nat n) op rs basis0 0 h = (h', Ok final) /\ Exp n op rs basis0 0 final /\
    hdict_exact n op rs h' /\ hext h h' /\ (NoDup (dkeys h) -> NoDup (dkeys h')) /\
    (forall k, In k (dkeys h') <-> In k (dkeys h) \/ In k final).
Proof.
  intros Hh Hn Hv Hf. destruct (expand_serial_ok n op rs Hw Hr fuel basis0 0 h Hh Hn) as (h' & final & E & HE & Hx & He & Hd & Hk & _).
  - apply Forall_forall; auto.
  - lia.
  - auto.
  - exists h', final. rewrite E. cbn [skipn] in Hk. split; [auto|]. split; [auto|]. split; [auto|]. split; [auto|]. split; auto.
Qed.

(* the whole of expand_basis_and_hamiltonian, serial *)
Lemma ebh_serial fuel ord basis0 (hs : list (hdict_t F)) : Forall (hdict_exact n op rs) hs ->
  NoDup basis0 -> Forall (valid_key n) basis0 -> (2 ^ n < fuel + length basis0)%nat -> hs <> [] ->
  exists final, is_closure n op rs basis0 final /\ Exp n op rs basis0 0 final /\
    Forall2 (fun h res => exists h' m, res = (h', Ok (m, basis_index final)) /\ hdict_exact n op rs h' /\ hext h h' /\
                restricted_matrix n op rs final m) hs
      (expand_basis_and_hamiltonian fuel (Z.of_nat n) op rs ord Serial false basis0 hs).
Proof.
  intros HF Hn Hv Hf Hne. destruct hs as [|h0 hs0]; [congruence|].
  destruct (expand_serial_top fuel basis0 h0 (Forall_inv HF) Hn Hv Hf) as (h0' & final & _ & HE0 & _).
  exists final. split; [apply closure_of; auto|]. split; [auto|]. unfold expand_basis_and_hamiltonian. cbn [expand_basis].
  clear Hne. induction HF as [|h hs Hh HF IH]; cbn [map]; constructor; auto.
  destruct (expand_serial_top fuel basis0 h Hh Hn Hv Hf) as (h' & final' & E & HE & Hx & He & _ & Hk).
  assert (final' = final) by (eapply Exp_fun; eauto). subst final'.
  rewrite E. cbn [fst snd bind get_hamiltonian_matrix_from_h_dict map hd].
  pose proof (closure_of _ _ Hn Hv HE) as HC.
  destruct (from_sparse h' final) as (m & Em & Hm).
  - apply HC.
  - eapply exact_closed; eauto.
  - intros b Hb. apply Hk. auto.
  - exists h', m. rewrite Em. split; [reflexivity|]. split; [auto|]. split; [auto|].
    eapply restricted_ext; [apply Hm|]. apply stored_matrix; auto. intros b Hb. apply Hk. auto.
Qed.

Lemma locals_ok (ord : nat -> set_order) basis (hs : list (hdict_t F)) : (forall r l, Permutation (ord r l) l) ->
  NoDup basis -> Forall (fun h => closed_cols h basis) hs ->
  exists ms, map (fun rh => from_h_dict_local (ord (fst rh)) (snd rh) basis) (enumerate hs) = map Ok ms /\
    Forall2 (fun h (m : mat F) => forall i j, m i j = stored h basis i j) hs ms.
Proof.
  intros Hord Hn HF.
  destruct (map_ok_exists (fun rh => from_h_dict_local (ord (fst rh)) (snd rh) basis)
     (fun rh (m : mat F) => forall i j, m i j = stored (snd rh) basis i j) (enumerate hs)) as (ms & E & HF2).
  { intros [r h] Hin. apply enumerate_in, nth_error_In in Hin. rewrite Forall_forall in HF.
    destruct (from_local (ord r) h basis (Hord r) Hn (HF h Hin)) as (m & Em & Hm). exists m. auto. }
  exists ms. split; auto. rewrite <- (map_snd_enumerate hs). clear -HF2.
  induction HF2; constructor; auto.
Qed.
Lemma csum_Forall2 {A B} (f : A -> cx F) (g : B -> cx F) l m : Forall2 (fun a b => g b = f a) l m -> csum g m = csum f l.
Proof. induction 1; simpl; auto. congruence. Qed.

Lemma ebh_hbuild fuel (ord : nat -> set_order) basis0 (hs : list (hdict_t F)) : (forall r l, Permutation (ord r l) l) ->
  hs <> [] -> Forall (hdict_exact n op rs) hs -> NoDup (flat_map dkeys hs) ->
  NoDup basis0 -> Forall (valid_key n) basis0 -> (2 ^ n < fuel + length basis0)%nat ->
  exists final hs' m ms, is_closure n op rs basis0 final /\ Exp n op rs basis0 0 final /\ Forall (hdict_exact n op rs) hs' /\ Forall2 hext hs hs' /\
    NoDup (flat_map dkeys hs') /\ length ms = length hs /\
    expand_basis_and_hamiltonian fuel (Z.of_nat n) op rs ord HBuild false basis0 hs =
      map (fun h' => (h', Ok (m, basis_index final))) hs' /\
    expand_basis_and_hamiltonian fuel (Z.of_nat n) op rs ord HBuild true basis0 hs =
      map (fun hm => (fst hm, Ok (snd hm, basis_index final))) (combine hs' ms) /\
    restricted_matrix n op rs final m /\ forall i j, m i j = csum (fun mr : mat F => mr i j) ms.
Proof.
  intros Hord Hne HF Hn Hb Hv Hf.
  destruct (expand_hbuild_top fuel ord basis0 hs Hord Hne HF Hn Hb Hv Hf) as (hs' & final & E & HE & Hx & Hext & Hn' & Hk).
  pose proof (closure_of _ _ Hb Hv HE) as HC. pose proof HC as (_ & HnF & _).
  destruct (locals_ok ord final hs' Hord HnF) as (ms & Em & HFm).
  { apply Forall_forall. intros h Hh. rewrite Forall_forall in Hx. eapply exact_closed; eauto. }
  assert (HL : length hs = length hs') by (eapply Forall2_len; eauto).
  assert (HLm : length hs' = length ms) by (eapply Forall2_len; eauto).
  assert (Hhd : forall T (f : list pybytes -> T) g, match map (fun h' : hdict_t F => (h', @Ok (list pybytes) final)) hs' with (_, Ok b) :: _ => f b | _ => g end = f final).
  { intros. destruct hs'; [destruct hs; [congruence|discriminate]|reflexivity]. }
  assert (Hall : forallb (fun x : hdict_t F * res (list pybytes) => match snd x with Ok b => eqb b final | Err _ => false end) (map (fun h' => (h', Ok final)) hs') = true).
  { apply forallb_forall. intros x Hxx. apply in_map_iff in Hxx as (h & <- & _). cbn [snd]. apply eqb_refl. }
  assert (Efst : map fst (map (fun h' : hdict_t F => (h', @Ok (list pybytes) final)) hs') = hs') by (rewrite map_map; apply map_id).
  exists final, hs', (fold_left mplus ms mzeros), ms.
  split; [auto|]. split; [auto|]. split; [auto|]. split; [auto|]. split; [auto|]. split; [lia|].
  assert (Hsum : forall i j, fold_left mplus ms mzeros i j = csum (fun mr : mat F => mr i j) ms)
    by (intros; rewrite fold_mplus; unfold mzeros; ring).
  split; [|split; [|split; [|auto]]].
  - unfold expand_basis_and_hamiltonian. rewrite E.
    etransitivity; [apply (Hhd _ (fun basis => if forallb (fun x : hdict_t F * res (list pybytes) => match snd x with Ok b => eqb b basis | Err _ => false end) (map (fun h' => (h', Ok final)) hs') then _ else _))|].
    cbv beta. rewrite Hall, Efst. cbn [get_hamiltonian_matrix_from_h_dict]. rewrite Em, bcast_all_ok, map_map. cbn [rmap].
    revert HLm. generalize (fold_left mplus ms mzeros) as M. clear. intros M. revert ms.
    induction hs' as [|h hs IH]; intros [|m ms] HL; simpl in *; try discriminate; auto. f_equal. apply IH; lia.
  - unfold expand_basis_and_hamiltonian. rewrite E.
    etransitivity; [apply (Hhd _ (fun basis => if forallb (fun x : hdict_t F * res (list pybytes) => match snd x with Ok b => eqb b basis | Err _ => false end) (map (fun h' => (h', Ok final)) hs') then _ else _))|].
    cbv beta. rewrite Hall, Efst. cbn [get_hamiltonian_matrix_from_h_dict]. rewrite Em, map_map. cbn [rmap].
    revert HLm. clear. revert ms.
    induction hs' as [|h hs IH]; intros [|m ms] HL; simpl in *; try discriminate; auto. f_equal. apply IH; lia.
  - apply restricted_ext with (m' := fun i j => csum (fun h => stored h final i j) hs').
    + intros i j. rewrite Hsum. apply csum_Forall2. clear -HFm. induction HFm; constructor; auto.
    + apply stored_sum; auto. intros b Hbb. apply Hk. auto.
Qed.

Lemma restricted_herm basis0 basis m : assert_hermitian op = Ok tt -> Forall (valid_key n) basis0 ->
  (forall c, length c = n -> In (key c) basis0 -> allowed_opt rs c) ->
  is_closure n op rs basis0 basis -> restricted_matrix n op rs basis m -> hermitian (length basis) m.
Proof.
  intros Hh Hv Hall (_ & _ & HR) HM i j Hi Hj.
  destruct (nth_error basis i) as [bi|] eqn:Ei; [|apply nth_error_None in Ei; lia].
  destruct (nth_error basis j) as [bj|] eqn:Ej; [|apply nth_error_None in Ej; lia].
  assert (Hok : forall c, Reach n op rs basis0 c -> length c = n /\ allowed_opt rs c).
  { intros c Hc. inversion Hc; subst; [split; auto|]. unfold linked in *. tauto. }
  pose proof (proj1 (HR bi) (nth_error_In _ _ Ei)) as (ci & -> & Ri). pose proof (proj1 (HR bj) (nth_error_In _ _ Ej)) as (cj & -> & Rj).
  apply Hok in Ri as [Li Ai], Rj as [Lj Aj].
  destruct (HM i j ci cj Ei Ej Li Lj) as [H1 H2]. destruct (HM j i cj ci Ej Ei Lj Li) as [H3 H4].
  assert (Eo : opelem op ci cj = cconj (opelem op cj ci)) by (apply herm_opelem; auto; apply Hw).
  unfold linked in *. destruct (cabs2 (opelem op ci cj) <? eps12)%F eqn:E.
  - rewrite H2, H4; [symmetry; apply cconj_0|intros (_ & _ & Hx)|intros (_ & _ & Hx)].
    + rewrite Eo, cabs2_conj in E. congruence.
    + congruence.
  - rewrite H1, H3; auto. split; [auto|split; auto]. rewrite <- E, Eo, cabs2_conj. reflexivity.
Qed.
End Wf.
End LFromH.
