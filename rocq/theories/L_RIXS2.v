(* getRIXSmap: one entry of the map is the Kramers-Heisenberg expression *)
From Coq Require Import Lia List Bool Permutation Field Ring.
From Verif Require Import M_Prelude M_Scalar M_PSR M_Ladder M_State M_Mpi M_Hamiltonian M_Lanczos M_Spectra M_RIXS S_Fock S_Ham S_Ops S_Green S_RIXS S_Spectrum
  L_PSR L_Ladder L_Scalar L_Dict L_Sum L_Fock L_State L_ApplyOp L_Ops L_FockP L_Ham L_Expand L_ExpandP L_FromH L_HamP L_Vec L_Lanczos2 L_Green L_Green2 L_Green3 L_Green4 L_Spectra L_Spectra2 L_Spectra3 L_RIXS.
Import ListNotations.
Local Open Scope cx_scope.

Section LRIXS2.
Context {F : ofield}.
Add Field Ff : (f_field F).
Add Ring Cring : (@c_ring F).
Add Field Cf : (@c_field F).

Lemma cut_le0 (swm : F) x : (swm <= 0)%F -> cut swm x = x.
Proof.
  intros H. unfold cut. destruct (cabs2 x <? swm)%F eqn:E; auto. exfalso.
  pose proof (cabs2_nonneg x) as H0. pose proof (flt_le_trans _ _ _ E H) as H1. congruence.
Qed.
Lemma op_image_ext n (op : op_t F) rs (psi psi' r r' : psi_t F) : (forall t, length t = n -> amp psi t = amp psi' t) -> op_image n op rs psi r -> op_image n op rs psi' r' ->
  forall t, length t = n -> amp r t = amp r' t.
Proof.
  intros He H H' t Lt. destruct (H t Lt) as [H1 H2], (H' t Lt) as [H3 H4]. destruct (allowed_opt_dec rs t) as [D|D].
  - rewrite H1, H3 by auto. apply csum_ext. intros s Hs. apply allcfg_In in Hs. rewrite He; auto.
  - rewrite H2, H4; auto.
Qed.

(* ---- images with small elements and amplitudes left out ---- *)
Lemma kept_cut (swm : F) x : kept swm x (cut swm x).
Proof. unfold kept, cut. destruct (cabs2 x <? swm)%F eqn:Ex; auto. Qed.
Lemma kept_le0 (swm : F) x y : (swm <= 0)%F -> kept swm x y -> y = x.
Proof. intros H [E|[E _]]; [auto|]. exfalso. pose proof (flt_le_trans _ _ _ E H) as H1. pose proof (cabs2_nonneg x). congruence. Qed.
Lemma cut_image_le0 n op rs (swm : F) psi psi' : (swm <= 0)%F -> cut_image n op rs swm psi psi' -> op_image n op rs psi psi'.
Proof.
  intros Hs (elem & He & H) t Lt. destruct (H t Lt) as [H1 H2]. split; [|auto]. intros Ha. rewrite (kept_le0 swm _ _ Hs (H1 Ha)).
  apply csum_ext. intros s Hi. apply allcfg_In in Hi. f_equal. apply (kept_le0 swm); auto.
Qed.
Lemma cut_image_amp n op rs (swm : F) psi p q : (forall t, length t = n -> amp p t = amp q t) -> cut_image n op rs swm psi p -> cut_image n op rs swm psi q.
Proof. intros E (elem & He & H). exists elem. split; [auto|]. intros t Lt. rewrite <- E by auto. auto. Qed.
Lemma apply_kept n (op : op_t F) (psi : psi_t F) (swm : F) rs (cache : cache_t F) : wf_restr rs -> wf_op n op -> valid_psi n psi -> cache_ok n op swm rs cache ->
  exists cache' psi', applyOp (Z.of_nat n) op psi swm rs (Some cache) = (Some cache', Ok psi') /\ cache_ok n op swm rs cache' /\
    valid_psi n psi' /\ (forall c, length c = n -> In (key c) (dkeys psi') -> allowed_opt rs c) /\ cut_image n op rs swm psi psi'.
Proof.
  intros Hr Hw Hv Hc. apply cache_ok_iff in Hc; auto.
  destruct (applyOp_cached n op psi swm rs cache Hw Hv Hc) as (cache' & psi' & E & Hc' & _ & _ & Hv' & Hk & Ha).
  exists cache', psi'. split; [auto|]. split; [apply cache_ok_iff; auto|]. split; [auto|]. split.
  - intros c Lc Hi. destruct (Hk _ Hi) as (d & Ld & Ed & Eo). apply key_inj in Ed; [|congruence]. subst d. apply okr_allowed; auto.
  - exists (elem_cached swm op cache). split.
    + intros t s _ _. unfold elem_cached. destruct (dmem cache (key s)); [apply kept_cut|left; auto].
    + intros t Ht. rewrite (Ha t Ht). destruct (okr rs t) eqn:Eo.
      * apply okr_allowed in Eo; auto. split; [intros _; apply kept_cut|contradiction].
      * split; [|auto]. intros Hx. apply okr_allowed in Hx; auto. congruence.
Qed.

(* ---- the vector x as a state ---- *)
Lemma NoDup_basis_index basis : NoDup (dkeys (basis_index basis)).
Proof.
  unfold basis_index. assert (G : forall (l : list (nat * pybytes)) (d : dict pybytes nat), NoDup (dkeys d) ->
    NoDup (dkeys (fold_left (fun d ib => dset d (snd ib) (fst ib)) l d))).
  { induction l as [|a l IH]; intros d Hd; simpl; auto. apply IH, NoDup_dset. auto. }
  apply G. constructor.
Qed.
Lemma basis_state_get basis i k : NoDup basis -> nth_error basis i = Some k -> dget (basis_state (basis_index basis)) i = Some k.
Proof.
  intros Hn E. unfold basis_state. 
  assert (G : forall (d : dict pybytes nat) acc, NoDup (dkeys d) -> (forall k1 k2, In (k1, i) d -> In (k2, i) d -> k1 = k2) ->
     dget (fold_left (fun (d : dict nat pybytes) ki => dset d (snd ki) (fst ki)) d acc) i =
     match find (fun ki => Nat.eqb (snd ki) i) d with Some (k, _) => Some k | None => dget acc i end).
  { induction d as [|[k1 i1] d IH]; intros acc Hd Hu; simpl; auto. inversion Hd as [|? ? Hni Hd']. subst.
    rewrite IH; auto; [|intros; eapply Hu; right; eauto].
    destruct (Nat.eqb_spec i1 i) as [->|Hne].
    - destruct (find _ d) as [[k2 i2]|] eqn:Ef.
      + apply find_some in Ef as [Hi Ei]. apply Nat.eqb_eq in Ei. simpl in Ei. subst i2.
        rewrite (Hu k1 k2); [auto|left; auto|right; auto].
      + apply dget_dset_same.
    - destruct (find _ d) as [[k2 i2]|]; auto. apply dget_dset_other. auto. }
  assert (Hnk := NoDup_basis_index basis).
  assert (Hin : In (k, i) (basis_index basis)).
  { apply dget_In. apply basis_index_nodup; auto. }
  rewrite G; auto.
  - destruct (find _ (basis_index basis)) as [[k2 i2]|] eqn:Ef.
    + apply find_some in Ef as [Hi Ei]. apply Nat.eqb_eq in Ei. simpl in Ei. subst i2. f_equal.
      apply In_dget in Hi; auto. apply basis_index_spec in Hi. congruence.
    + apply (find_none _ _ Ef) in Hin. simpl in Hin. rewrite Nat.eqb_refl in Hin. discriminate.
  - intros k1 k2 H1 H2. apply In_dget in H1; auto. apply In_dget in H2; auto. apply basis_index_spec in H1, H2. congruence.
Qed.
Lemma psi2_of_ok n basis (x : vec F) : NoDup basis -> Forall (valid_key n) basis -> length x = length basis ->
  exists psi2, psi2_of (basis_index basis) x = Ok psi2 /\ valid_psi n psi2 /\
    forall t, length t = n -> amp psi2 t = lift basis (vf x) t.
Proof.
  intros Hn Hv HL.
  pose (inv := fun (k : nat) (psi : psi_t F) => NoDup (dkeys psi) /\ (forall b, In b (dkeys psi) -> In b basis) /\
    forall i b, nth_error basis i = Some b -> dget psi b = if Nat.ltb i k && negb (ceqb (vf x i) c0) then Some (vf x i) else None).
  assert (G : forall l pre psi, x = pre ++ l -> inv (length pre) psi -> exists psi2,
    fold_res (fun psi2 ia => if ceqb (snd ia) c0 then Ok psi2 else do ps <- dgetitem (basis_state (basis_index basis)) (fst ia); Ok (dset psi2 ps (snd ia)))
      (combine (seq (length pre) (length l)) l) psi = Ok psi2 /\ inv (length x) psi2).
  { induction l as [|a l IH]; intros pre psi E Hi.
    - rewrite app_nil_r in E. subst pre. exists psi. split; [reflexivity|auto].
    - cbn [length seq combine fold_res fst snd].
      assert (Ea : vf x (length pre) = a) by (rewrite E; unfold vf; rewrite app_nth2, Nat.sub_diag by lia; reflexivity).
      assert (Hk : (length pre < length basis)%nat) by (rewrite <- HL, E, app_length; simpl; lia).
      assert (E' : x = (pre ++ [a]) ++ l) by (rewrite <- app_assoc; exact E).
      assert (Hlen : length (pre ++ [a]) = S (length pre)) by (rewrite app_length; simpl; lia).
      destruct (nth_error basis (length pre)) as [b|] eqn:Eb; [|apply nth_error_None in Eb; lia].
      destruct Hi as (H1 & H2 & H3).
      destruct (ceqb a c0) eqn:E0; cbn [bind].
      + specialize (IH (pre ++ [a]) psi E'). rewrite Hlen in IH. apply IH. split; [auto|]. split; [auto|].
        intros i b' Ei. rewrite (H3 i b' Ei). destruct (Nat.ltb_spec i (length pre)), (Nat.ltb_spec i (S (length pre))); auto; try lia.
        assert (i = length pre) by lia. subst i. rewrite Ea, E0. reflexivity.
      + unfold dgetitem. rewrite (basis_state_get basis (length pre) b Hn Eb). cbn [bind].
        specialize (IH (pre ++ [a]) (dset psi b a) E'). rewrite Hlen in IH. apply IH. split; [apply NoDup_dset; auto|]. split.
        * intros b' Hb. apply in_dkeys_dset in Hb as [->|Hb]; auto. eapply nth_error_In; eauto.
        * intros i b' Ei. destruct (eqb_spec b' b) as [->|Hne].
          -- assert (i = length pre) by (rewrite NoDup_nth_error in Hn; apply Hn; [apply nth_error_Some; congruence|congruence]). subst i.
             rewrite dget_dset_same, Ea, E0. destruct (Nat.ltb_spec (length pre) (S (length pre))); [reflexivity|lia].
          -- rewrite dget_dset_other by auto. rewrite (H3 i b' Ei).
             destruct (Nat.ltb_spec i (length pre)), (Nat.ltb_spec i (S (length pre))); auto; try lia.
             assert (i = length pre) by lia. subst i. congruence. }
  destruct (G x [] [] eq_refl) as (psi2 & E & H1 & H2 & H3).
  { split; [constructor|]. split; [intros b []|]. intros i b _. destruct (Nat.ltb_spec i (length (@nil (cx F)))); [simpl in *; lia|reflexivity]. }
  exists psi2. split; [exact E|]. split.
  - split; [auto|]. intros k Hk. rewrite Forall_forall in Hv. apply Hv, H2. auto.
  - intros t Lt. unfold amp, lift. destruct (dget (basis_index basis) (key t)) as [i|] eqn:Ei.
    + apply basis_index_spec in Ei. rewrite (H3 i _ Ei).
      assert (Hi : (i < length x)%nat) by (rewrite HL; apply nth_error_Some; congruence).
      destruct (Nat.ltb_spec i (length x)); [|lia]. destruct (ceqb_spec (vf x i) c0) as [->|]; reflexivity.
    + destruct (dget psi2 (key t)) eqn:Ed; auto. exfalso.
      assert (Hk : In (key t) basis) by (apply H2, dget_Some_key; eauto).
      destruct (basis_index_In basis _ Hk) as (i & Ei'). congruence.
Qed.

(* ---- the linear equations ---- *)
Lemma a_rows_len N z (m : mat F) : length (a_rows N z m) = N.
Proof. unfold a_rows. rewrite map_length, seq_length. auto. Qed.
Lemma a_rows_nth N z (m : mat F) i j : (i < N)%nat -> (j < N)%nat -> vf (nth i (a_rows N z m) []) j = (if Nat.eqb i j then z else c0) - m i j.
Proof.
  intros Hi Hj. unfold a_rows. rewrite (nth_indep _ [] (map (fun j => (if Nat.eqb 0 j then z else c0) - m 0%nat j) (seq 0 N))) by (rewrite map_length, seq_length; auto).
  rewrite (map_nth (fun i => map (fun j => (if Nat.eqb i j then z else c0) - m i j) (seq 0 N))), seq_nth by auto. cbn [Nat.add].
  unfold vf. rewrite (nth_indep _ c0 ((if Nat.eqb i 0 then z else c0) - m i 0%nat)) by (rewrite map_length, seq_length; auto).
  rewrite (map_nth (fun j => (if Nat.eqb i j then z else c0) - m i j)), seq_nth by auto. reflexivity.
Qed.
Lemma a_rows_solution N z (m : mat F) x y : solution (a_rows N z m) x y <-> length x = N /\ solves N z m (vf x) (vf y).
Proof.
  unfold solution, solves. rewrite a_rows_len. 
  assert (E : forall i, (i < N)%nat -> csum (fun j => vf (nth i (a_rows N z m) []) j * vf x j) (seq 0 N) = z * vf x i - mv N m (vf x) i).
  { intros i Hi. unfold mv. replace (z * vf x i) with (csum (fun j => if Nat.eqb j i then z * vf x j else c0) (seq 0 N)) by (rewrite csum_delta; destruct (Nat.ltb_spec i N); [auto|lia]).
    rewrite <- csum_sub. apply csum_ext. intros j Hj. apply in_seq in Hj.
    rewrite a_rows_nth by lia. rewrite (Nat.eqb_sym j i). destruct (Nat.eqb i j); ring. }
  split; intros [H1 H2]; (split; [auto|]); intros i Hi; specialize (H2 i Hi); rewrite E in *; auto.
Qed.
Lemma a_rows_solver solve N z (m : mat F) y : exact_solver solve -> im z <> 0%F -> hermitian N m -> length y = N ->
  length (solve (a_rows N z m) y) = N /\ solves N z m (vf (solve (a_rows N z m) y)) (vf y).
Proof.
  intros Hs Hz Hm Ly. apply a_rows_solution. apply Hs.
  - intros r Hr. unfold a_rows in Hr. apply in_map_iff in Hr as (i & <- & _). rewrite a_rows_len, map_length, seq_length. auto.
  - rewrite a_rows_len. auto.
  - rewrite a_rows_len. intros x Hx. apply a_rows_solution in Hx as [Lx Hx].
    assert (H0 : solves N z m (fun _ => c0) (vf (repeat c0 N))).
    { intros i Hi. unfold mv. rewrite csum_zero by (intros; ring). unfold vf. rewrite repeat_nth0. ring. }
    apply (nth_ext _ _ c0 c0); [rewrite repeat_length; auto|]. intros i Hi. rewrite repeat_nth0.
    apply (solves_unique N m Hm z (fun _ => c0) (vf x) (vf (repeat c0 N))); auto. lia.
Qed.
End LRIXS2.
