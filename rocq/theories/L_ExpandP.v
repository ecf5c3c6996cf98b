(* expand_basis in H_build mode. *)
From Coq Require Import Permutation Sorted.
From Verif Require Import M_Prelude M_Scalar M_PSR M_Ladder M_State M_Mpi M_Hamiltonian S_Fock S_Ops S_Ham.
From Verif Require Import L_Scalar L_Sum L_Dict L_PSR L_Fock L_State L_ApplyOp L_Ops L_FockP L_Ham L_Sort L_Expand.
Local Open Scope Z_scope.

(* ---- lists ---- *)
Lemma map_ok_exists {A B} (f : A -> res B) (P : A -> B -> Prop) l :
  (forall a, In a l -> exists b, f a = Ok b /\ P a b) -> exists bs, map f l = map Ok bs /\ Forall2 P l bs.
Proof.
  induction l as [|a l IH]; intros H; [exists []; auto|].
  destruct (H a (or_introl eq_refl)) as (b & E & Hp). destruct IH as (bs & E' & HF); [intros; apply H; right; auto|].
  exists (b :: bs). simpl. rewrite E, E'. auto.
Qed.
Lemma Forall2_in_l {A B} (P : A -> B -> Prop) l m a : Forall2 P l m -> In a l -> exists b, In b m /\ P a b.
Proof. induction 1 as [|x y l m Hp HF IH]; intros Hi; [destruct Hi|]. destruct Hi as [->|Hi]; [exists y; split; auto; left; auto|].
  destruct (IH Hi) as (b & Hb & Hpb). exists b. split; auto. right; auto. Qed.
Lemma Forall2_in_r {A B} (P : A -> B -> Prop) l m b : Forall2 P l m -> In b m -> exists a, In a l /\ P a b.
Proof. induction 1 as [|x y l m Hp HF IH]; intros Hi; [destruct Hi|]. destruct Hi as [->|Hi]; [exists x; split; auto; left; auto|].
  destruct (IH Hi) as (a & Ha & Hpa). exists a. split; auto. right; auto. Qed.
Lemma is_ok_map {A} (l : list A) : forallb is_ok (map Ok l) = true.
Proof. induction l; simpl; auto. Qed.
Lemma oks_map {A} (l : list A) : oks (map Ok l) = l.
Proof. unfold oks. induction l; simpl; auto. f_equal; auto. Qed.
Lemma enumerate_in {A} (l : list A) r s : In (r, s) (enumerate l) <-> nth_error l r = Some s.
Proof.
  unfold enumerate.
  assert (H : forall (l : list A) z, In (r, s) (combine (seq z (length l)) l) <-> (z <= r)%nat /\ nth_error l (r - z) = Some s).
  { clear l. induction l as [|a l IH]; intros z; simpl.
    - split; [tauto|]. intros [_ H]. destruct (r - z)%nat; discriminate.
    - rewrite IH. split.
      + intros [[= -> ->]|[Hz E]]; [split; auto; rewrite Nat.sub_diag; auto|]. split; [lia|].
        replace (r - z)%nat with (S (r - S z)) by lia. auto.
      + intros [Hz E]. destruct (Nat.eq_dec z r) as [->|]; [rewrite Nat.sub_diag in E; left; simpl in E; congruence|].
        right. split; [lia|]. replace (r - z)%nat with (S (r - S z)) in E by lia. auto. }
  rewrite H, Nat.sub_0_r. intuition lia.
Qed.
Lemma flat_map_app_perm {A B} (f g : A -> list B) l :
  Permutation (flat_map (fun a => f a ++ g a) l) (flat_map f l ++ flat_map g l).
Proof.
  induction l as [|a l IH]; simpl; auto. rewrite IH. rewrite <- !app_assoc. apply Permutation_app_head.
  rewrite !app_assoc. apply Permutation_app_tail. apply Permutation_app_comm.
Qed.
Lemma map_flat_map {A B C} (g : B -> C) (f : A -> list B) l : map g (flat_map f l) = flat_map (fun a => map g (f a)) l.
Proof. induction l as [|a l IH]; simpl; auto. rewrite map_app, IH. auto. Qed.
Lemma flat_map_map {A B C} (f : B -> list C) (g : A -> B) l : flat_map f (map g l) = flat_map (fun a => f (g a)) l.
Proof. induction l as [|a l IH]; simpl; auto. rewrite IH. auto. Qed.
Lemma flat_map_ext_in' {A B} (f g : A -> list B) l : (forall a, In a l -> f a = g a) -> flat_map f l = flat_map g l.
Proof. induction l as [|a l IH]; simpl; intros H; auto. rewrite H, IH; auto. Qed.
Lemma nodup_flat_map_unique {A B} (f : A -> list B) l x : NoDup (flat_map f l) ->
  forall r r' a a', nth_error l r = Some a -> nth_error l r' = Some a' -> In x (f a) -> In x (f a') -> r = r'.
Proof.
  induction l as [|b l IH]; intros Hn r r' a a' E E' Hx Hx'; [destruct r; discriminate|]. simpl in Hn.
  assert (Hd : forall y, In y (f b) -> In y (flat_map f l) -> False).
  { clear -Hn. intros y. revert Hn. generalize (flat_map f l) as m. induction (f b) as [|z q IHq]; intros m Hn; [intros []|].
    simpl in Hn. apply NoDup_cons_iff in Hn as [Hz Hn]. intros [->|H1] H2; [apply Hz, in_or_app; auto|eapply IHq; eauto]. }
  assert (Hn' : NoDup (flat_map f l)). { clear -Hn. induction (f b); auto. apply IHl0. inversion Hn; auto. }
  destruct r as [|r], r' as [|r']; simpl in E, E'; auto.
  - injection E as ->. exfalso. apply (Hd x); auto. apply in_flat_map. exists a'. split; auto. eapply nth_error_In; eauto.
  - injection E' as ->. exfalso. apply (Hd x); auto. apply in_flat_map. exists a. split; auto. eapply nth_error_In; eauto.
  - f_equal. eapply IH; eauto.
Qed.

Section LExpP.
Context {F : ofield}.
Variables (n : nat) (op : op_t F) (rs : option restrictions_t).
Hypothesis (Hw : wf_op n op) (Hr : wf_restr rs).
Variable ord : nat -> set_order.
Hypothesis Hord : forall r l, Permutation (ord r l) l.

Notation linkedk := (linkedk n op rs).
Notation round := (round n op rs).
Notation Exp := (Exp n op rs).

Definition colk (ps : pybytes) : psi_t F :=
  match r_column (Z.of_nat n) op rs ps with Ok r => r | Err _ => [] end.
Lemma colk_ok b : valid_key n b -> r_column (Z.of_nat n) op rs b = Ok (colk b) /\
  exists c, length c = n /\ b = key c /\ col_exact n op rs c (colk b).
Proof.
  intros (c & Hc & ->). destruct (r_column_exact n op rs c Hw Hr Hc) as (col & E & Hx).
  unfold colk. rewrite E. split; auto. exists c. auto.
Qed.
Lemma colk_keys b x : valid_key n b -> In x (dkeys (colk b)) <-> linkedk b x.
Proof.
  intros Hv. destruct (colk_ok b Hv) as (_ & c & Hc & -> & Hx). apply exact_keys; auto.
Qed.

(* what holds of one rank *)
Definition rank_ok (basis : list pybytes) (i : nat) (s : rank_state F) : Prop :=
  rs_basis s = basis /\ rs_i s = i /\ hdict_exact n op rs (rs_h s) /\ hdict_exact n op rs (rs_new s) /\
  (forall k, In k (dkeys (rs_new s)) -> In k (firstn i basis)).
Definition keysr (s : rank_state F) : list pybytes := dkeys (rs_h s) ++ dkeys (rs_new s).

Lemma newA_ok basis i r s : rank_ok basis i s ->
  exists bn, newA (ord r) s = Ok bn /\ NoDup bn /\
    forall x, In x bn <-> ~ In x basis /\ exists b, In b (setA s) /\ linkedk b x.
Proof.
  intros (Eb & Ei & Hh & _). unfold newA. rewrite Eb.
  assert (H : forall l acc, (forall b, In b l -> In b (dkeys (rs_h s))) -> NoDup acc ->
     exists bn, fold_res (fun bn ps => do r0 <- dgetitem (rs_h s) ps; Ok (set_update bn (set_diff (dkeys r0) basis))) l acc = Ok bn /\
       NoDup bn /\ forall x, In x bn <-> In x acc \/ (~ In x basis /\ exists b, In b l /\ linkedk b x)).
  { induction l as [|b l IH]; intros acc Hl Hn.
    - exists acc. split; auto. split; auto. intros x. split; auto. intros [|(_ & b & [] & _)]; auto.
    - cbn [fold_res]. unfold dgetitem at 1. pose proof (Hl b (or_introl eq_refl)) as Hi. apply dget_Some_key in Hi as (col & Ec).
      rewrite Ec. cbn [bind].
      destruct (IH (set_update acc (set_diff (dkeys col) basis))) as (bn & E & Hnb & Hb).
      { intros; apply Hl; right; auto. } { apply set_update_NoDup; auto. }
      exists bn. split; auto. split; auto. intros x. rewrite Hb, set_update_In, set_diff_In.
      destruct (Hh b col Ec) as (c & Hc & -> & Hx). rewrite (exact_keys n op rs c col x) by auto. split.
      + intros [[|[H1 H2]]|(H1 & b' & H2 & H3)]; auto; right; split; auto; [exists (key c)|exists b']; split; auto; [left|right]; auto.
      + intros [|(H1 & b' & [<-|H2] & H3)]; auto. right. split; auto. exists b'. auto. }
  destruct (H (ord r (setA s)) []) as (bn & E & Hn & Hb).
  - intros b Hb. apply (Permutation_in _ (Hord r (setA s))) in Hb. apply set_inter_In in Hb. tauto.
  - constructor.
  - exists bn. split; auto. split; auto. intros x. rewrite Hb. simpl. split.
    + intros [[]|(H1 & b & H2 & H3)]. split; auto. exists b. split; auto. eapply Permutation_in; [apply Hord|]; eauto.
    + intros (H1 & b & H2 & H3). right. split; auto. exists b. split; auto. eapply Permutation_in; [symmetry; apply Hord|]; eauto.
Qed.

Definition jobsB (R : nat) (tB : list pybytes) (r : nat) : list pybytes :=
  map (fun k => nth k tB []) (jobs_of tB R r).
Lemma map_nth_seq {A} (d : A) l : map (fun k => nth k l d) (seq 0 (length l)) = l.
Proof.
  apply nth_ext with (d := d) (d' := d); [rewrite map_length, seq_length; auto|].
  intros k Hk. rewrite map_length, seq_length in Hk.
  rewrite nth_indep with (d' := (fun k => nth k l d) 0%nat) by (rewrite map_length, seq_length; lia).
  rewrite (map_nth (fun k => nth k l d)), seq_nth by lia. reflexivity.
Qed.
Lemma jobsB_perm R tB : (1 <= R)%nat -> Permutation (flat_map (jobsB R tB) (seq 0 R)) tB.
Proof.
  intros HR. transitivity (map (fun k => nth k tB []) (flat_map (jobs_of tB R) (seq 0 R))).
  - apply Permutation_refl'. symmetry. exact (map_flat_map (fun k => nth k tB []) (jobs_of tB R) (seq 0 R)).
  - etransitivity; [apply Permutation_map; exact (job_tasks_partition (seq 0 (length tB)) R HR)|]. rewrite map_nth_seq. auto.
Qed.

Lemma do_jobs_ok basis i r R tB s acc : rank_ok basis i s -> (r < R)%nat -> NoDup acc -> NoDup tB ->
  (forall b, In b tB -> valid_key n b /\ ~ In b (dkeys (rs_new s))) ->
  exists bn, do_jobs (Z.of_nat n) op rs r R tB s acc = Ok (rs_new s ++ map (fun ps => (ps, colk ps)) (jobsB R tB r), bn) /\
    NoDup bn /\ forall x, In x bn <-> In x acc \/ (~ In x basis /\ exists b, In b (jobsB R tB r) /\ linkedk b x).
Proof.
  intros (Eb & Ei & _ & Hh & _) HrR Hacc HnB HB. unfold do_jobs. rewrite get_job_tasks_eq by auto. cbn [bind].
  fold (jobs_of tB R r). rewrite Eb. unfold jobsB.
  assert (Hj : forall k, In k (jobs_of tB R r) -> (k < length tB)%nat) by (intros k Hk; eapply jobs_lt; eauto).
  assert (Hnj : NoDup (jobs_of tB R r)) by (apply jobs_nodup; auto).
  assert (H : forall l new acc, NoDup l -> (forall k, In k l -> (k < length tB)%nat) ->
     (forall k, In k l -> ~ In (nth k tB []) (dkeys new)) -> NoDup acc ->
     exists bn, fold_res (fun st k => do ps <- nth_res tB k; do r0 <- r_column (Z.of_nat n) op rs ps;
        Ok (dset (fst st) ps r0, set_update (snd st) (set_diff (dkeys r0) basis))) l (new, acc)
       = Ok (new ++ map (fun ps => (ps, colk ps)) (map (fun k => nth k tB []) l), bn) /\ NoDup bn /\
       forall x, In x bn <-> In x acc \/ (~ In x basis /\ exists b, In b (map (fun k => nth k tB []) l) /\ linkedk b x)).
  { clear Hj Hnj Hacc acc. induction l as [|k l IH]; intros new acc Hn Hl Hf Hacc.
    - exists acc. simpl. rewrite app_nil_r. split; auto. split; auto. intros x. split; auto. intros [|(_ & b & [] & _)]; auto.
    - apply NoDup_cons_iff in Hn as [Hk Hn]. cbn [fold_res].
      assert (Lk : (k < length tB)%nat) by (apply Hl; left; auto).
      unfold nth_res. rewrite (nth_error_nth' tB [] Lk). cbn [bind].
      destruct (HB (nth k tB [])) as [Hvk _]; [apply nth_In; auto|].
      destruct (colk_ok _ Hvk) as (E & _). rewrite E. cbn [bind fst snd].
      rewrite dset_notin by (apply Hf; left; auto).
      destruct (IH (new ++ [(nth k tB [], colk (nth k tB []))]) (set_update acc (set_diff (dkeys (colk (nth k tB []))) basis)))
        as (bn & E' & Hnb & Hb); auto.
      { intros; apply Hl; right; auto. }
      { intros k' Hk' Hin. unfold dkeys in Hin. rewrite map_app in Hin. apply in_app_or in Hin as [Hin|[Hin|[]]].
        - revert Hin. apply Hf. right; auto.
        - cbn [fst] in Hin. assert (k = k'); [|subst; contradiction].
          apply (NoDup_nth tB []) in Hin; auto. apply Hl; right; auto. }
      { apply set_update_NoDup; auto. }
      exists bn. unfold nth_res in E'. rewrite E'. cbn [map]. rewrite <- app_assoc. cbn [app]. split; auto. split; auto.
      intros x. rewrite Hb, set_update_In, set_diff_In, (colk_keys _ x Hvk). split.
      + intros [[|[H1 H2]]|(H1 & b' & H2 & H3)]; auto; right; split; auto; [exists (nth k tB [])|exists b']; split; auto; [left|right]; auto.
      + intros [|(H1 & b' & [<-|H2] & H3)]; auto. right. split; auto. exists b'. auto. }
  apply H; auto. intros k Hk. apply HB. apply nth_In. auto.
Qed.

Lemma tupleB_spec basis i states : states <> [] -> Forall (rank_ok basis i) states ->
  NoDup (tupleB (ord 0%nat) states) /\
  forall k, In k (tupleB (ord 0%nat) states) <-> In k (skipn i basis) /\ forall s, In s states -> ~ In k (dkeys (rs_h s)).
Proof.
  intros Hne HF. destruct states as [|s0 rest]; [congruence|]. cbn [tupleB].
  pose proof (Forall_inv HF) as (Eb & Ei & _). apply Forall_inv_tail in HF.
  set (b0 := set_diff (skipn (rs_i s0) (rs_basis s0)) (setA s0)).
  assert (H : forall l b, NoDup b -> NoDup (fold_left (fun b s => set_diff b (setA s)) l b) /\
     forall k, In k (fold_left (fun b (s : rank_state F) => set_diff b (setA s)) l b) <-> In k b /\ forall s, In s l -> ~ In k (setA s)).
  { induction l as [|s l IH]; intros b Hb; simpl.
    - split; auto. intros k. intuition.
    - destruct (IH (set_diff b (setA s)) (set_diff_NoDup _ _)) as [H1 H2]. split; auto. intros k. rewrite H2, set_diff_In.
      split; [intros [[Ha Hb'] Hc]; split; auto; intros s' [<-|Hs]; auto|].
      intros [Ha Hc]. split; [split; auto; apply Hc; left; auto|]. intros s' Hs. apply Hc; right; auto. }
  destruct (H rest b0 (set_diff_NoDup _ _)) as [H1 H2]. split.
  - eapply Permutation_NoDup; [symmetry; apply Hord|auto].
  - intros k. transitivity (In k (fold_left (fun b s => set_diff b (setA s)) rest b0)).
    { split; apply Permutation_in; [|symmetry]; apply Hord. }
    rewrite H2. unfold b0. rewrite set_diff_In, Eb, Ei. unfold setA at 1. rewrite set_inter_In, Eb, Ei.
    rewrite Forall_forall in HF. split.
    + intros [[Ha Hb] Hc]. split; auto. intros s [<-|Hs] Hin; [apply Hb; auto|].
      apply (Hc s Hs). destruct (HF s Hs) as (Eb' & Ei' & _). unfold setA. rewrite set_inter_In, Eb', Ei'. auto.
    + intros [Ha Hc]. split; [split; auto; intros [_ Hin]; apply (Hc s0); auto; left; auto|].
      intros s Hs Hin. unfold setA in Hin. apply set_inter_In in Hin as [_ Hin]. apply (Hc s); auto. right; auto.
Qed.

Record inv (basis : list pybytes) (i : nat) (states : list (rank_state F)) : Prop := {
  inv_ne : states <> [];
  inv_ok : Forall (rank_ok basis i) states;
  inv_nd : NoDup (flat_map keysr states);
  inv_cov : forall k, In k (firstn i basis) -> In k (flat_map keysr states);
  inv_basis : NoDup basis;
  inv_val : forall b, In b basis -> valid_key n b;
  inv_i : (i <= length basis)%nat }.

Lemma NoDup_app_l {A} (l m : list A) : NoDup (l ++ m) -> NoDup l.
Proof. induction l; intros H; [constructor|]. inversion H; subst. constructor; auto. intros Hx. apply H2, in_or_app; auto. Qed.
Lemma NoDup_app_r {A} (l m : list A) : NoDup (l ++ m) -> NoDup m.
Proof. induction l; auto. intros H. inversion H; auto. Qed.
Lemma NoDup_app_disj {A} (l m : list A) x : NoDup (l ++ m) -> In x l -> In x m -> False.
Proof. induction l as [|a l IH]; intros H Hi Hm; [destruct Hi|]. inversion H; subst. destruct Hi as [->|Hi]; [apply H2, in_or_app; auto|auto]. Qed.
Lemma NoDup_flat_map_in {A B} (f : A -> list B) l a : NoDup (flat_map f l) -> In a l -> NoDup (f a).
Proof. induction l; intros H Hi; [destruct Hi|]; simpl in H; destruct Hi as [->|Hi]; [apply NoDup_app_l in H; auto|apply NoDup_app_r in H; auto]. Qed.

Definition step_states (bn : list pybytes) (basis : list pybytes) (R : nat) (tB : list pybytes) (states : list (rank_state F)) :=
  map (fun rsx => let s := snd rsx in mkRS (basis ++ py_sorted bn) (length basis) (rs_h s)
       (rs_new s ++ map (fun ps => (ps, colk ps)) (jobsB R tB (fst rsx)))) (enumerate states).

Lemma union_spec (bs : list (hdict_t F * list pybytes)) : forall acc, NoDup acc ->
  NoDup (fold_left (fun acc l => set_update acc (snd l)) bs acc) /\
  forall x, In x (fold_left (fun acc l => set_update acc (snd l)) bs acc) <-> In x acc \/ exists l, In l bs /\ In x (snd l).
Proof.
  induction bs as [|b bs IH]; intros acc Hn; simpl.
  - split; auto. intros x. split; auto. intros [|(l & [] & _)]; auto.
  - destruct (IH (set_update acc (snd b)) (set_update_NoDup _ _ Hn)) as [H1 H2]. split; auto. intros x. rewrite H2, set_update_In.
    split.
    + intros [[|]|(l & Hl & Hx)]; auto; right; [exists b|exists l]; auto.
    + intros [|(l & [<-|Hl] & Hx)]; auto. right. exists l. auto.
Qed.
Lemma enumerate_length {A} (l : list A) : length (enumerate l) = length l.
Proof. unfold enumerate. rewrite combine_length, seq_length. lia. Qed.
Lemma map_fst_enumerate {A} (l : list A) : map fst (enumerate l) = seq 0 (length l).
Proof.
  unfold enumerate. generalize 0%nat as z. induction l as [|a l IH]; intros z; simpl; auto. f_equal. auto.
Qed.
Lemma map_snd_enumerate {A} (l : list A) : map snd (enumerate l) = l.
Proof.
  unfold enumerate. generalize 0%nat as z. induction l as [|a l IH]; intros z; simpl; auto. f_equal. auto.
Qed.

Lemma round_step basis i states : inv basis i states -> (i < length basis)%nat ->
  exists bs, map (fun rsx => do bn <- newA (ord (fst rsx)) (snd rsx);
                 do_jobs (Z.of_nat n) op rs (fst rsx) (length states) (tupleB (ord 0%nat) states) (snd rsx) bn) (enumerate states)
             = map Ok bs /\
    let U := fold_left (fun acc l => set_update acc (snd l)) bs [] in
    let states' := map (fun sl => let s := fst sl in mkRS (rs_basis s ++ py_sorted U) (length (rs_basis s)) (rs_h s) (fst (snd sl))) (combine states bs) in
    round basis (skipn i basis) U /\ inv (basis ++ py_sorted U) (length basis) states' /\
    map (@rs_h F) states' = map (@rs_h F) states /\
    (forall k, In k (flat_map keysr states') <-> In k (flat_map keysr states) \/ In k (tupleB (ord 0%nat) states)).
Proof.
  intros HI Hlt. destruct HI as [Hne HF Hnd Hcov Hnb Hval Hi].
  destruct (tupleB_spec basis i states Hne HF) as [HnB HB]. set (tB := tupleB (ord 0%nat) states) in *.
  set (R := length states). assert (HR : (1 <= R)%nat) by (unfold R; destruct states; simpl; [congruence|lia]).
  assert (HF' : forall s, In s states -> rank_ok basis i s) by (apply Forall_forall; auto).
  assert (HtBnew : forall s, In s states -> forall b, In b tB -> ~ In b (dkeys (rs_new s))).
  { intros s Hs b Hb Hin. apply HB in Hb as [Hb _]. destruct (HF' s Hs) as (_ & _ & _ & _ & Hsub). apply Hsub in Hin.
    rewrite <- (firstn_skipn i basis) in Hnb. eapply NoDup_app_disj; eauto. }
  destruct (map_ok_exists (fun rsx => do bn <- newA (ord (fst rsx)) (snd rsx);
                 do_jobs (Z.of_nat n) op rs (fst rsx) R tB (snd rsx) bn)
     (fun rsx l => fst l = rs_new (snd rsx) ++ map (fun ps => (ps, colk ps)) (jobsB R tB (fst rsx)) /\
        forall x, In x (snd l) <-> ~ In x basis /\ exists b, (In b (setA (snd rsx)) \/ In b (jobsB R tB (fst rsx))) /\ linkedk b x)
     (enumerate states)) as (bs & E & HFb).
  { intros [r s] Hrs. apply enumerate_in in Hrs. cbn [fst snd].
    assert (Hs : In s states) by (eapply nth_error_In; eauto).
    assert (Hrr : (r < R)%nat) by (apply nth_error_Some; congruence).
    destruct (newA_ok basis i r s (HF' s Hs)) as (bn & En & Hnn & Hn). rewrite En. cbn [bind].
    destruct (do_jobs_ok basis i r R tB s bn (HF' s Hs) Hrr Hnn HnB) as (bn' & Ej & Hnj & Hj).
    { intros b Hb. split; [|apply HtBnew; auto]. apply HB in Hb as [Hb _]. apply Hval.
      rewrite <- (firstn_skipn i basis). apply in_or_app; auto. }
    rewrite Ej. eexists. split; [reflexivity|]. cbn [fst snd]. split; auto. intros x. rewrite Hj, Hn. split.
    - intros [(H1 & b & H2 & H3)|(H1 & b & H2 & H3)]; split; auto; exists b; auto.
    - intros (H1 & b & [H2|H2] & H3); [left|right]; split; auto; exists b; auto. }
  exists bs. split; [exact E|]. cbv zeta.
  destruct (union_spec bs [] (NoDup_nil _)) as [HUn HU]. set (U := fold_left (fun acc l => set_update acc (snd l)) bs []) in *.
  assert (HjB : forall b, In b tB <-> exists r, (r < R)%nat /\ In b (jobsB R tB r)).
  { intros b. split.
    - intros Hb. apply (Permutation_in _ (Permutation_sym (jobsB_perm R tB HR))) in Hb. apply in_flat_map in Hb as (r & Hrr & Hb).
      apply in_seq in Hrr. exists r. split; auto. lia.
    - intros (r & Hrr & Hb). eapply Permutation_in; [apply (jobsB_perm R tB HR)|]. apply in_flat_map. exists r. split; auto. apply in_seq. lia. }
  assert (HRound : round basis (skipn i basis) U).
  { split; auto. intros x. rewrite HU. split.
    - intros [[]|(l & Hl & Hx)]. destruct (Forall2_in_r _ _ _ l HFb Hl) as ([r s] & Hrs & _ & Hsp). cbn [fst snd] in Hsp.
      pose proof (proj1 (Hsp x) Hx) as (H1 & b & Hb0 & HL). destruct Hb0 as [Hb|Hb]; split; auto; exists b; split; auto.
      + apply enumerate_in, nth_error_In in Hrs. destruct (HF' s Hrs) as (Eb & Ei & _).
        unfold setA in Hb. rewrite Eb, Ei in Hb. apply set_inter_In in Hb. tauto.
      + apply enumerate_in in Hrs. assert (Hrr : (r < R)%nat) by (apply nth_error_Some; congruence).
        assert (In b tB) by (apply HjB; eauto). apply HB in H. tauto.
    - intros (H1 & b & Hb & HL). right.
      destruct (in_dec_key b (flat_map (fun s => dkeys (rs_h s)) states)) as [Hin|Hnin].
      + apply in_flat_map in Hin as (s & Hs & Hin). destruct (In_nth_error _ _ Hs) as (r & Er).
        destruct (Forall2_in_l _ _ _ (r, s) HFb (proj2 (enumerate_in states r s) Er)) as (l & Hl & _ & Hsp). cbn [fst snd] in Hsp.
        exists l. split; auto. apply Hsp. split; auto. exists b. split; auto. left.
        destruct (HF' s Hs) as (Eb & Ei & _). unfold setA. rewrite Eb, Ei. apply set_inter_In. auto.
      + assert (Hb2 : In b tB). { apply HB. split; auto. intros s Hs Hin. apply Hnin. apply in_flat_map. exists s. auto. }
        apply HjB in Hb2 as (r & Hrr & Hb2). destruct (nth_error states r) as [s|] eqn:Er; [|apply nth_error_None in Er; unfold R in Hrr; lia].
        destruct (Forall2_in_l _ _ _ (r, s) HFb (proj2 (enumerate_in states r s) Er)) as (l & Hl & _ & Hsp). cbn [fst snd] in Hsp.
        exists l. split; auto. apply Hsp. split; auto. exists b. auto. }
  assert (ES : map (fun sl : rank_state F * (hdict_t F * list pybytes) => let s := fst sl in mkRS (rs_basis s ++ py_sorted U) (length (rs_basis s)) (rs_h s) (fst (snd sl))) (combine states bs)
             = step_states U basis R tB states).
  { unfold step_states. rewrite <- (map_snd_enumerate states) at 1.
    assert (HFb' : Forall2 (fun (rsx : nat * rank_state F) (l : hdict_t F * list pybytes) => rs_basis (snd rsx) = basis /\ fst l = rs_new (snd rsx) ++ map (fun ps => (ps, colk ps)) (jobsB R tB (fst rsx))) (enumerate states) bs).
    { assert (Hb : forall rsx, In rsx (enumerate states) -> rs_basis (snd rsx) = basis).
      { intros [r s] Hin. apply enumerate_in, nth_error_In in Hin. apply (HF' s Hin). }
      clear -HFb Hb. induction HFb as [|x y l m [H _] _ IH]; constructor; [split; auto; apply Hb; left; auto|]. apply IH. intros; apply Hb; right; auto. }
    revert HFb'. generalize (py_sorted U) as pu. clear. intros pu HFb'. induction HFb' as [|x y l m [H1 H2] _ IH]; simpl; auto. rewrite IH, H1, H2. reflexivity. }
  cbv zeta in ES. rewrite ES.
  assert (HP : Permutation (flat_map keysr (step_states U basis R tB states)) (flat_map keysr states ++ tB)).
  { unfold step_states. rewrite flat_map_map.
    transitivity (flat_map (fun rsx => keysr (snd rsx) ++ jobsB R tB (fst rsx)) (enumerate states)).
    - apply Permutation_refl'. apply flat_map_ext_in'. intros [r s] _. cbn [fst snd]. unfold keysr, dkeys. cbn [rs_h rs_new]. rewrite map_app, map_map. cbn [fst].
      rewrite map_id, app_assoc. reflexivity.
    - rewrite flat_map_app_perm. apply Permutation_app.
      + apply Permutation_refl'. etransitivity; [|exact (f_equal (flat_map keysr) (map_snd_enumerate states))]. rewrite flat_map_map. reflexivity.
      + transitivity (flat_map (jobsB R tB) (seq 0 R)); [|apply jobsB_perm; auto].
        apply Permutation_refl'. etransitivity; [|exact (f_equal (flat_map (jobsB R tB)) (map_fst_enumerate states))]. rewrite flat_map_map. reflexivity. }
  split; [exact HRound|]. destruct (round_valid n op rs basis (skipn i basis) U Hval Hnb HRound) as [Hval' Hnb'].
  split; [|split].
  - constructor; auto.
    + intros E0. apply (f_equal (@length _)) in E0. unfold step_states in E0. rewrite map_length, enumerate_length in E0. fold R in E0. simpl in E0. lia.
    + apply Forall_forall. intros s' Hs'. unfold step_states in Hs'. apply in_map_iff in Hs' as ([r s] & <- & Hrs). cbn [fst snd].
      apply enumerate_in in Hrs. assert (Hs : In s states) by (eapply nth_error_In; eauto).
      assert (Hrr : (r < R)%nat) by (apply nth_error_Some; congruence).
      destruct (HF' s Hs) as (_ & _ & Hh & Hnew & Hsub). unfold rank_ok. cbn [rs_basis rs_i rs_h rs_new].
      split; [auto|]. split; [auto|]. split; [auto|]. split.
      * intros k col Ek. rewrite dget_app in Ek. destruct (dget (rs_new s) k) as [v|] eqn:Ev.
        -- injection Ek as <-. apply Hnew in Ev. exact Ev.
        -- apply dget_In in Ek. apply in_map_iff in Ek as (ps & [= <- <-] & Hps).
           assert (Hv : valid_key n ps). { assert (Hps' : In ps tB) by (apply HjB; eauto). apply HB in Hps' as [Hps' _]. apply Hval. rewrite <- (firstn_skipn i basis). apply in_or_app; auto. }
           apply (colk_ok ps Hv).
      * intros k Hk. rewrite firstn_app, firstn_all, Nat.sub_diag, app_nil_r. unfold dkeys in Hk. rewrite map_app, map_map in Hk. cbn [fst] in Hk.
        rewrite map_id in Hk. apply in_app_or in Hk as [Hk|Hk]; rewrite <- (firstn_skipn i basis); apply in_or_app; [left; apply Hsub; auto|right].
        assert (Hk' : In k tB) by (apply HjB; eauto). apply HB in Hk'. tauto.
    + eapply Permutation_NoDup; [symmetry; exact HP|]. apply NoDup_app_intro; auto.
      intros k H1 H2. apply in_flat_map in H1 as (s & Hs & Hk). unfold keysr in Hk. apply in_app_or in Hk as [Hk|Hk].
      * apply HB in H2 as [_ H2]. apply (H2 s); auto.
      * eapply HtBnew; eauto.
    + intros k Hk. rewrite firstn_app, firstn_all, Nat.sub_diag, app_nil_r in Hk.
      eapply Permutation_in; [symmetry; exact HP|]. apply in_or_app. rewrite <- (firstn_skipn i basis) in Hk.
      apply in_app_or in Hk as [Hk|Hk]; [left; apply Hcov; auto|].
      destruct (in_dec_key k (flat_map (fun s => dkeys (rs_h s)) states)) as [Hin|Hnin].
      * left. apply in_flat_map in Hin as (s & Hs & Hin). apply in_flat_map. exists s. split; auto. unfold keysr. apply in_or_app; auto.
      * right. apply HB. split; auto. intros s Hs Hin. apply Hnin. apply in_flat_map. exists s. auto.
    + rewrite app_length. lia.
  - unfold step_states. rewrite map_map. cbn [rs_h]. rewrite <- map_map. rewrite map_snd_enumerate. auto.
  - intros k. split.
    + intros Hk. apply (Permutation_in _ HP) in Hk. apply in_app_or in Hk. auto.
    + intros Hk. apply (Permutation_in _ (Permutation_sym HP)). apply in_or_app. auto.
Qed.

Lemma expand_hbuild_ok fuel : forall basis i states, inv basis i states ->
  ((i < length basis)%nat -> (2 ^ n < fuel + length basis)%nat) ->
  exists hs final, expand_hbuild fuel (Z.of_nat n) op rs ord states = map (fun h => Ok (h, final)) hs /\
    Exp basis i final /\ Forall (hdict_exact n op rs) hs /\ Forall2 (fun s h' => hext (rs_h s) h') states hs /\
    NoDup (flat_map dkeys hs) /\ (forall k, In k final -> In k (flat_map dkeys hs)) /\
    (forall k, In k (flat_map dkeys hs) -> In k (flat_map keysr states) \/ In k final).
Proof.
  induction fuel as [|fuel IH]; intros basis i states HI Hf; cbn [expand_hbuild].
  all: pose proof HI as [Hne HF Hnd Hcov Hnb Hval Hi].
  all: assert (HF' : forall s, In s states -> rank_ok basis i s) by (apply Forall_forall; auto).
  all: assert (Ebusy : map (fun s : rank_state F => Nat.ltb (rs_i s) (length (rs_basis s))) states = repeat (Nat.ltb i (length basis)) (length states))
    by (rewrite <- map_const; apply map_ext_in; intros s Hs; destruct (HF' s Hs) as (-> & -> & _); reflexivity).
  all: rewrite Ebusy.
  all: assert (Hlen : (1 <= length states)%nat) by (destruct states; simpl; [congruence|lia]).
  all: assert (Hfin : (length basis <= i)%nat -> exists hs final,
        map (fun s => Ok (dupdate (rs_h s) (rs_new s), rs_basis s)) states = map (fun h : hdict_t F => Ok (h, final)) hs /\
        Exp basis i final /\ Forall (hdict_exact n op rs) hs /\ Forall2 (fun s h' => hext (rs_h s) h') states hs /\
        NoDup (flat_map dkeys hs) /\ (forall k, In k final -> In k (flat_map dkeys hs)) /\
        (forall k, In k (flat_map dkeys hs) -> In k (flat_map keysr states) \/ In k final)).
  1,3: intros Hge; exists (map (fun s => dupdate (rs_h s) (rs_new s)) states), basis.
  1,2: assert (Hup : forall s, In s states -> NoDup (dkeys (rs_new s)) /\ dkeys (dupdate (rs_h s) (rs_new s)) = keysr s /\
        (forall k, dget (dupdate (rs_h s) (rs_new s)) k = match dget (rs_new s) k with Some v => Some v | None => dget (rs_h s) k end)).
  1,3: intros s Hs; assert (Hks : NoDup (keysr s)) by (eapply NoDup_flat_map_in; eauto);
       assert (Hn2 : NoDup (dkeys (rs_new s))) by (eapply NoDup_app_r; eauto);
       (split; [exact Hn2|split; [|intros k; apply dget_dupdate; auto]]);
       unfold keysr in *; revert Hks Hn2; generalize (rs_h s) as h; clear; induction (rs_new s) as [|[k v] e IHe]; intros h Hks Hn2;
       [unfold dupdate; simpl; rewrite app_nil_r; auto|];
       unfold dupdate; cbn [fold_left fst snd]; fold (dupdate (dset h k v) e);
       apply NoDup_cons_iff in Hn2 as [Hk Hn2];
       assert (Hkh : ~ In k (dkeys h)) by (intros Hx; eapply (NoDup_app_disj (dkeys h)); [exact Hks|exact Hx|left; auto]);
       rewrite IHe; [rewrite dkeys_dset_notin by auto; rewrite <- app_assoc; auto|rewrite dkeys_dset_notin by auto; rewrite <- app_assoc; auto|auto].
  1,2: assert (Hfl : flat_map dkeys (map (fun s => dupdate (rs_h s) (rs_new s)) states) = flat_map keysr states)
       by (rewrite flat_map_map; apply flat_map_ext_in'; intros s Hs; apply (Hup s Hs)).
  1,2: split; [rewrite map_map; apply map_ext_in; intros s Hs; destruct (HF' s Hs) as (-> & _); reflexivity|];
       split; [constructor; auto|]; split; [|split; [|rewrite Hfl; split; [auto|split; [intros k Hk; apply Hcov; rewrite firstn_all2 by lia; auto|auto]]]].
  1,3: apply Forall_forall; intros h Hh; apply in_map_iff in Hh as (s & <- & Hs); intros k col; destruct (Hup s Hs) as (_ & _ & ->);
       destruct (HF' s Hs) as (_ & _ & H1 & H2 & _); destruct (dget (rs_new s) k) as [v|] eqn:Ev; [intros [= <-]; apply H2; auto|apply H1].
  1,2: assert (Hx : forall s, In s states -> hext (rs_h s) (dupdate (rs_h s) (rs_new s)))
     by (intros s Hs k col Ek; destruct (Hup s Hs) as (_ & _ & ->); destruct (dget (rs_new s) k) as [v|] eqn:Ev; auto;
         exfalso; assert (Hks : NoDup (keysr s)) by (eapply NoDup_flat_map_in; eauto);
         apply (NoDup_app_disj _ _ k Hks); apply dget_Some_key; eauto);
     clear -Hx; induction states as [|s l IHl]; simpl; constructor; [apply Hx; left; auto|apply IHl; intros; apply Hx; right; auto].
  - destruct (Nat.ltb_spec i (length basis)) as [Hlt|Hge].
    + pose proof (basis_bound n basis Hnb Hval). specialize (Hf Hlt). lia.
    + replace (forallb negb (repeat false (length states))) with true; [apply Hfin; auto|].
      clear. induction (length states); simpl; auto.
  - destruct (Nat.ltb_spec i (length basis)) as [Hlt|Hge].
    + replace (forallb negb (repeat true (length states))) with false by (destruct (length states); [lia|reflexivity]).
      replace (forallb (fun b : bool => b) (repeat true (length states))) with true by (clear; induction (length states); simpl; auto).
      destruct (round_step basis i states HI Hlt) as (bs & E & HR & HI' & Eh & Hks). rewrite E, is_ok_map, oks_map.
      set (U := fold_left (fun acc l => set_update acc (snd l)) bs []) in *.
      destruct (IH _ _ _ HI') as (hs & final & E' & HE & Hx & Hext & Hnd' & Hc & Hsub).
      { rewrite app_length. specialize (Hf Hlt). lia. }
      exists hs, final. split; [exact E'|]. split; [eapply Exp_step; eauto|]. split; [auto|]. split; [|split; [auto|split; [auto|]]].
      * revert Hext Eh. match goal with |- Forall2 _ ?l _ -> _ => generalize l as l' end. clear. intros l' HF.
        revert states. induction HF as [|s' h l' hs H _ IHF]; intros [|s states] E; simpl in E; try discriminate; constructor.
        -- injection E as E _. rewrite <- E. auto.
        -- injection E as _ E. apply IHF; auto.
      * intros k Hk. destruct (Hsub k Hk) as [Hk'|]; auto. apply Hks in Hk' as [|Hk']; auto. right.
        destruct (tupleB_spec basis i states Hne HF) as [_ HB]. apply HB in Hk' as [Hk' _].
        assert (Hpre : exists new, final = (basis ++ py_sorted U) ++ new).
        { clear -HE. remember (length basis) as i0. clear Heqi0. induction HE; [exists []; rewrite app_nil_r; auto|].
          destruct IHHE as [new ->]. exists (py_sorted bn ++ new). rewrite <- app_assoc. reflexivity. }
        destruct Hpre as [new ->]. rewrite <- app_assoc. apply in_or_app. left. rewrite <- (firstn_skipn i basis). apply in_or_app; auto.
    + replace (forallb negb (repeat false (length states))) with true; [apply Hfin; auto|].
      clear. induction (length states); simpl; auto.
Qed.
End LExpP.
