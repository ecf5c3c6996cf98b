(* getSpectra: sign and bound of all entries; mode eigen_states *)
From Coq Require Import Lia List Bool Permutation Field Ring.
From Verif Require Import M_Prelude M_Scalar M_PSR M_Ladder M_State M_Mpi M_Hamiltonian M_Lanczos M_Spectra S_Fock S_Ham S_Ops S_Green
  L_PSR L_Ladder L_Scalar L_Dict L_Sum L_Fock L_State L_ApplyOp L_Ops L_FockP L_Ham L_Expand L_Green L_Green2 L_Green3 L_Green4 L_Spectra L_Spectra2.
Import ListNotations.
Local Open Scope cx_scope.

(* ---- folds ---- *)
Lemma fold_res_inv {A S} (f : S -> A -> res S) (I : S -> Prop) : (forall s a s', I s -> f s a = Ok s' -> I s') ->
  forall l s s', I s -> fold_res f l s = Ok s' -> I s'.
Proof.
  intros H. induction l as [|a l IH]; intros s s' Hs E; cbn [fold_res] in E; [congruence|].
  destruct (f s a) as [s1|] eqn:E1; [|discriminate]. cbn [bind] in E. eauto.
Qed.
Lemma fold_run_inv {A S} (f : S -> A -> run S) (I : list A -> S -> Prop) l :
  (forall pre a post s s', l = pre ++ a :: post -> I pre s -> f s a = Run s' -> I (pre ++ [a]) s') ->
  forall s s', I [] s -> fold_run f l s = Run s' -> I l s'.
Proof.
  intros H. assert (G : forall post pre s s', l = pre ++ post -> I pre s -> fold_run f post s = Run s' -> I l s').
  { induction post as [|a post IH]; intros pre s s' El Hs E; cbn [fold_run] in E.
    - injection E as <-. rewrite El, app_nil_r. auto.
    - destruct (f s a) as [s1|] eqn:E1; [|discriminate]. cbn [rbind] in E. eapply (IH (pre ++ [a])); eauto.
      rewrite El, <- app_assoc. reflexivity. }
  intros s s' Hs E. eapply (G l []); eauto.
Qed.
Lemma fold_run_stop {A S} (f : S -> A -> run S) (I : S -> Prop) (P : list exc -> Prop) :
  (forall s a s', I s -> f s a = Run s' -> I s') -> (forall s a e, I s -> f s a = Stop e -> P e) ->
  forall l s e, I s -> fold_run f l s = Stop e -> P e.
Proof.
  intros H HP. induction l as [|a l IH]; intros s e Hs E; cbn [fold_run] in E; [discriminate|].
  destruct (f s a) as [s1|] eqn:E1; cbn [rbind] in E; [eauto|]. injection E as <-. eauto.
Qed.
(* dictionaries written one after the other into an array *)
Lemma fold_look_other {G V R} (upd : G -> nat -> V -> G) (look : G -> R) (val : V -> R) i :
  (forall gs j v, look (upd gs j v) = if Nat.eqb j i then val v else look gs) ->
  forall l gs, (forall v, ~ In (i, v) l) -> look (fold_left (fun gs iv => upd gs (fst iv) (snd iv)) l gs) = look gs.
Proof.
  intros H. induction l as [|[j v] l IH]; intros gs Hn; simpl; auto. rewrite IH; [|intros v' Hv'; apply (Hn v'); simpl; auto].
  rewrite H. destruct (Nat.eqb_spec j i); auto. subst. exfalso. apply (Hn v). simpl. auto.
Qed.
Lemma fold_look {G V R} (upd : G -> nat -> V -> G) (look : G -> R) (val : V -> R) i (x : R) :
  (forall gs j v, look (upd gs j v) = if Nat.eqb j i then val v else look gs) ->
  forall l gs, (forall v, In (i, v) l -> val v = x) -> (exists v, In (i, v) l) ->
  look (fold_left (fun gs iv => upd gs (fst iv) (snd iv)) l gs) = x.
Proof.
  intros H. induction l as [|[j v] l IH]; intros gs Hx [v0 Hv0]; [destruct Hv0|]. simpl.
  destruct (existsb (fun iv => Nat.eqb (fst iv) i) l) eqn:Ee.
  - apply existsb_exists in Ee as ([i' v'] & Hi & Ei). apply Nat.eqb_eq in Ei. simpl in Ei. subst i'.
    apply IH; [|eauto]. intros v1 Hv1. apply Hx. simpl. auto.
  - assert (Hn : forall v', ~ In (i, v') l).
    { intros v' Hi. assert (existsb (fun iv => Nat.eqb (fst iv) i) l = true); [|congruence].
      apply existsb_exists. exists (i, v'). split; auto. apply Nat.eqb_refl. }
    rewrite (fold_look_other upd look val i H) by auto. destruct Hv0 as [E|Hi]; [|exfalso; eapply Hn; eauto].
    injection E as -> ->. rewrite H, Nat.eqb_refl. apply Hx. simpl; auto.
Qed.
Lemma fold_left_concat {A S} (f : S -> A -> S) ll : forall s, fold_left (fun s l => fold_left f l s) ll s = fold_left f (concat ll) s.
Proof. induction ll as [|l ll IH]; intros s; simpl; auto. rewrite fold_left_app. auto. Qed.

Section Jobs.
Context {V : Type}.
Variable val : nat -> res V.
(* the dictionary a rank has filled for its jobs *)
Definition filled (jobs : list nat) (g : dict nat V) : Prop := Forall2 (fun i kv => fst kv = i /\ val i = Ok (snd kv)) jobs g.
Definition jobs_of (N R r : nat) : list nat := chunk R (seq 0 N) r ++ extra R (seq 0 N) r.
Lemma filled_in jobs g i v : filled jobs g -> In (i, v) g -> val i = Ok v.
Proof.
  induction 1 as [|j [k w] jobs g [H1 H2] _ IH]; simpl; [tauto|]. intros [E|Hi]; auto. injection E as -> ->. simpl in *. congruence.
Qed.
Lemma filled_ex jobs g i : filled jobs g -> In i jobs -> exists v, In (i, v) g.
Proof.
  induction 1 as [|j [k w] jobs g [H1 H2] _ IH]; simpl; [tauto|]. intros [->|Hi].
  - simpl in H1. subst. eauto.
  - destruct (IH Hi) as (v & Hv). eauto.
Qed.
Lemma jobs_partition N R i : (1 <= R)%nat -> (i < N)%nat -> exists r, (r < R)%nat /\ In i (jobs_of N R r).
Proof.
  intros HR Hi. assert (H : In i (flat_map (jobs_of N R) (seq 0 R))).
  { apply (Permutation_in i (Permutation_sym (job_tasks_partition (seq 0 N) R HR))). apply in_seq. lia. }
  apply in_flat_map in H as (r & Hr & H). apply in_seq in Hr. exists r. split; [lia|auto].
Qed.
Lemma jobs_bound N R r i : (r < R)%nat -> In i (jobs_of N R r) -> (i < N)%nat.
Proof. intros Hr Hi. pose proof (jobs_lt (repeat tt N) r R i) as H. rewrite repeat_length in H. apply H; auto. Qed.
(* all ranks have filled their dictionaries *)
Definition all_filled (N R : nat) (gl : list (dict nat V)) : Prop :=
  length gl = R /\ forall r, (r < R)%nat -> filled (jobs_of N R r) (nth r gl []).
Lemma all_filled_in N R gl i v : all_filled N R gl -> In (i, v) (concat gl) -> val i = Ok v.
Proof.
  intros [HL H] Hi. apply in_concat in Hi as (g & Hg & Hi). apply (In_nth _ _ []) in Hg as (r & Hr & <-).
  apply (filled_in _ _ i v (H r ltac:(rewrite <- HL; exact Hr)) Hi).
Qed.
Lemma all_filled_ex N R gl i : all_filled N R gl -> (1 <= R)%nat -> (i < N)%nat -> exists v, In (i, v) (concat gl) /\ val i = Ok v.
Proof.
  intros HA HR Hi. destruct (jobs_partition N R i HR Hi) as (r & Hr & Hin). pose proof HA as [HL H].
  destruct (filled_ex _ _ i (H r Hr) Hin) as (v & Hv). exists v.
  assert (In (i, v) (concat gl)) by (apply in_concat; exists (nth r gl []); split; auto; apply nth_In; lia).
  split; auto. eapply all_filled_in; eauto.
Qed.
(* the outcomes of all ranks *)
Definition rank_out (N R r : nat) (x : res (dict nat V)) : Prop :=
  match x with Ok g => filled (jobs_of N R r) g | Err _ => exists i, In i (jobs_of N R r) /\ is_ok (val i) = false end.
Lemma bcast_ranks N R (f : nat -> res (dict nat V)) : (forall r, (r < R)%nat -> rank_out N R r (f r)) -> (1 <= R)%nat ->
  ((forall i, (i < N)%nat -> is_ok (val i) = true) ->
     exists gl, all_filled N R gl /\ bcast_all (map f (seq 0 R)) = repeat (Ok gl) R) /\
  ((exists i, (i < N)%nat /\ is_ok (val i) = false) ->
     Forall (fun x => is_ok x = false) (bcast_all (map f (seq 0 R))) /\ length (bcast_all (map f (seq 0 R))) = R).
Proof.
  intros H HR. split.
  - intros Hok. assert (G : forall r, (r < R)%nat -> exists g, f r = Ok g /\ filled (jobs_of N R r) g).
    { intros r Hr. specialize (H r Hr). destruct (f r) as [g|]; [eauto|]. destruct H as (i & Hi & Ei).
      rewrite Hok in Ei by (eapply jobs_bound; eauto). discriminate. }
    assert (E : map f (seq 0 R) = map Ok (map (fun r => match f r with Ok g => g | Err _ => [] end) (seq 0 R))).
    { rewrite map_map. apply map_ext_in. intros r Hr. apply in_seq in Hr. destruct (G r) as (g & -> & _); [lia|auto]. }
    rewrite E, bcast_all_ok. set (gl := map (fun r => match f r with Ok g => g | Err _ => [] end) (seq 0 R)).
    assert (Lg : length gl = R) by (unfold gl; rewrite map_length, seq_length; auto).
    exists gl. split.
    + split; auto. intros r Hr. destruct (G r Hr) as (g & Eg & Hg). unfold gl.
      rewrite (nth_indep _ [] (match f 0%nat with Ok g => g | Err _ => [] end)) by (rewrite map_length, seq_length; auto).
      rewrite (map_nth (fun r => match f r with Ok g => g | Err _ => [] end)), seq_nth, Nat.add_0_l, Eg by auto. auto.
    + assert (G' : forall (A B : Type) (x : B) (l : list A), map (fun _ => x) l = repeat x (length l)) by (clear; induction l; simpl; congruence).
      rewrite G', Lg. reflexivity.
  - intros (i & Hi & Ei). destruct (jobs_partition N R i HR Hi) as (r & Hr & Hin).
    assert (Ef : is_ok (f r) = false).
    { specialize (H r Hr). destruct (f r) as [g|]; auto. destruct (filled_ex _ _ i H Hin) as (v & Hv).
      rewrite (filled_in _ _ i v H Hv) in Ei. discriminate. }
    unfold bcast_all. replace (forallb is_ok (map f (seq 0 R))) with false.
    + split; [|rewrite !map_length, seq_length; auto]. apply Forall_forall. intros x Hx. apply in_map_iff in Hx as (y & <- & _). destruct y; auto.
    + symmetry. apply Bool.not_true_iff_false. intros C. rewrite forallb_forall in C.
      rewrite C in Ef; [discriminate|]. apply in_map, in_seq. lia.
Qed.
End Jobs.

Section LSpectra3.
Context {F : ofield}.
Add Field Ff : (f_field F).
Add Ring Cring : (@c_ring F).
Add Field Cf : (@c_field F).
Variable fsqrt : F -> F.

(* ---- sign ---- *)
Definition signed (delta : F) (v : vec F) : Prop := Forall (fun x => (delta * im x <= 0)%F) v.
Lemma signed_zeros delta m : signed delta (repeat c0 m).
Proof. apply Forall_forall. intros x Hx. apply repeat_spec in Hx. subst. simpl. replace (delta * 0)%F with (0 : F)%F by ring. apply fle_refl. Qed.
Lemma signed_vmul delta a v : Forall (green_bound delta) v -> signed delta (vmul (a * a)%F v).
Proof.
  intros H. unfold vmul, signed. rewrite Forall_map. eapply Forall_impl; [|exact H]. intros x [Hx _].
  simpl. replace (delta * (a * a * im x + 0 * re x))%F with ((a * a) * (delta * im x))%F by ring.
  replace (0 : F)%F with ((a * a) * 0)%F by ring. apply fmul_le_l; auto. apply fsq_nonneg.
Qed.
Lemma signed_nth delta rows t : Forall (signed delta) rows -> signed delta (nth t rows []).
Proof.
  intros H. destruct (Nat.lt_ge_cases t (length rows)) as [Hl|Hl].
  - rewrite Forall_forall in H. apply H, nth_In; auto.
  - rewrite nth_overflow by auto. constructor.
Qed.
Lemma signed_gset delta (gs : garr F) i t v : (forall i t, signed delta (gs i t)) -> signed delta v -> forall i' t', signed delta (gset gs i t v i' t').
Proof. intros H Hv i' t'. unfold gset. destruct (_ && _); auto. Qed.

Section Sign.
Variables (fuel : nat) (n : Z) (op : op_t F) (w : list F) (delta : F) (rs : option restrictions_t) (ks : Z) (swm : F).
Hypothesis Hd : delta <> 0%F.
Lemma es_entry_signed ord psi e h tOp h' v : es_entry fsqrt fuel n op w delta rs ks swm ord psi e h tOp = Ok (h', v) -> signed delta v.
Proof.
  unfold es_entry. destruct (snd (applyOp n tOp psi swm rs None)) as [psiR|]; [|discriminate]. cbn [bind].
  destruct (normalise fsqrt psiR) as [[psiN nrm]|]; [|discriminate]. cbn [bind].
  destruct (getGreen _ _ _ _ _ _ _ _ _ _ _ _ _ _ _) as [|[h1 r] [|]] eqn:E; try discriminate.
  destruct r as [g|]; [|discriminate]. cbn [bind]. intros H. injection H as _ <-.
  apply signed_vmul. eapply (green_bounds_ok fsqrt); [exact Hd|]. rewrite E. left. reflexivity.
Qed.
Lemma es_rows_signed ord psis es tOps i h h' rows : es_rows fsqrt fuel n op w delta rs ks swm ord psis es tOps i h = Ok (h', rows) -> Forall (signed delta) rows.
Proof.
  unfold es_rows. destruct (nth_res psis i) as [psi|]; [|discriminate]. destruct (nth_res es i) as [e|]; [|discriminate]. cbn [bind].
  intros E. apply (fold_res_inv _ (fun st => Forall (signed delta) (snd st))) in E; auto; [|constructor].
  intros [h1 l] tOp [h2 l2] Hl E1. cbn [fst snd] in *.
  destruct (es_entry _ _ _ _ _ _ _ _ _ _ _ _ _ _) as [[h3 v]|] eqn:Ev; [|discriminate]. cbn [bind] in E1. injection E1 as _ <-.
  apply Forall_app. split; auto. constructor; auto. eapply es_entry_signed; eauto.
Qed.
Lemma es_rank_signed ord psis es tOps r R g : es_rank fsqrt fuel n op w delta rs ks swm ord psis es tOps r R = Ok g ->
  Forall (fun iv => Forall (signed delta) (snd iv)) g.
Proof.
  unfold es_rank. destruct (get_job_tasks r R (seq 0 (length es))) as [jobs|]; [|discriminate]. cbn [bind].
  destruct (fold_res _ _ _) as [[h' g']|] eqn:E; [|discriminate]. intros H. injection H as <-. cbn [snd].
  apply (fold_res_inv _ (fun st => Forall (fun iv => Forall (signed delta) (snd iv)) (snd st))) in E; auto; [|constructor].
  intros [h1 d] i [h2 d2] Hl E1. cbn [fst snd] in *.
  destruct (es_rows _ _ _ _ _ _ _ _ _ _ _ _ _ _ _) as [[h3 rows]|] eqn:Ev; [|discriminate]. cbn [bind] in E1. injection E1 as _ <-.
  apply es_rows_signed in Ev. clear -Hl Ev. induction Hl as [|[k x] d Hx Hd IH]; simpl; [repeat constructor; auto|].
  destruct (Nat.eqb i k); constructor; auto.
Qed.
Lemma hb_entry_signed ord psis es t tOp st i st' : hb_entry fsqrt fuel n op w delta rs ks swm ord psis es t tOp st i = Run st' ->
  Forall (fun gs => forall i t, signed delta (gs i t)) (hb_gs st) -> Forall (fun gs => forall i t, signed delta (gs i t)) (hb_gs st').
Proof.
  unfold hb_entry. cbv zeta. intros E H. destruct (all_ranks _ _) as [[[[tb e] psiN] nrm]|]; [|discriminate]. cbn [rbind] in E.
  set (out := getGreen _ _ _ _ _ _ _ _ _ _ _ _ _ _ _) in E.
  assert (Ho : forall g, In (Ok g) (map snd out) -> Forall (green_bound delta) g).
  { intros g Hg. apply in_map_iff in Hg as ([h' r] & E1 & Hi). cbn [snd] in E1. subst r.
    eapply (green_bounds_ok fsqrt); [exact Hd|]. unfold out in Hi. exact Hi. }
  unfold together in E. destruct (forallb is_ok (map snd out)) eqn:Eok; [|discriminate]. cbn [rbind] in E. injection E as <-. cbn [hb_gs].
  apply Forall_forall. intros gs' Hgs. apply in_map_iff in Hgs as ([gs g] & <- & Hi). cbn [fst snd]. intros i' t'.
  apply signed_gset.
  - rewrite Forall_forall in H. apply H. eapply in_combine_l; eauto.
  - apply signed_vmul, Ho. apply in_combine_r in Hi. apply in_flat_map in Hi as (x & Hx & Hi). destruct x as [x|]; [|destruct Hi].
    destruct Hi as [->|[]]. auto.
Qed.
Lemma getSpectra_signed ord R tOps psis es pm gs : In (Ok gs) (getSpectra fsqrt fuel n op w delta rs ks swm ord R tOps psis es pm) ->
  forall i t, signed delta (gs i t).
Proof.
  unfold getSpectra. destruct pm.
  - intros Hi. apply in_map_iff in Hi as (x & Ex & Hi). destruct x as [gl|]; [|discriminate]. injection Ex as <-.
    unfold bcast_all in Hi. set (l := map _ (seq 0 R)) in Hi. destruct (forallb is_ok l) eqn:Eok.
    + apply in_map_iff in Hi as (y & Ey & _). injection Ey as <-. unfold es_collect.
      assert (HA : Forall (fun iv => Forall (signed delta) (snd iv)) (concat (oks l))).
      { apply Forall_concat. apply Forall_forall. intros g Hg. apply in_flat_map in Hg as (x & Hx & Hg). unfold l in Hx.
        apply in_map_iff in Hx as (r & <- & _). destruct (es_rank _ _ _ _ _ _ _ _ _ _ _ _ _ _ _) as [g'|] eqn:E; [|destruct Hg].
        destruct Hg as [->|[]]. eapply es_rank_signed; eauto. }
      rewrite (fold_left_concat (fun gs iv => gset_rows gs (fst iv) (snd iv))). revert HA. generalize (concat (oks l)) as ll.
      intros ll HA. assert (G : forall gs0 : garr F, (forall i t, signed delta (gs0 i t)) -> forall i t, signed delta (fold_left (fun gs iv => gset_rows gs (fst iv) (snd iv)) ll gs0 i t)).
      { induction HA as [|[k rows] ll Hx _ IH]; intros gs0 H0 i t; simpl; auto. apply IH. intros i' t'. unfold gset_rows.
        destruct (Nat.eqb i' k); auto. apply signed_nth; auto. }
      apply G. intros i t. apply signed_zeros.
    + apply in_map_iff in Hi as (y & Ey & _). destruct y; discriminate.
  - destruct (hb_run _ _ _ _ _ _ _ _ _ _ _ _ _ _) as [st|l] eqn:E.
    + intros Hi. apply in_map_iff in Hi as (gs' & Eg & Hi). injection Eg as ->.
      assert (H : Forall (fun gs => forall i t, signed delta (gs i t)) (hb_gs st)).
      { unfold hb_run in E. apply (fold_run_inv _ (fun _ st => Forall (fun gs => forall i t, signed delta (gs i t)) (hb_gs st))) in E; auto.
        - intros _ a _ s s' _ Hs Es. apply (fold_run_inv _ (fun _ st => Forall (fun gs => forall i t, signed delta (gs i t)) (hb_gs st))) in Es; auto.
          intros _ i _ s1 s2 _ H1 E1. eapply hb_entry_signed; eauto.
        - cbn [hb_gs]. apply Forall_forall. intros g Hg. apply repeat_spec in Hg. subst g. intros i t. apply signed_zeros. }
      rewrite Forall_forall in H. auto.
    + intros Hi. apply in_map_iff in Hi as (x & Ex & _). discriminate.
  - intros Hi. apply repeat_spec in Hi. discriminate.
Qed.
End Sign.
End LSpectra3.
