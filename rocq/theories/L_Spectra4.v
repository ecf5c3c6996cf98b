(* getSpectra in mode eigen_states: values, ranks *)
From Coq Require Import Lia List Bool Permutation Field Ring.
From Verif Require Import M_Prelude M_Scalar M_PSR M_Ladder M_State M_Mpi M_Hamiltonian M_Lanczos M_Spectra S_Fock S_Ham S_Ops S_Green
  L_PSR L_Ladder L_Scalar L_Dict L_Sum L_Fock L_State L_ApplyOp L_Ops L_FockP L_Ham L_Expand L_Green L_Green2 L_Green3 L_Green4 L_Spectra L_Spectra2 L_Spectra3.
Import ListNotations.
Local Open Scope cx_scope.

Lemma dset_new {K V} `{EqB K} (d : dict K V) k v : ~ In k (dkeys d) -> dset d k v = d ++ [(k, v)].
Proof.
  intros Hn. induction d as [|[k' v'] d IH]; [reflexivity|]. cbn [dset app]. destruct (eqb_spec k k') as [->|].
  - exfalso. apply Hn. simpl. auto.
  - f_equal. apply IH. intros Hi. apply Hn. simpl. auto.
Qed.
Lemma map_res_app {A B} (f : A -> res B) l a : map_res f (l ++ [a]) = (do x <- map_res f l; do y <- f a; Ok (x ++ [y])).
Proof.
  induction l as [|b l IH]; cbn [map_res app bind].
  - destruct (f a); reflexivity.
  - destruct (f b); cbn [bind]; [|reflexivity]. rewrite IH. destruct (map_res f l); cbn [bind]; [|reflexivity]. destruct (f a); reflexivity.
Qed.

Section LSpectra4.
Context {F : ofield}.
Variable fsqrt : F -> F.
Variable n : nat.
Variable op : op_t F.
Variable rs : option restrictions_t.
Hypothesis Hw : wf_op n op.
Hypothesis Hr : wf_restr rs.
Variable fuel : nat.
Hypothesis Hf : (2 ^ n < fuel)%nat.
Variable w : list F.
Variable delta : F.
Variable ks : Z.
Variable swm : F.
Variable tOps : list (op_t F).
Hypothesis HT : Forall (wf_op n) tOps.
Variable psis : list (psi_t F).
Hypothesis HP : Forall (valid_psi n) psis.
Variable es : list F.
Notation GV := (gval fsqrt n op rs fuel w delta ks swm).

(* one entry as a function of the transition state *)
Definition entry_val (e : F) (psiR : psi_t F) : res (vec F) :=
  do (psiN, nrm) <- normalise fsqrt psiR; do g <- GV e psiN; Ok (vmul (nrm * nrm)%F g).
Definition trans (psi : psi_t F) (tOp : op_t F) : res (psi_t F) := snd (applyOp (Z.of_nat n) tOp psi swm rs None).
Lemma trans_ok psi tOp : wf_op n tOp -> valid_psi n psi -> exists psiR, trans psi tOp = Ok psiR /\
  applyOp (Z.of_nat n) tOp psi swm rs None = (None, Ok psiR) /\ valid_psi n psiR /\
  (forall c, length c = n -> In (key c) (dkeys psiR) -> allowed_opt rs c).
Proof.
  intros Ht Hv. destruct (applyOp_restricted n tOp psi swm rs Ht Hv Hr) as (psiR & pu & E & _ & HvR & Ha).
  exists psiR. unfold trans. rewrite E. split; [auto|]. split; [auto|]. split; [auto|]. intros c Lc Hi.
  destruct (allowed_opt_dec rs c) as [|D]; auto. destruct (Ha c Lc) as [_ H]. specialize (H D).
  apply dget_Some_key in Hi as (v & Ev). exfalso. pose proof (eq_trans (eq_sym H) Ev) as C. discriminate.
Qed.
Lemma es_entry_val ord psi e h tOp : wf_op n tOp -> valid_psi n psi -> hdict_exact n op rs h ->
  match es_entry fsqrt fuel (Z.of_nat n) op w delta rs ks swm ord psi e h tOp with
  | Ok (h', v) => hdict_exact n op rs h' /\ (do psiR <- trans psi tOp; entry_val e psiR) = Ok v
  | Err x => (do psiR <- trans psi tOp; entry_val e psiR) = Err x
  end.
Proof.
  intros Ht Hv Hx. unfold es_entry. destruct (trans_ok psi tOp Ht Hv) as (psiR & Et & _ & HvR & _). unfold trans in Et. unfold trans.
  rewrite Et. cbn [bind]. unfold entry_val. destruct (normalise fsqrt psiR) as [[psiN nrm]|] eqn:En; [|reflexivity]. cbn [bind].
  apply normalise_cases in En as (_ & -> & _).
  destruct (GG_serial fsqrt n op rs Hw Hr fuel Hf w delta ks swm ord e (scale_psi nrm psiR) h (scale_valid n nrm psiR HvR) Hx) as (h' & EG & Hx').
  unfold GG in EG.
  assert (HH : forall r (l : list (hdict_t F * res (vec F))), l = [(h', r)] -> forall (T : Type) (f : hdict_t F -> res (vec F) -> T) (d : T), match l with [(a, b)] => f a b | _ => d end = f h' r)
    by (intros r l -> T f d; reflexivity).
  rewrite (HH _ _ EG). destruct (GV e (scale_psi nrm psiR)) as [g|]; cbn [bind]; auto.
Qed.
Definition rowval (i : nat) : res (list (vec F)) :=
  do psi <- nth_res psis i; do e <- nth_res es i;
  map_res (fun tOp => do psiR <- trans psi tOp; entry_val e psiR) tOps.
Lemma es_rows_val ord i h : hdict_exact n op rs h ->
  match es_rows fsqrt fuel (Z.of_nat n) op w delta rs ks swm ord psis es tOps i h with
  | Ok (h', rows) => hdict_exact n op rs h' /\ rowval i = Ok rows
  | Err x => rowval i = Err x
  end.
Proof.
  intros Hx. unfold es_rows, rowval. destruct (nth_res psis i) as [psi|] eqn:Ep; cbn [bind]; auto.
  assert (Hv : valid_psi n psi) by (rewrite Forall_forall in HP; apply HP; unfold nth_res in Ep; destruct (nth_error psis i) eqn:E1; [injection Ep as <-; eapply nth_error_In; eauto|discriminate]).
  destruct (nth_res es i) as [e|]; cbn [bind]; auto.
  set (f := fun tOp => do psiR <- trans psi tOp; entry_val e psiR).
  assert (G : forall post pre h l, Forall (wf_op n) post -> hdict_exact n op rs h -> map_res f pre = Ok l ->
    match fold_res (fun st tOp => do (h', v) <- es_entry fsqrt fuel (Z.of_nat n) op w delta rs ks swm ord psi e (fst st) tOp; Ok (h', snd st ++ [v])) post (h, l) with
    | Ok (h', rows) => hdict_exact n op rs h' /\ map_res f (pre ++ post) = Ok rows
    | Err x => map_res f (pre ++ post) = Err x
    end).
  { induction post as [|tOp post IH]; intros pre h0 l HF Hx0 El; cbn [fold_res]; [rewrite app_nil_r; auto|].
    inversion HF as [|? ? H1 H2]; subst. cbn [fst snd]. pose proof (es_entry_val ord psi e h0 tOp H1 Hv Hx0) as HE.
    destruct (es_entry _ _ _ _ _ _ _ _ _ _ _ _ _ _) as [[h1 v]|x]; cbn [bind].
    - destruct HE as [Hx1 Ev]. replace (pre ++ tOp :: post) with ((pre ++ [tOp]) ++ post) by (rewrite <- app_assoc; auto).
      apply IH; auto. rewrite map_res_app, El. cbn [bind]. unfold f. rewrite Ev. reflexivity.
    - clear IH. replace (pre ++ tOp :: post) with ((pre ++ [tOp]) ++ post) by (rewrite <- app_assoc; auto).
      assert (E1 : map_res f (pre ++ [tOp]) = Err x) by (rewrite map_res_app, El; cbn [bind]; unfold f; rewrite HE; reflexivity).
      clear -E1. revert E1. generalize (pre ++ [tOp]) as q. induction q as [|b q IH]; cbn [map_res app]; [discriminate|].
      destruct (f b); cbn [bind]; auto. destruct (map_res f q); cbn [bind]; [discriminate|]. intros E. injection E as ->. rewrite IH; auto. }
  apply (G tOps [] h []); auto.
Qed.
Lemma es_rank_val ord r R : (r < R)%nat ->
  rank_out rowval (length es) R r (es_rank fsqrt fuel (Z.of_nat n) op w delta rs ks swm ord psis es tOps r R).
Proof.
  intros HrR. unfold es_rank. rewrite get_job_tasks_eq by auto. cbn [bind]. fold (jobs_of (length es) R r).
  assert (Hnd : NoDup (jobs_of (length es) R r)) by (apply jobs_nodup; auto).
  set (f := fun (st : hdict_t F * dict nat (list (vec F))) i => do (h', rows) <- es_rows fsqrt fuel (Z.of_nat n) op w delta rs ks swm ord psis es tOps i (fst st); Ok (h', dset (snd st) i rows)).
  assert (G : forall post pre h g, NoDup (pre ++ post) -> hdict_exact n op rs h -> filled rowval pre g ->
    match fold_res f post (h, g) with
    | Ok (h', g') => filled rowval (pre ++ post) g'
    | Err _ => exists i, In i post /\ is_ok (rowval i) = false
    end).
  { induction post as [|i post IH]; intros pre h g Hn Hx Hg; cbn [fold_res]; [rewrite app_nil_r; auto|].
    unfold f at 1. cbn [fst snd]. pose proof (es_rows_val ord i h Hx) as HE.
    destruct (es_rows _ _ _ _ _ _ _ _ _ _ _ _ _ _ _) as [[h1 rows]|x]; cbn [bind].
    - destruct HE as [Hx1 Ev]. replace (pre ++ i :: post) with ((pre ++ [i]) ++ post) in * by (rewrite <- app_assoc; auto).
      assert (Hni : ~ In i (dkeys g)).
      { intros Hi. assert (E : dkeys g = pre).
        { clear -Hg. induction Hg as [|a [k v] l g [H _] _ IH]; simpl; [auto|]. simpl in H. congruence. }
        rewrite E in Hi. rewrite <- app_assoc in Hn. apply NoDup_remove_2 in Hn. apply Hn. apply in_or_app. auto. }
      rewrite dset_new by auto. specialize (IH (pre ++ [i]) h1 (g ++ [(i, rows)]) Hn Hx1).
      assert (Hg' : filled rowval (pre ++ [i]) (g ++ [(i, rows)])).
      { apply Forall2_app; [exact Hg|]. constructor; [|constructor]. auto. }
      specialize (IH Hg'). destruct (fold_res f post _) as [[h' g']|]; auto. destruct IH as (j & Hj & Ej). exists j. simpl. auto.
    - exists i. split; [simpl; auto|]. rewrite HE. reflexivity. }
  specialize (G (jobs_of (length es) R r) [] [] [] Hnd (exact_nil n op rs) ltac:(constructor)).
  destruct (fold_res f _ _) as [[h' g']|]; auto.
Qed.

Lemma eigen_states_val ord R : (1 <= R)%nat ->
  let out := getSpectra fsqrt fuel (Z.of_nat n) op w delta rs ks swm ord R tOps psis es EigenStates in
  length out = R /\
  ((forall i, (i < length es)%nat -> is_ok (rowval i) = true) ->
     exists gs, out = repeat (Ok gs) R /\ forall i rows, (i < length es)%nat -> rowval i = Ok rows -> forall t, gs i t = nth t rows []) /\
  ((exists i, (i < length es)%nat /\ is_ok (rowval i) = false) -> Forall (fun x => is_ok x = false) out).
Proof.
  intros HR out. unfold out, getSpectra.
  destruct (bcast_ranks rowval (length es) R (fun r => es_rank fsqrt fuel (Z.of_nat n) op w delta rs ks swm (ord 0%nat 0%nat) psis es tOps r R)) as [H1 H2]; auto.
  { intros r HrR. apply es_rank_val; auto. }
  split; [|split].
  - rewrite map_length. unfold bcast_all. destruct (forallb _ _); rewrite !map_length, seq_length; auto.
  - intros Hok. destruct (H1 Hok) as (gl & HA & E). rewrite E. exists (es_collect (length w) gl). split.
    { clear. induction R; simpl; congruence. }
    intros i rows Hi Er t. unfold es_collect. rewrite (fold_left_concat (fun gs iv => gset_rows gs (fst iv) (snd iv))).
    apply (fold_look gset_rows (fun gs : garr F => gs i t) (fun rows => nth t rows []) i).
    + intros gs j v. unfold gset_rows. rewrite Nat.eqb_sym. auto.
    + intros v Hv. apply (all_filled_in _ _ _ _ _ _ HA) in Hv. congruence.
    + destruct (all_filled_ex _ _ _ _ i HA HR Hi) as (v & Hv & _). eauto.
  - intros Hex. destruct (H2 Hex) as [HF _]. apply Forall_forall. intros x Hx. apply in_map_iff in Hx as (y & <- & Hy).
    rewrite Forall_forall in HF. specialize (HF y Hy). destruct y; [discriminate|reflexivity].
Qed.
End LSpectra4.
