(* Two choices of the states of the same levels give the same averages. *)
From Coq Require Import Permutation Ring Field.
From Verif Require Import M_Prelude M_Scalar M_PSR M_State M_Mpi M_Hamiltonian M_Lanczos M_Spectra S_Fock S_Ops S_Ham S_Green S_Spectra S_Symmetry S_TimeReversal S_Dichroism S_Thermal S_Spectrum S_RIXS S_Levels.
From Verif Require Import L_Scalar L_Sum L_Dict L_Fock L_State L_Ops L_ApplyOp L_FockP L_Lanczos2 L_Green3 L_RIXS2 L_Symmetry L_Dichroism L_Isotropic.

Section Core.
Context {F : ofield}.
Add Field Ff : (f_field F).
Add Ring Cring : (@c_ring F).
Local Open Scope cx_scope.
Variables n K : nat.
Variable lev : nat -> F.
Variable a : nat -> nat -> cx F.
Definition lin (c : nat -> cx F) (Y : nat -> config -> cx F) (t : config) : cx F := csum (fun i => c i * Y i t) (seq 0 K).
Hypothesis rows : forall i i', (i < K)%nat -> (i' < K)%nat -> csum (fun j => cconj (a j i) * a j i') (seq 0 K) = if Nat.eqb i i' then c1 else c0.
Hypothesis level : forall j i, (j < K)%nat -> (i < K)%nat -> lev i <> lev j -> a j i = c0.
Lemma at_level {A} (p : F -> A) (f : A -> cx F) j i : (j < K)%nat -> (i < K)%nat -> f (p (lev j)) * a j i = f (p (lev i)) * a j i.
Proof.
  intros Hj Hi. destruct (feqb_spec (lev i) (lev j)) as [E|N].
  - now rewrite E.
  - rewrite (level j i) by auto. ring.
Qed.
Lemma trace (p : F -> cx F) (B : nat -> nat -> cx F) g g' : (forall i, (i < K)%nat -> g i = B i i) ->
  (forall j, (j < K)%nat -> g' j = csum (fun i => csum (fun i' => cconj (a j i) * a j i' * B i i') (seq 0 K)) (seq 0 K)) ->
  csum (fun j => p (lev j) * g' j) (seq 0 K) = csum (fun i => p (lev i) * g i) (seq 0 K).
Proof.
  intros Hg Hg'.
  transitivity (csum (fun j => csum (fun i => csum (fun i' => cconj (a j i) * a j i' * (p (lev i') * B i i')) (seq 0 K)) (seq 0 K)) (seq 0 K)).
  { apply csum_ext. intros j Hj. apply in_seq in Hj. rewrite Hg' by lia. rewrite <- csum_mul_l. apply csum_ext. intros i Hi. rewrite <- csum_mul_l. apply csum_ext. intros i' Hi'.
    apply in_seq in Hi, Hi'. transitivity (cconj (a j i) * B i i' * (p (lev j) * a j i')); [ring|].
    rewrite (at_level p (fun x => x) j i') by lia. ring. }
  rewrite csum_swap. apply csum_ext. intros i Hi. rewrite csum_swap. apply in_seq in Hi. rewrite Hg by lia.
  transitivity (csum (fun i' => (p (lev i') * B i i') * (if Nat.eqb i' i then c1 else c0)) (seq 0 K)).
  - apply csum_ext. intros i' Hi'. apply in_seq in Hi'. rewrite Nat.eqb_sym, <- (rows i i') by lia. rewrite <- csum_mul_l. apply csum_ext. intros j _. ring.
  - exact (csum_mul_delta (fun _ => c0) (fun i' => p (lev i') * B i i') i K ltac:(lia)).
Qed.
Lemma lin_ext c Y Y' t : (forall i, (i < K)%nat -> Y i t = Y' i t) -> lin c Y t = lin c Y' t.
Proof. intros H. apply csum_ext. intros i Hi. apply in_seq in Hi. rewrite H by lia. auto. Qed.
Lemma lin_map (m : config -> config -> cx F) c Y t : csum (fun s => m t s * lin c Y s) (allcfg n) = lin c (fun i t => csum (fun s => m t s * Y i s) (allcfg n)) t.
Proof.
  unfold lin. rewrite (csum_ext _ (fun s => csum (fun i => c i * (m t s * Y i s)) (seq 0 K))).
  - rewrite csum_swap. apply csum_ext. intros i _. rewrite <- csum_mul_l. apply csum_ext. auto.
  - intros s _. rewrite <- csum_mul_l. apply csum_ext. intros i _. ring.
Qed.
Lemma vsol_lin (z : F -> cx F) h X Y j : (j < K)%nat -> (forall i, (i < K)%nat -> vsol n (z (lev i)) h (X i) (Y i)) -> vsol n (z (lev j)) h (lin (a j) X) (lin (a j) Y).
Proof.
  intros Hj H t Ht. rewrite lin_map. unfold lin. rewrite <- csum_mul_l, <- csum_sub. apply csum_ext. intros i Hi. apply in_seq in Hi.
  rewrite <- (H i ltac:(lia) t Ht). transitivity (z (lev j) * a j i * X i t - a j i * csum (fun s => h t s * X i s) (allcfg n)); [ring|].
  rewrite (at_level z (fun x => x) j i) by lia. ring.
Qed.
Lemma vdot_lin2 (c d : nat -> cx F) U V : vdot n (lin c U) (lin d V) = csum (fun i => csum (fun i' => cconj (c i) * d i' * vdot n (U i) (V i')) (seq 0 K)) (seq 0 K).
Proof.
  unfold vdot. rewrite (csum_ext _ (fun t => csum (fun i => csum (fun i' => cconj (c i) * d i' * (cconj (U i t) * V i' t)) (seq 0 K)) (seq 0 K))).
  - rewrite csum_swap. apply csum_ext. intros i _. rewrite csum_swap. apply csum_ext. intros i' _. now rewrite csum_mul_l.
  - intros t _. unfold lin. rewrite <- csum_conj, <- csum_mul_r. apply csum_ext. intros i _. rewrite <- csum_mul_l. apply csum_ext. intros i' _. rewrite cconj_mul. ring.
Qed.
(* the mean of <y|(z - h)^-1|y> *)
Lemma trace_green (z p : F -> cx F) h Y Y' g g' : (forall j, (j < K)%nat -> forall t, length t = n -> Y' j t = lin (a j) Y t) ->
  (forall i, (i < K)%nat -> gv n (z (lev i)) h (Y i) (g i)) -> (forall j, (j < K)%nat -> gv n (z (lev j)) h (Y' j) (g' j)) ->
  csum (fun j => p (lev j) * g' j) (seq 0 K) = csum (fun i => p (lev i) * g i) (seq 0 K).
Proof.
  intros HY Hg Hg'.
  assert (C : forall k, (k <= K)%nat -> exists X : nat -> config -> cx F, forall i, (i < k)%nat -> vsol n (z (lev i)) h (X i) (Y i) /\ vdot n (Y i) (X i) = g i).
  { induction k as [|k IH]; intros Hk; [exists (fun _ _ => c0); intros; lia|]. destruct (IH ltac:(lia)) as [X HX]. destruct (Hg k ltac:(lia)) as (x & Hx & Ex & _).
    exists (fun i => if Nat.eqb i k then x else X i). intros i Hi. destruct (Nat.eqb_spec i k) as [->|N]; [auto|]. apply HX. lia. }
  destruct (C K (le_n K)) as [X HX]. apply (trace p (fun i i' => vdot n (Y i) (X i'))).
  - intros i Hi. symmetry. apply HX; auto.
  - intros j Hj. rewrite <- (vdot_lin2 (a j) (a j) Y X). destruct (Hg' j Hj) as (x & _ & <- & U). apply vdot_ext; [apply HY; auto|].
    intros t Ht. symmetry. apply U; auto. apply (vsol_ext n _ h _ (lin (a j) Y)); [intros s Hs; symmetry; apply HY; auto|]. apply vsol_lin; auto. intros i Hi. apply HX; auto.
Qed.
(* the mean of <v|A|v> *)
Lemma trace_form (p : F -> cx F) (A : op_t F) (V V' : nat -> config -> cx F) : (forall j, (j < K)%nat -> forall t, length t = n -> V' j t = lin (a j) V t) ->
  csum (fun j => p (lev j) * vdot n (V' j) (opv n A (V' j))) (seq 0 K) = csum (fun i => p (lev i) * vdot n (V i) (opv n A (V i))) (seq 0 K).
Proof.
  intros HV. apply (trace p (fun i i' => vdot n (V i) (opv n A (V i')))); auto. intros j Hj. rewrite <- (vdot_lin2 (a j) (a j) V (fun i => opv n A (V i))).
  apply vdot_ext; [apply HV; auto|]. intros t Ht. unfold opv at 1.
  rewrite (csum_ext _ (fun s => opelem A t s * lin (a j) V s)) by (intros s Hs; apply allcfg_In in Hs; rewrite HV by auto; auto). apply (lin_map (opelem A)).
Qed.
End Core.

Section Levels.
Context {F : ofield}.
Add Field Ff2 : (f_field F).
Add Ring Cring2 : (@c_ring F).
Local Open Scope cx_scope.
Lemma choose {A} (P : nat -> A -> Prop) (d : A) K : (forall i, (i < K)%nat -> exists x, P i x) -> exists f, forall i, (i < K)%nat -> P i (f i).
Proof.
  induction K as [|K IH]; intros H; [exists (fun _ => d); intros; lia|]. destruct IH as [f Hf]; [intros; apply H; lia|]. destruct (H K ltac:(lia)) as [x Hx].
  exists (fun i => if Nat.eqb i K then x else f i). intros i Hi. destruct (Nat.eqb_spec i K) as [->|N]; auto. apply Hf. lia.
Qed.
Lemma vdot_sum_r n K (u : config -> cx F) c (V : nat -> config -> cx F) : vdot n u (lin K c V) = csum (fun i => c i * vdot n u (V i)) (seq 0 K).
Proof.
  unfold vdot. rewrite (csum_ext _ (fun t => csum (fun i => c i * (cconj (u t) * V i t)) (seq 0 K))).
  - rewrite csum_swap. apply csum_ext. intros i _. now rewrite csum_mul_l.
  - intros t _. unfold lin. rewrite <- csum_mul_l. apply csum_ext. intros i _. ring.
Qed.
(* the matrix between the two sets *)
Lemma levels_matrix n es psis psis' : @same_levels F n es psis psis' -> exists a : nat -> nat -> cx F,
  (forall i i', (i < length es)%nat -> (i' < length es)%nat -> csum (fun j => cconj (a j i) * a j i') (seq 0 (length es)) = if Nat.eqb i i' then c1 else c0) /\
  (forall j i, (j < length es)%nat -> (i < length es)%nat -> nth i es 0%F <> nth j es 0%F -> a j i = c0) /\
  forall j, (j < length es)%nat -> forall t, length t = n -> amp (nth j psis' []) t = lin (length es) (a j) (fun i => amp (nth i psis [])) t.
Proof.
  intros (L & L' & O & O' & H). set (K := length es) in *.
  destruct (choose (fun j c => (forall i, (i < K)%nat -> nth i es 0%F <> nth j es 0%F -> c i = c0) /\
    forall t, length t = n -> amp (nth j psis' []) t = lin K c (fun i => amp (nth i psis [])) t) (fun _ => c0) K) as [a Ha].
  { intros j Hj. destruct (proj1 (H j Hj)) as (c & C1 & C2). rewrite L in *. exists c. auto. }
  destruct (choose (fun i c => forall t, length t = n -> amp (nth i psis []) t = lin K c (fun j => amp (nth j psis' [])) t) (fun _ => c0) K) as [b Hb].
  { intros j Hj. destruct (proj2 (H j Hj)) as (c & C1 & C2). rewrite L' in *. exists c. auto. }
  assert (A : forall j i, (j < K)%nat -> (i < K)%nat -> a j i = vdot n (amp (nth i psis [])) (amp (nth j psis' []))).
  { intros j i Hj Hi. rewrite (vdot_ext n _ (amp (nth i psis [])) _ (lin K (a j) (fun i => amp (nth i psis [])))) by (auto; apply Ha; auto).
    rewrite vdot_sum_r. rewrite (csum_ext _ (fun i' => a j i' * (if Nat.eqb i' i then c1 else c0))).
    - symmetry. exact (csum_mul_delta (fun _ => c0) (a j) i K Hi).
    - intros i' Hi'. apply in_seq in Hi'. rewrite O by lia. now rewrite Nat.eqb_sym. }
  assert (B : forall i j, (i < K)%nat -> (j < K)%nat -> b i j = vdot n (amp (nth j psis' [])) (amp (nth i psis []))).
  { intros i j Hi Hj. rewrite (vdot_ext n _ (amp (nth j psis' [])) _ (lin K (b i) (fun i => amp (nth i psis' [])))) by (auto; apply Hb; auto).
    rewrite vdot_sum_r. rewrite (csum_ext _ (fun i' => b i i' * (if Nat.eqb i' j then c1 else c0))).
    - symmetry. exact (csum_mul_delta (fun _ => c0) (b i) j K Hj).
    - intros i' Hi'. apply in_seq in Hi'. rewrite O' by lia. now rewrite Nat.eqb_sym. }
  exists a. split; [|split; [intros; apply Ha; auto|intros; apply Ha; auto]].
  intros i i' Hi Hi'. rewrite Nat.eqb_sym, <- (O i' i) by lia. rewrite (vdot_ext n _ (amp (nth i' psis [])) _ (lin K (b i) (fun i => amp (nth i psis' [])))) by (auto; apply Hb; auto).
  rewrite vdot_sum_r. apply csum_ext. intros j Hj. apply in_seq in Hj. rewrite <- (A j i'), (B i j), (A j i) by lia. rewrite <- vdot_swap. auto.
Qed.
Lemma whole_same n (A : op_t F) es psis psis' : whole_levels n A es psis -> whole_levels n A es psis' -> same_levels n es psis psis'.
Proof.
  intros (L & O & E & S) (L' & O' & E' & S'). split; [auto|]. split; [auto|]. split; [auto|]. split; [auto|]. intros i Hi. split; [apply S|apply S']; auto.
Qed.
End Levels.
