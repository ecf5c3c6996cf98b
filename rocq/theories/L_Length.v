(* One result per rank: lengths of the lists of results *)
From Coq Require Import Lia List Bool.
From Verif Require Import M_Prelude M_Scalar M_PSR M_Ladder M_State M_Mpi M_Hamiltonian M_Lanczos M_Spectra M_RIXS.
Import ListNotations.
Local Open Scope nat_scope.

Lemma oks_len {A} (l : list (res A)) : forallb is_ok l = true -> length (oks l) = length l.
Proof. induction l as [|[a|e] l IH]; simpl; intros H; try discriminate; auto. Qed.
Lemma enumerate_len {A} (l : list A) : length (enumerate l) = length l.
Proof. unfold enumerate. rewrite combine_length, seq_length. lia. Qed.
Lemma bcast_len {A} (l : list (res A)) : length (bcast_all l) = length l.
Proof. unfold bcast_all. destruct (forallb is_ok l); apply map_length. Qed.
Lemma together_len {A} (l : list (res A)) : match together l with Run r => length r = length l | Stop s => length s = length l end.
Proof. unfold together. destruct (forallb is_ok l) eqn:E; [apply oks_len; auto|apply map_length]. Qed.

(* a joint step of R ranks *)
Definition run_len {A} (R : nat) (I : A -> Prop) (x : run A) : Prop := match x with Run a => I a | Stop l => length l = R end.
Lemma fold_run_len {A S} R (I : S -> Prop) (f : S -> A -> run S) l : (forall s a, I s -> run_len R I (f s a)) -> forall s, I s -> run_len R I (fold_run f l s).
Proof.
  intros H. induction l as [|a l IH]; intros s Hs; cbn [fold_run]; [exact Hs|]. specialize (H s a Hs). destruct (f s a); cbn [rbind run_len] in *; auto.
Qed.

Section L.
Context {F : ofield}.
Variable fsqrt : F -> F.
Lemma hbuild_len fuel n (op : op_t F) rs ord states : length (expand_hbuild fuel n op rs ord states) = length states.
Proof.
  revert states. induction fuel as [|fuel IH]; intros states; cbn [expand_hbuild]; cbv zeta.
  - destruct (forallb negb _); [apply map_length|]. destruct (forallb _ _); rewrite ?map_length; auto.
  - destruct (forallb negb _); [apply map_length|]. destruct (forallb (fun b : bool => b) _); [|rewrite !map_length; auto].
    set (locals := map _ (enumerate states)). assert (Ll : length locals = length states) by (unfold locals; now rewrite map_length, enumerate_len).
    destruct (forallb is_ok locals) eqn:E; [|now rewrite map_length]. rewrite IH, map_length, combine_length, oks_len by auto. lia.
Qed.
Lemma expand_len fuel n (op : op_t F) rs ord pm b0 hs : length (expand_basis fuel n op rs ord pm b0 hs) = length hs.
Proof. destruct pm; cbn [expand_basis]; rewrite map_length; auto. rewrite combine_length, hbuild_len, map_length. lia. Qed.
Lemma from_h_len ord (hs : list (hdict_t F)) b pm rl mode : length (get_hamiltonian_matrix_from_h_dict ord hs b pm rl mode) = length hs.
Proof.
  unfold get_hamiltonian_matrix_from_h_dict. destruct pm, rl, mode; cbv zeta; rewrite ?map_length, ?bcast_len, ?map_length, ?enumerate_len; auto.
Qed.
Lemma ebh_len fuel n (op : op_t F) rs ord pm rl b0 hs : length (expand_basis_and_hamiltonian fuel n op rs ord pm rl b0 hs) = length hs.
Proof.
  unfold expand_basis_and_hamiltonian. cbv zeta. pose proof (expand_len fuel n op rs ord pm b0 hs) as L.
  set (eb := expand_basis fuel n op rs ord pm b0 hs) in *. clearbody eb. destruct pm; rewrite ?map_length; auto.
  destruct eb as [|[h [b|e]] eb2] eqn:E; rewrite ?map_length; auto. destruct (forallb _ _); rewrite ?map_length; auto.
  rewrite combine_length, from_h_len, !map_length. lia.
Qed.
Lemma krylov_local_len hs psi0 ks : length (get_tridiagonal_krylov_vectors_local fsqrt hs psi0 ks) = length hs.
Proof.
  unfold get_tridiagonal_krylov_vectors_local. cbv zeta. destruct (_ <? 1)%Z; [apply map_length|]. destruct hs as [|h hs]; auto.
  destruct (krylov _ _ _ _); simpl; now rewrite map_length.
Qed.
Lemma green_len fuel ord n e psi (op : op_t F) w delta ks swm rs hs mode pm : length (getGreen fsqrt fuel ord n e psi op w delta ks swm rs hs mode pm) = length hs.
Proof.
  unfold getGreen. destruct psi as [|p psi]; [apply map_length|].
  assert (G : forall h_local : bool, length (
      let ebh := expand_basis_and_hamiltonian fuel n op rs ord pm h_local (dkeys (p :: psi)) hs in
        if h_local then
          let starts := map (fun x => do (h, idx) <- snd x; do psi0 <- psi_vec idx (p :: psi); Ok (h, psi0)) ebh in
          match starts with
          | Ok (_, psi0) :: _ =>
              if forallb is_ok starts then
                combine (map fst ebh) (map (rmap (green_mesh w delta e)) (get_tridiagonal_krylov_vectors_local fsqrt (map fst (oks starts)) psi0 ks))
              else map (fun xs => (fst (fst xs), match snd xs with Ok _ => Err Deadlock | Err e => Err e end)) (combine ebh starts)
          | _ => map (fun xs => (fst (fst xs), match snd xs with Ok _ => Err Deadlock | Err e => Err e end)) (combine ebh starts)
          end
        else
          map (fun x => (fst x, do (h, idx) <- snd x; do psi0 <- psi_vec idx (p :: psi); rmap (green_mesh w delta e) (get_tridiagonal_krylov_vectors fsqrt h psi0 ks))) ebh) = length hs).
  { intros h_local. cbv zeta. set (ebh := expand_basis_and_hamiltonian fuel n op rs ord pm h_local (dkeys (p :: psi)) hs).
    assert (L : length ebh = length hs) by apply ebh_len. clearbody ebh. destruct h_local; [|rewrite map_length; auto].
    set (starts := map _ ebh). assert (Ls : length starts = length ebh) by apply map_length. clearbody starts.
    assert (C : length (combine ebh starts) = length hs) by (rewrite combine_length; lia).
    destruct starts as [|[[m psi0]|] starts2] eqn:Es; rewrite ?map_length; auto. rewrite <- Es in *.
    destruct (forallb is_ok starts) eqn:Eo; [|rewrite map_length; auto].
    rewrite combine_length, !map_length, krylov_local_len, map_length, oks_len by auto. lia. }
  destruct mode; try (exact (G _)); [|apply map_length]. destruct pm; apply map_length.
Qed.
Lemma hb_len fuel n (op : op_t F) w delta rs ks swm ord psis es tOps R :
  length (getSpectra fsqrt fuel n op w delta rs ks swm ord R tOps psis es SHBuild) = R.
Proof.
  unfold getSpectra. set (I := fun st : @hb_state F => length (hb_hs st) = R /\ length (hb_gs st) = R).
  assert (H : run_len R I (hb_run fsqrt fuel n op w delta rs ks swm ord psis es tOps R)).
  { unfold hb_run. apply fold_run_len; [|split; cbn [hb_hs hb_gs]; apply repeat_length]. intros s [t tOp] Hs. apply fold_run_len; [|exact Hs].
    intros s1 i [H1 H2]. cbn [fst snd]. unfold hb_entry. cbv zeta. unfold all_ranks.
    match goal with |- run_len _ _ (rbind (match ?x with _ => _ end) _) => destruct x as [[[[tb e] psiN] nrm]|] end; cbn [rbind run_len]; [|rewrite repeat_length; auto].
    match goal with |- run_len _ _ (rbind (together (map snd ?x)) _) => set (out := x) end.
    assert (Lo : length out = R) by (unfold out; rewrite green_len; auto).
    pose proof (together_len (map snd out)) as Ht. rewrite map_length, Lo in Ht.
    destruct (together (map snd out)); cbn [rbind run_len]; [|auto]. split; cbn [hb_hs hb_gs]; rewrite map_length; auto. rewrite combine_length. lia. }
  destruct (hb_run _ _ _ _ _ _ _ _ _ _ _ _ _ _); cbn [run_len] in H; rewrite map_length; auto. apply H.
Qed.
Variable bicgstab : list (vec F) -> vec F -> vec F.
Lemma win_len fuel n (op : op_t F) wIns wLoss d1 d2 rs ks swm tIn tOut psis es ord hg pm : pm = RwIn \/ pm = RHBuildwIn ->
  length (getRIXSmap fsqrt bicgstab fuel n op wIns wLoss d1 d2 rs ks swm tIn tOut psis es ord hg pm) = length hg.
Proof.
  intros Hpm.
  assert (G : forall pm', length (match win_run fsqrt bicgstab fuel n op wIns wLoss d1 d2 rs ks swm tIn tOut psis es pm' ord hg with Run st => map Ok (wi_gs st) | Stop l => map Err l end) = length hg).
  { intros pm'. set (R := length hg). set (I := fun st : @win_state F => length (wi_ex st) = R /\ length (wi_rk st) = R /\ length (wi_gs st) = R).
    assert (H : run_len R I (win_run fsqrt bicgstab fuel n op wIns wLoss d1 d2 rs ks swm tIn tOut psis es pm' ord hg)).
    { unfold win_run. apply fold_run_len; [|split; [|split]; cbn [wi_ex wi_rk wi_gs]; apply map_length]. intros s [t tOp] Hs. apply fold_run_len; [|exact Hs].
      intros s1 i (H1 & H2 & H3). cbn [fst snd]. unfold win_step. cbv zeta. unfold all_ranks.
      destruct (core_hole _ _ _ _ _ _ _ _) as [[[tb e] psi1]|]; cbn [rbind run_len]; [|rewrite repeat_length; auto].
      match goal with |- run_len _ _ (rbind (together (map ?f (enumerate (combine ?x _)))) _) => set (ebh := x); set (ff := f) end.
      assert (Lo : length ebh = R) by (unfold ebh; rewrite ebh_len; auto).
      pose proof (together_len (map ff (enumerate (combine ebh (wi_rk s1))))) as Ht. rewrite map_length, enumerate_len, combine_length, Lo, H2, Nat.min_id in Ht.
      destruct (together _); cbn [rbind run_len]; [|auto]. split; [|split]; cbn [wi_ex wi_rk wi_gs]; rewrite map_length; auto. }
    destruct (win_run _ _ _ _ _ _ _ _ _ _ _ _ _ _ _ _ _ _ _); cbn [run_len] in H; rewrite map_length; auto. apply H. }
  unfold getRIXSmap. destruct Hpm as [->| ->]; apply G.
Qed.
End L.
