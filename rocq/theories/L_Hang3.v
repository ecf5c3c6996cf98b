(* Waiting ranks are explained: Green's functions, spectra, eigenstates and the whole program. *)
From Verif Require Import M_Prelude M_Scalar M_PSR M_Ladder M_State M_Mpi M_Hamiltonian M_Lanczos M_Basis M_Average M_Expect M_Operators.
From Verif Require Import M_Spectra M_Simulate M_RIXS M_Main M_Program S_Program L_Hang L_Length L_Hang2.
Local Open Scope Z_scope.

Section A.
Context {F : ofield}.
Variable fsqrt : F -> F.
Implicit Types op : op_t F.

(* ---- getGreen ---- *)
Lemma krylov_local_expl hs psi0 ks : explained (get_tridiagonal_krylov_vectors_local fsqrt hs psi0 ks).
Proof.
  unfold get_tridiagonal_krylov_vectors_local. cbv zeta. destruct (_ <? 1).
  - apply expl_nd, Forall_map, Forall_forall. discriminate.
  - destruct hs as [|h others]; [apply expl_nil|].
    match goal with |- context [krylov ?f ?d ?p ?k] => pose proof (exn_krylov f d p k) as K; destruct (krylov f d p k) as [r|e] end.
    + apply expl_nd. constructor; [discriminate|]. apply Forall_map, Forall_forall. discriminate.
    + intros _. exists e. split; [|left; reflexivity]. intros ->. destruct K. auto.
Qed.
Lemma apply_h_nd n op swm rs v h : nd (snd (apply_h n op swm rs v h)).
Proof.
  unfold apply_h. pose proof (exn_applyOp n op v swm rs (Some h)) as H. destruct (applyOp _ _ _ _ _ _) as [[h'|] r]; cbn [snd] in *; apply exn_nd, H.
Qed.
Lemma dict_loop_nd k n op swm rs : forall v0 w h, nd (snd (dict_loop fsqrt k n op swm rs v0 w h)).
Proof.
  induction k as [|k IH]; intros v0 w h; cbn [dict_loop]; cbv zeta; [discriminate|]. destruct (feqb _ _); [discriminate|].
  match goal with |- context [apply_h ?a ?b ?c ?d ?e ?f] => pose proof (apply_h_nd a b c d e f) as H; destruct (apply_h a b c d e f) as [h' [wp|e0]] end.
  - match goal with |- context [dict_loop ?f k ?a ?b ?c ?d ?x ?y ?z] => specialize (IH x y z); destruct (dict_loop f k a b c d x y z) as [h'' r] end.
    cbn [snd] in *. apply nd_bind; [exact IH|discriminate].
  - cbn [snd] in *. intros E. injection E as ->. auto.
Qed.
Lemma dict_krylov_nd n op swm rs psi ks h : nd (snd (dict_krylov fsqrt n op swm rs psi ks h)).
Proof.
  unfold dict_krylov. destruct (ks <? 0); [discriminate|]. destruct (ks =? 0); [discriminate|].
  match goal with |- context [apply_h ?a ?b ?c ?d ?e ?f] => pose proof (apply_h_nd a b c d e f) as H; destruct (apply_h a b c d e f) as [h' [wp|e0]] end.
  - cbv zeta. match goal with |- context [dict_loop ?f ?k ?a ?b ?c ?d ?x ?y ?z] => pose proof (dict_loop_nd k a b c d x y z) as IH; destruct (dict_loop f k a b c d x y z) as [h'' r] end.
    cbn [snd] in *. apply nd_bind; [exact IH|discriminate].
  - cbn [snd] in *. intros E. injection E as ->. auto.
Qed.
Lemma green_expl fuel ord n e psi op w delta ks swm rs hs mode pm :
  explained (map snd (getGreen fsqrt fuel ord n e psi op w delta ks swm rs hs mode pm)).
Proof.
  unfold getGreen. destruct psi as [|sa psi']; [rewrite map_map; cbn [snd]; apply expl_nd, Forall_map, Forall_forall; discriminate|].
  set (psi := sa :: psi').
  assert (M : forall (ebh := expand_basis_and_hamiltonian fuel n op rs ord pm (match pm with HBuild => true | _ => false end) (dkeys psi) hs),
    explained (map snd (if (match pm with HBuild => true | _ => false end)
      then let starts := map (fun x => do (h, idx) <- snd x; do psi0 <- psi_vec idx psi; Ok (h, psi0)) ebh in
          match starts with
          | Ok (_, psi0) :: _ =>
              if forallb is_ok starts then
                combine (map fst ebh)
                  (map (rmap (green_mesh w delta e))
                     (get_tridiagonal_krylov_vectors_local fsqrt (map fst (oks starts)) psi0 ks))
              else map (fun xs => (fst (fst xs), match snd xs with Ok _ => Err Deadlock | Err e => Err e end)) (combine ebh starts)
          | _ => map (fun xs => (fst (fst xs), match snd xs with Ok _ => Err Deadlock | Err e => Err e end)) (combine ebh starts)
          end
      else map (fun x => (fst x, do (h, idx) <- snd x; do psi0 <- psi_vec idx psi;
                                rmap (green_mesh w delta e) (get_tridiagonal_krylov_vectors fsqrt h psi0 ks))) ebh))).
  { intros ebh. pose proof (ebh_expl fuel n op rs ord pm (match pm with HBuild => true | _ => false end) (dkeys psi) hs) as E. fold ebh in E.
    destruct (match pm with HBuild => true | _ => false end).
    - cbv zeta. set (starts := map _ ebh).
      assert (S : explained starts).
      { pose proof (expl_bind _ _ (fun hi : M_Hamiltonian.mat F * dict pybytes nat => let (h, idx) := hi in do psi0 <- psi_vec idx psi; Ok (h, psi0)) (map snd ebh)) as B.
        rewrite map_map in B. apply B; [|exact E]. intros [h idx]. apply exn_nd. apply exn_bind; [apply exn_psi_vec|]. intros; apply exn_Ok. }
      assert (Lc : length ebh = length starts) by (unfold starts; rewrite map_length; reflexivity).
      assert (W : forallb is_ok starts = false -> explained (map snd (map (fun xs : (hdict_t F * res (M_Hamiltonian.mat F * dict pybytes nat)) * res (M_Hamiltonian.mat F * vec F) =>
         (fst (fst xs), match snd xs with Ok _ => @Err (vec F) Deadlock | Err e => Err e end)) (combine ebh starts)))).
      { intros Q. rewrite map_map. cbn [snd]. pose proof (expl_wait _ (vec F) starts S Q) as W.
        rewrite <- (map_snd_combine _ _ ebh starts Lc) in W at 1. rewrite map_map in W. exact W. }
      destruct starts as [|[[h psi0]|ex] st'] eqn:Es.
      + destruct ebh; [|discriminate]. apply expl_nil.
      + rewrite <- Es in *. destruct (forallb is_ok starts) eqn:Q; [|apply W; reflexivity].
        rewrite map_snd_combine; [apply expl_rmap, krylov_local_expl|]. rewrite !map_length, krylov_local_len, map_length, oks_len by exact Q. exact Lc.
      + apply W. reflexivity.
    - rewrite map_map. cbn [snd].
      pose proof (expl_bind _ _ (fun hi : M_Hamiltonian.mat F * dict pybytes nat => let (h, idx) := hi in do psi0 <- psi_vec idx psi; rmap (green_mesh w delta e) (get_tridiagonal_krylov_vectors fsqrt h psi0 ks)) (map snd ebh)) as B.
      rewrite map_map in B. apply B; [|exact E]. intros [h idx]. apply exn_nd, exn_bind; [apply exn_psi_vec|]. intros v. apply exn_rmap. apply exn_krylov. }
  destruct mode.
  - destruct pm; rewrite map_map; apply expl_nd, Forall_map, Forall_forall; intros h _; cbn [snd]; try discriminate.
    pose proof (dict_krylov_nd n op swm rs psi ks h) as D. destruct (dict_krylov _ _ _ _ _ _ _ _) as [h' r]; cbn [snd] in *. apply nd_rmap, D.
  - exact M.
  - exact M.
  - rewrite map_map; apply expl_nd, Forall_map, Forall_forall; discriminate.
Qed.
(* one rank for itself *)
Lemma green_nd fuel ord n e psi op w delta ks swm rs h mode h' r :
  getGreen fsqrt fuel ord n e psi op w delta ks swm rs [h] mode Serial = [(h', r)] -> nd r.
Proof.
  intros E. pose proof (green_expl fuel ord n e psi op w delta ks swm rs [h] mode Serial) as G. rewrite E in G. cbn in G.
  intros ->. destruct G as (x & Hn & [Q|[]]); [left; reflexivity|]. congruence.
Qed.
(* ---- getSpectra ---- *)
Section S.
Variable fuel : nat.
Variables (n : Z) (hOp : op_t F) (w : list F) (delta : F) (rs : option restrictions_t) (ks : Z) (swm : F).
Lemma es_rank_nd ord psis es tOps r R : nd (es_rank fsqrt fuel n hOp w delta rs ks swm ord psis es tOps r R).
Proof.
  unfold es_rank. apply nd_bind; [apply exn_nd, exn_jobs|]. intros jobs. apply nd_rmap, nd_fold. intros st i.
  apply nd_bind; [|intros [? ?]; discriminate]. unfold es_rows. apply nd_bind; [apply exn_nd, exn_nth_res|]. intros psi. apply nd_bind; [apply exn_nd, exn_nth_res|]. intros e.
  apply nd_fold. intros st' op. apply nd_bind; [|intros [? ?]; discriminate]. unfold es_entry.
  apply nd_bind; [apply exn_nd, exn_applyOp|]. intros psiR. apply nd_bind; [apply exn_nd, exn_normalise|]. intros [psiR' nrm].
  destruct (getGreen _ _ _ _ _ _ _ _ _ _ _ _ _ _ _) as [|[h' r'] [|]] eqn:G; try discriminate.
  apply green_nd in G. apply nd_bind; [exact G|discriminate].
Qed.
Lemma hb_entry_expl ord psis es t tOp st i : rexpl (hb_entry fsqrt fuel n hOp w delta rs ks swm ord psis es t tOp st i).
Proof.
  unfold hb_entry. cbv zeta. apply rexpl_bind.
  - apply rexpl_all. apply nd_bind; [apply exn_nd, exn_nth_res|]. intros psi. apply nd_bind; [apply exn_nd, exn_nth_res|]. intros e.
    pose proof (exn_applyOp n tOp psi swm rs (Some (hb_tbig st))) as H. destruct (applyOp _ _ _ _ _ _) as [tb r]. cbn [snd] in H.
    apply nd_bind; [apply exn_nd, H|]. intros p. apply nd_bind; [apply exn_nd, exn_normalise|]. intros [? ?]. discriminate.
  - intros [[[tb e] psiR] nrm] _. apply rexpl_bind; [|intros; exact I]. apply rexpl_together, green_expl.
Qed.
Lemma spectra_expl ord R tOps psis es pm : explained (getSpectra fsqrt fuel n hOp w delta rs ks swm ord R tOps psis es pm).
Proof.
  unfold getSpectra. destruct pm.
  - apply expl_rmap, expl_bcast, expl_nd, Forall_map, Forall_forall. intros r _. apply es_rank_nd.
  - assert (H : rexpl (hb_run fsqrt fuel n hOp w delta rs ks swm ord psis es tOps R)).
    { unfold hb_run. apply (rexpl_fold _ _ (fun _ => True)); auto. intros st [t tOp] _. split; [|auto].
      apply (rexpl_fold _ _ (fun _ => True)); auto. intros st' i _. split; [|auto]. apply hb_entry_expl. }
    destruct (hb_run _ _ _ _ _ _ _ _ _ _ _ _ _ _) as [st|l]; [apply Forall_Ok|]. cbn in H. eapply expl_Err, H.
  - apply expl_repeat. discriminate.
Qed.
End S.
(* ---- getRIXSmap ---- *)
Section R.
Variable bicgstab : list (vec F) -> vec F -> vec F.
Variable fuel : nat.
Variables (n : Z) (hOp : op_t F) (wIns wLoss : list F) (d1 d2 : F) (rs : option restrictions_t) (ks : Z) (swm : F).
Variables (tOpsIn tOpsOut : list (op_t F)) (psis : list (psi_t F)) (es : list F).
Lemma core_hole_nd op tb i : nd (core_hole n rs swm psis es op tb i).
Proof.
  unfold core_hole. apply nd_bind; [apply exn_nd, exn_nth_res|]. intros psi. apply nd_bind; [apply exn_nd, exn_nth_res|]. intros e.
  pose proof (exn_applyOp n op psi swm rs (Some tb)) as H. destruct (applyOp _ _ _ _ _ _) as [c r]. cbn [snd] in H. apply nd_bind; [apply exn_nd, H|]. discriminate.
Qed.
Lemma out_state_nd heap t op psi2 : nd (out_state fsqrt n rs swm tOpsOut heap t op psi2).
Proof.
  unfold out_state. apply nd_bind; [apply exn_nd, exn_nth_res|]. intros cell. apply nd_bind; [apply exn_nd, exn_nth_res|]. intros cache.
  pose proof (exn_applyOp n op psi2 swm rs (Some cache)) as H. destruct (applyOp _ _ _ _ _ _) as [c r]. cbn [snd] in H. apply nd_bind; [apply exn_nd, H|].
  intros psi3. apply nd_bind; [apply exn_nd, exn_normalise|]. intros [? ?]. discriminate.
Qed.
Lemma win_rank_nd ord e sys r R rk : nd (win_rank fsqrt bicgstab fuel n hOp wIns wLoss d1 d2 rs ks swm tOpsOut ord e sys r R rk).
Proof.
  unfold win_rank. apply nd_bind; [apply exn_nd, exn_jobs|]. intros jobs. apply nd_fold. intros [[heap hg] g] iw. unfold win_energy.
  apply nd_bind; [apply exn_nd, exn_nth_res|]. intros wIn. apply nd_bind; [apply exn_nd, exn_psi2|]. intros psi2.
  apply nd_bind; [|intros [[? ?] ?]; discriminate]. apply nd_fold. intros [[heap' hg'] rows] to. unfold win_out.
  apply nd_bind; [apply out_state_nd|]. intros [[heap'' psi3] nrm].
  destruct (getGreen _ _ _ _ _ _ _ _ _ _ _ _ _ _ _) as [|[h' r'] [|]] eqn:G; try discriminate. apply green_nd in G. apply nd_bind; [exact G|discriminate].
Qed.
Lemma win_step_expl pm ord t op st i : length (wi_rk st) = length (wi_ex st) ->
  rexpl (win_step fsqrt bicgstab fuel n hOp wIns wLoss d1 d2 rs ks swm tOpsOut psis es pm ord t op st i) /\
  forall st', win_step fsqrt bicgstab fuel n hOp wIns wLoss d1 d2 rs ks swm tOpsOut psis es pm ord t op st i = Run st' -> length (wi_rk st') = length (wi_ex st').
Proof.
  intros HL. unfold win_step. cbv zeta. pose proof (core_hole_nd op (wi_tbig st) i) as C.
  destruct (core_hole _ _ _ _ _ _ _ _) as [[[tb e] psi1]|ex]; cbn [all_ranks rbind].
  2: { split; [|discriminate]. apply (rexpl_all unit _ (Err ex)). intros E. injection E as ->. auto. }
  set (ebh := expand_basis_and_hamiltonian _ _ _ _ _ _ _ _ _).
  pose proof (ebh_expl fuel n hOp rs ord pm false (dkeys psi1) (wi_ex st)) as E. fold ebh in E.
  pose proof (ebh_len fuel n hOp rs ord pm false (dkeys psi1) (wi_ex st)) as L. fold ebh in L.
  set (outs := map _ (enumerate (combine ebh (wi_rk st)))).
  assert (Lo : length outs = length ebh) by (unfold outs; rewrite map_length, enumerate_len, combine_length; lia).
  assert (X : explained outs).
  { assert (Q : forall (f : nat -> (list (cache_t F) * hdict_t F) -> M_Hamiltonian.mat F * dict pybytes nat -> res (list (cache_t F) * hdict_t F * dict nat (list (vec F)))),
      (forall r rk hi, nd (f r rk hi)) -> forall (eb : list (hdict_t F * res (M_Hamiltonian.mat F * dict pybytes nat))) rk, length rk = length eb -> explained (map snd eb) ->
      explained (map (fun xr => do hi <- snd (fst (snd xr)); f (fst xr) (snd (snd xr)) hi) (enumerate (combine eb rk)))).
    { clear. intros f Hf eb rk HL E Hd. apply in_map_iff in Hd as ([r [[h x] k]] & Ed & Hi). cbn [fst snd] in Ed.
      assert (In (h, x) eb) as Hin. { unfold enumerate in Hi. apply in_combine_r in Hi. apply in_combine_l in Hi. exact Hi. }
      destruct x as [hi|ex]; [destruct (Hf _ _ _ Ed)|]. cbn in Ed. injection Ed as ->.
      destruct (E (in_map snd _ _ Hin)) as (e & Hn & He). exists e. split; [exact Hn|]. apply in_map_iff in He as ([h2 x2] & Ex & Hi2). cbn in Ex. subst x2.
      apply In_nth_error in Hi2 as (j & Hj). apply in_map_iff.
      destruct (nth_error rk j) as [kj|] eqn:Ek.
      2: { apply nth_error_None in Ek. assert (j < length eb)%nat by (apply nth_error_Some; congruence). lia. }
      exists (j, ((h2, Err e), kj)). split; [reflexivity|]. unfold enumerate.
      assert (Hjl : (j < length eb)%nat) by (apply nth_error_Some; congruence).
      assert (N1 : nth_error (combine eb rk) j = Some ((h2, Err e), kj)).
      { clear -Hj Ek. revert rk j Hj Ek. induction eb as [|a eb IH]; intros [|k rk] [|j] Hj Ek; try discriminate; cbn in *; [congruence|auto]. }
      apply (nth_error_In _ j). assert (length (combine eb rk) = length eb) as Lc by (rewrite combine_length; lia).
      assert (N2 : forall (B : Type) (l : list B) s k b, nth_error l k = Some b -> nth_error (combine (seq s (length l)) l) k = Some ((s + k)%nat, b)).
      { clear. intros B. induction l as [|a l IH]; intros s [|k] b H; try discriminate; cbn in *; [injection H as ->; rewrite Nat.add_0_r; reflexivity|].
        rewrite (IH (S s) k b H). do 2 f_equal. lia. }
      apply (N2 _ _ 0%nat) in N1. exact N1. }
    unfold outs. specialize (Q (fun r rk hi => let (h, idx) := hi in do y <- psi_vec idx psi1; win_rank fsqrt bicgstab fuel n hOp wIns wLoss d1 d2 rs ks swm tOpsOut ord e (h, idx, y) r (length (wi_ex st)) rk)).
    apply Q; [|lia|exact E]. intros r rk [h idx]. apply nd_bind; [apply exn_nd, exn_psi_vec|]. intros y. apply win_rank_nd. }
  pose proof (rexpl_together _ outs X) as T. pose proof (together_len outs) as TL. destruct (together outs) as [l|l]; cbn [rbind].
  - split; [exact I|]. intros st' Q. injection Q as <-. cbn. rewrite !map_length. lia.
  - split; [exact T|discriminate].
Qed.
Lemma win_expl pm ord hg : rexpl (win_run fsqrt bicgstab fuel n hOp wIns wLoss d1 d2 rs ks swm tOpsIn tOpsOut psis es pm ord hg).
Proof.
  unfold win_run. apply (rexpl_fold _ _ (fun st => length (wi_rk st) = length (wi_ex st))).
  - intros st [t op] H. apply (rexpl_fold _ _ (fun st => length (wi_rk st) = length (wi_ex st))); [|exact H]. intros st' i H'. apply win_step_expl, H'.
  - cbn. rewrite !map_length. reflexivity.
Qed.
Lemma hb4_expl pm ord hg : rexpl (hb4_run fsqrt bicgstab fuel n hOp wIns wLoss d1 d2 rs ks swm tOpsIn tOpsOut psis es pm ord hg).
Proof.
  unfold hb4_run. apply (rexpl_fold _ _ (fun _ => True)); auto. intros st [t op] _. split; [|auto]. apply (rexpl_fold _ _ (fun _ => True)); auto.
  intros st' i _. split; [|auto]. unfold hb4_step. cbv zeta. apply rexpl_bind; [apply rexpl_all, core_hole_nd|]. intros [[tb e] psi1] _.
  set (ebh := expand_basis_and_hamiltonian _ _ _ _ _ _ _ _ _). apply rexpl_bind.
  - apply rexpl_together.
    pose proof (expl_bind _ _ (fun hi : M_Hamiltonian.mat F * dict pybytes nat => let (h, idx) := hi in do y <- psi_vec idx psi1; Ok (h, idx, y)) (map snd ebh)) as B.
    rewrite map_map in B. apply B; [|apply ebh_expl]. intros [h idx]. apply exn_nd, exn_bind; [apply exn_psi_vec|]. intros; apply exn_Ok.
  - intros [|sys l] _; [intros []|]. apply (rexpl_fold _ _ (fun _ => True)); auto. intros s iw _. split; [|auto]. unfold hb4_energy. apply rexpl_bind.
    + apply rexpl_all. apply nd_bind; [apply exn_nd, exn_nth_res|]. intros wIn. apply exn_nd, exn_psi2.
    + intros psi2 _. apply (rexpl_fold _ _ (fun _ => True)); auto. intros s' to _. split; [|auto]. unfold hb4_out. apply rexpl_bind; [apply rexpl_all, out_state_nd|].
      intros [[heap psi3] nrm] _. apply rexpl_bind; [|intros; exact I]. apply rexpl_together, green_expl.
Qed.
Lemma hb4_len pm ord hg : hg <> [] -> run_len (length hg) (fun st => length (h4_ex st) = length hg /\ length (h4_gr st) = length hg)
  (hb4_run fsqrt bicgstab fuel n hOp wIns wLoss d1 d2 rs ks swm tOpsIn tOpsOut psis es pm ord hg).
Proof.
  intros Hne. set (R := length hg). assert (HR : (R <> 0)%nat) by (destruct hg; [congruence|discriminate]).
  unfold hb4_run. apply fold_run_len; [|split; cbn; rewrite ?map_length; reflexivity]. intros st [t op] Hs. apply fold_run_len; [|exact Hs].
  intros s i [H1 H2]. unfold hb4_step. cbv zeta. unfold all_ranks.
  destruct (core_hole _ _ _ _ _ _ _ _) as [[[tb e] psi1]|]; cbn [rbind run_len]; [|rewrite repeat_length; auto].
  match goal with |- run_len _ _ (rbind (together (map ?f ?x)) _) => set (ebh := x); set (ff := f) end.
  assert (Lo : length ebh = R) by (unfold ebh; rewrite ebh_len; auto). pose proof (together_len (map ff ebh)) as Ht. rewrite map_length, Lo in Ht.
  destruct (together _) as [[|sys l]|]; cbn [rbind run_len]; [cbn in Ht; lia| |exact Ht].
  apply fold_run_len; [|split; cbn; [rewrite map_length; auto|auto]]. intros s' iw [H1' H2']. unfold hb4_energy, all_ranks.
  match goal with |- run_len _ _ (rbind (match ?x with _ => _ end) _) => destruct x as [psi2|] end; cbn [rbind run_len]; [|rewrite repeat_length; auto].
  apply fold_run_len; [|auto]. intros s2 to [H1'' H2'']. unfold hb4_out, all_ranks.
  destruct (out_state _ _ _ _ _ _ _ _ _) as [[[heap psi3] nrm]|]; cbn [rbind run_len]; [|rewrite repeat_length; auto]. cbv zeta.
  match goal with |- run_len _ _ (rbind (together (map snd ?x)) _) => set (out := x) end.
  assert (Lg : length out = R) by (unfold out; rewrite green_len; auto). pose proof (together_len (map snd out)) as Hg. rewrite map_length, Lg in Hg.
  destruct (together (map snd out)); cbn [rbind run_len]; [|auto]. split; cbn; rewrite ?map_length; auto.
Qed.
Lemma RIXS_expl ord hg pm : explained (getRIXSmap fsqrt bicgstab fuel n hOp wIns wLoss d1 d2 rs ks swm tOpsIn tOpsOut psis es ord hg pm).
Proof.
  unfold getRIXSmap. cbv zeta. destruct pm.
  - apply expl_nd, Forall_map, Forall_forall. intros [r h] _. cbn [fst snd].
    pose proof (hb4_expl Serial (fun t i _ => ord t i r) [h]) as H. pose proof (hb4_len Serial (fun t i _ => ord t i r) [h]) as L.
    destruct (hb4_run _ _ _ _ _ _ _ _ _ _ _ _ _ _ _ _ _ _ _) as [st|le]; [destruct (h4_gs st); discriminate|].
    cbn in H, L. assert (L' : length le = 1%nat) by (apply L; discriminate). destruct le as [|x [|]]; try discriminate. cbn in *.
    intros Q. injection Q as ->. destruct H as (e & Hn & [Q|[]]); [left; reflexivity|]. congruence.
  - pose proof (hb4_expl HBuild ord hg) as H. destruct (hb4_run _ _ _ _ _ _ _ _ _ _ _ _ _ _ _ _ _ _ _); [apply Forall_Ok|eapply expl_Err, H].
  - pose proof (win_expl Serial ord hg) as H. destruct (win_run _ _ _ _ _ _ _ _ _ _ _ _ _ _ _ _ _ _ _); [apply Forall_Ok|eapply expl_Err, H].
  - pose proof (win_expl HBuild ord hg) as H. destruct (win_run _ _ _ _ _ _ _ _ _ _ _ _ _ _ _ _ _ _ _); [apply Forall_Ok|eapply expl_Err, H].
  - apply expl_nd, Forall_map, Forall_forall. discriminate.
Qed.
End R.
(* ---- eigensystem ---- *)
Section E.
Variable eigh : nat -> M_Hamiltonian.mat F -> res (list F * list (list (cx F))).
Variable eigsh : nat -> M_Hamiltonian.mat F -> Z -> res (list F * list (list (cx F))).
Variable argsort : list F -> list nat.
Hypothesis eigh_nd : forall N h, nd (eigh N h).
Hypothesis eigsh_nd : forall N h k, nd (eigsh N h k).
Lemma nd_map A B (f : A -> res B) l : (forall a, nd (f a)) -> nd (map_res f l).
Proof. intros H. induction l as [|a l IH]; cbn [map_res]; [discriminate|]. apply nd_bind; auto. intros b. apply nd_bind; auto. discriminate. Qed.
Lemma hmatrix_expl R mode n op b : explained (@get_hamiltonian_matrix F R mode n op b).
Proof.
  assert (T : forall j, exn (ham_triplets n op b j)) by (intros; apply exn_trip). unfold get_hamiltonian_matrix. destruct mode.
  - apply expl_repeat, exn_nd. unfold ham_dense_serial, h_column. ex. apply exn_applyOp.
  - apply expl_rmap, expl_bcast, expl_exn, Forall_map, Forall_forall. intros r _. unfold ham_hRank, h_column. ex. apply exn_applyOp.
  - apply expl_repeat, exn_nd, exn_rmap, T.
  - apply expl_rmap, expl_bcast, expl_exn, Forall_map, Forall_forall. intros r _. apply exn_bind; [apply exn_jobs|]. intros j. apply exn_rmap, T.
  - apply expl_repeat. discriminate.
Qed.
Lemma eigen_local_nd r h b k mode swm : nd (eigen_local eigh eigsh argsort r h b k mode swm).
Proof.
  unfold eigen_local. destruct (_ && _); [discriminate|]. apply nd_bind.
  - unfold diagonalize. destruct mode; [|  |discriminate].
    + apply nd_bind; [apply eigh_nd|]. intros [? ?]. discriminate.
    + apply nd_bind; [apply eigsh_nd|]. intros [es vecs]. cbv zeta. apply nd_bind; [apply nd_map; intros; apply exn_nd, exn_nth_res|]. intros es'.
      apply nd_bind; [apply nd_map; intros; apply exn_nd, exn_nth_res|]. discriminate.
  - intros [es vecs]. apply nd_bind; [|discriminate]. apply nd_map. intros vi. apply nd_bind; [apply exn_nd, exn_nth_res|]. intros col. apply exn_nd.
    unfold state_of_column. ex.
Qed.
Lemma eigensystem_expl R n op b k mode swm : explained (eigensystem eigh eigsh argsort R n op b k mode swm).
Proof.
  unfold eigensystem. pose proof (hmatrix_expl R SparseMPI n op b) as H. set (l := get_hamiltonian_matrix R SparseMPI n op b) in *. clearbody l.
  intros Hd. apply in_map_iff in Hd as ([r x] & Ed & Hi). cbn [fst snd] in Ed. destruct x as [h|e]; [destruct (eigen_local_nd _ _ _ _ _ _ Ed)|].
  cbn in Ed. injection Ed as ->. unfold enumerate in Hi. apply in_combine_r in Hi. destruct (H Hi) as (e & Hn & He). exists e. split; [exact Hn|].
  apply in_map_iff. assert (exists r, In (r, Err e) (enumerate l)) as (r' & Hr).
  { clear -He. unfold enumerate. generalize 0%nat. induction l as [|x l IH]; intros s; [destruct He|]. cbn. destruct He as [->|He]; [exists s; left; reflexivity|].
    destruct (IH He (S s)) as (r & Hr). exists r. right. exact Hr. }
  exists (r', Err e). auto.
Qed.
End E.
End A.
