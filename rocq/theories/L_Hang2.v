(* Collective operations: a rank waits for ever only if another rank has raised an exception. *)
From Verif Require Import M_Prelude M_Scalar M_PSR M_Ladder M_State M_Mpi M_Hamiltonian M_Lanczos M_Basis M_Average M_Expect M_Operators.
From Verif Require Import M_Spectra M_Simulate M_RIXS M_Main M_Program S_Program L_Hang L_Length.
Local Open Scope Z_scope.

Definition nd {A} (r : res A) : Prop := r <> Err Deadlock.
Lemma exn_nd A (r : res A) : exn r -> nd r. Proof. intros []; auto. Qed.
Lemma nd_bind A B (x : res A) (f : A -> res B) : nd x -> (forall a, nd (f a)) -> nd (bind x f).
Proof. destruct x as [a|e]; cbn; auto. intros H _ E. injection E as ->. apply H; reflexivity. Qed.
Lemma nd_rmap A B (f : A -> B) x : nd x -> nd (rmap f x).
Proof. destruct x as [a|e]; cbn; [discriminate|]. intros H E. injection E as ->. apply H; reflexivity. Qed.
Lemma nd_fold A S (f : S -> A -> res S) l : (forall s a, nd (f s a)) -> forall s, nd (fold_res f l s).
Proof. intros H. induction l as [|a l IH]; intros s; cbn [fold_res]; [discriminate|]. apply nd_bind; auto. Qed.

Definition wait {A B} (x : res A) : res B := match x with Ok _ => Err Deadlock | Err e => Err e end.
Lemma expl_nd A (l : list (res A)) : Forall nd l -> explained l.
Proof. intros H Hi. rewrite Forall_forall in H. destruct (H _ Hi). reflexivity. Qed.
Lemma expl_exn A (l : list (res A)) : Forall exn l -> explained l.
Proof. intros H. apply expl_nd. eapply Forall_impl; [|exact H]. intros r. apply exn_nd. Qed.
Lemma expl_nil A : explained (@nil (res A)). Proof. intros []. Qed.
Lemma expl_repeat A (r : res A) n : nd r -> explained (repeat r n).
Proof. intros H. apply expl_nd, Forall_forall. intros x Hx. apply repeat_spec in Hx as ->. exact H. Qed.
(* a step without communication *)
Lemma expl_map A B (f : res A -> res B) l : (forall e, f (Err e) = Err e) -> (forall a, In (Ok a) l -> nd (f (Ok a))) -> explained l -> explained (map f l).
Proof.
  intros He Ha H Hi. apply in_map_iff in Hi as (x & E & Hi). destruct x as [a|e]; [destruct (Ha a Hi); exact E|].
  rewrite He in E. injection E as ->. destruct (H Hi) as (e & Hn & Hi'). exists e. split; [exact Hn|]. apply in_map_iff. exists (Err e). auto.
Qed.
Lemma expl_bind A B (f : A -> res B) l : (forall a, nd (f a)) -> explained l -> explained (map (fun x => do a <- x; f a) l).
Proof. intros H. apply expl_map; auto. intros a _. apply H. Qed.
Lemma expl_rmap A B (f : A -> B) l : explained l -> explained (map (rmap f) l).
Proof. apply expl_map; [reflexivity|]. intros a _. discriminate. Qed.
Lemma not_all_ok A (l : list (res A)) : forallb is_ok l = false -> exists e, In (Err e) l.
Proof.
  induction l as [|[a|e] l IH]; cbn; [discriminate| |exists e; auto]. intros H. destruct (IH H) as (e & He). exists e. auto.
Qed.
Lemma expl_genuine A (l : list (res A)) e : explained l -> In (Err e) l -> exists e', e' <> Deadlock /\ In (Err e') l.
Proof. intros H Hi. destruct e; try (eexists; split; [|exact Hi]; discriminate). auto. Qed.
Lemma expl_wait A B (l : list (res A)) : explained l -> forallb is_ok l = false -> explained (map (@wait A B) l).
Proof.
  intros H Hk _. apply not_all_ok in Hk as (e & Hi). destruct (expl_genuine _ _ _ H Hi) as (e' & Hn & Hi').
  exists e'. split; [exact Hn|]. apply in_map_iff. exists (Err e'). auto.
Qed.
Lemma expl_stopped A (l : list (res A)) : explained l -> forallb is_ok l = false -> explained (stopped l).
Proof. apply expl_wait. Qed.
Lemma oks_map A (l : list (res A)) : forallb is_ok l = true -> l = map Ok (oks l).
Proof. induction l as [|[a|e] l IH]; cbn; [auto|intros H; f_equal; apply IH, H|discriminate]. Qed.
Lemma map_snd_combine A B (a : list A) (b : list B) : length a = length b -> map snd (combine a b) = b.
Proof. revert b. induction a as [|x a IH]; intros [|y b]; cbn; try discriminate; auto. intros H. injection H as H. f_equal. auto. Qed.
Lemma Forall_Ok A (l : list A) : explained (map Ok l).
Proof. intros H. apply in_map_iff in H as (x & E & _). discriminate. Qed.
Lemma expl_bcast A (l : list (res A)) : explained l -> explained (bcast_all l).
Proof.
  intros H. unfold bcast_all. destruct (forallb is_ok l) eqn:E.
  - intros Hi. apply in_map_iff in Hi as (x & Ex & _). discriminate.
  - apply (expl_wait _ (list A)); auto.
Qed.
(* an outcome of a collective step *)
Definition rexpl {A} (x : run A) : Prop := match x with Run _ => True | Stop l => explained (map (@Err unit) l) end.
Lemma expl_Err A B (l : list exc) : explained (map (@Err A) l) -> explained (map (@Err B) l).
Proof.
  intros H Hi. apply in_map_iff in Hi as (x & E & Hi). injection E as ->.
  destruct (H (in_map Err _ _ Hi)) as (e & Hn & Hi'). exists e. split; [exact Hn|].
  apply in_map_iff in Hi' as (y & E & Hi'). injection E as ->. apply (in_map Err _ _ Hi').
Qed.
Lemma rexpl_bind A B (x : run A) (f : A -> run B) : rexpl x -> (forall a, x = Run a -> rexpl (f a)) -> rexpl (rbind x f).
Proof. destruct x; cbn; auto. Qed.
Lemma rexpl_fold A S (P : S -> Prop) (f : S -> A -> run S) l :
  (forall s a, P s -> rexpl (f s a) /\ forall s', f s a = Run s' -> P s') -> forall s, P s -> rexpl (fold_run f l s) /\ forall s', fold_run f l s = Run s' -> P s'.
Proof.
  intros H. induction l as [|a l IH]; intros s Hs; cbn [fold_run].
  - split; [exact I|]. intros s' E. injection E as <-. exact Hs.
  - destruct (H s a Hs) as [H1 H2]. destruct (f s a) as [s1|es]; cbn [rbind]; [apply IH; auto|]. split; [exact H1|discriminate].
Qed.
Lemma rexpl_all A n (x : res A) : nd x -> rexpl (all_ranks n x).
Proof.
  destruct x as [a|e]; cbn; [auto|]. intros H Hi. apply in_map_iff in Hi as (y & E & Hy). apply repeat_spec in Hy as ->. injection E as ->. destruct H. reflexivity.
Qed.
Lemma rexpl_together A (l : list (res A)) : explained l -> rexpl (together l).
Proof.
  intros H. unfold together. destruct (forallb is_ok l) eqn:E; [exact I|]. cbn [rexpl]. rewrite map_map.
  pose proof (expl_wait A unit l H E) as W. erewrite map_ext; [exact W|]. intros [a|e]; reflexivity.
Qed.

Section A.
Context {F : ofield}.
Variable fsqrt : F -> F.
Implicit Types op : op_t F.

(* ---- expand_basis ---- *)
(* the ranks have the same basis and have processed the same part of it *)
Definition level (b : list pybytes) (i : nat) (s : @rank_state F) : Prop := rs_basis s = b /\ rs_i s = i.
(* all ranks return the same basis, or some rank raises and waiting ranks are explained *)
Definition agreed {X} (l : list (res (X * list pybytes))) : Prop :=
  (exists b, Forall (fun r => exists x, r = Ok (x, b)) l) \/ explained l /\ exists e, In (Err e) l.
Lemma busy_level b i states : Forall (level b i) states ->
  map (fun s : @rank_state F => Nat.ltb (rs_i s) (length (rs_basis s))) states = map (fun _ => Nat.ltb i (length b)) states.
Proof. intros H. apply map_ext_in. intros s Hs. rewrite Forall_forall in H. destruct (H s Hs) as [-> ->]. reflexivity. Qed.
Lemma forallb_const A (c : bool) (l : list A) : forallb (fun b : bool => b) (map (fun _ => c) l) = match l with [] => true | _ => c end.
Proof. induction l as [|a l IH]; cbn; auto. rewrite IH. destruct l, c; reflexivity. Qed.
Lemma forallb_constn A (c : bool) (l : list A) : forallb negb (map (fun _ => c) l) = match l with [] => true | _ => negb c end.
Proof. induction l as [|a l IH]; cbn; auto. rewrite IH. destruct l, c; reflexivity. Qed.
Lemma expand_agreed n op rs ord fuel : forall b i states, Forall (level b i) states -> agreed (expand_hbuild fuel n op rs ord states).
Proof.
  induction fuel as [|fuel IH]; intros b i states H; cbn [expand_hbuild]; cbv zeta; rewrite (busy_level b i) by exact H; rewrite forallb_constn, forallb_const.
  - destruct states as [|s0 rest]; [left; exists b; constructor|]. destruct (Nat.ltb i (length b)); cbn [negb].
    + right. split; [|exists OutOfFuel; left; reflexivity]. apply expl_nd. apply Forall_map, Forall_forall. discriminate.
    + left. exists b. apply Forall_map. eapply Forall_impl; [|exact H]. intros s [<- _]. eauto.
  - destruct states as [|s0 rest]; [left; exists b; constructor|]. destruct (Nat.ltb i (length b)); cbn [negb].
    + set (states := s0 :: rest) in *. set (locals := map _ (enumerate states)).
      assert (HL : Forall exn locals).
      { apply Forall_map, Forall_forall. intros [r s] _. cbn. apply exn_bind; [apply exn_newA|]. intros bn. apply exn_do_jobs. }
      destruct (forallb is_ok locals) eqn:E.
      * match goal with |- agreed (expand_hbuild _ _ _ _ _ (map ?f ?c)) => apply (IH (b ++ py_sorted (fold_left (fun acc l => set_update acc (snd l)) (oks locals) [])) (length b)); apply Forall_map, Forall_forall end.
        intros [s l] Hi. apply in_combine_l in Hi. rewrite Forall_forall in H. destruct (H s Hi) as [Hb Hn]. cbn. split; cbn; rewrite Hb; reflexivity.
      * right. apply expl_exn in HL. split.
        -- apply (expl_wait _ (hdict_t F * list pybytes)); auto.
        -- apply not_all_ok in E as (e & He). exists e. apply in_map_iff. exists (Err e). auto.
    + left. exists b. apply Forall_map. eapply Forall_impl; [|exact H]. intros s [<- _]. eauto.
Qed.
Lemma agreed_snd {X} (l : list (res (X * list pybytes))) : agreed l -> explained (map (rmap snd) l).
Proof.
  intros [[b H]|[H _]]; [|apply expl_rmap, H]. apply expl_nd, Forall_map. eapply Forall_impl; [|exact H]. intros r (x & ->). discriminate.
Qed.
Lemma serial_pass_nd n op rs b : forall todo h bn, nd (snd (serial_pass n op rs b todo h bn)).
Proof.
  induction todo as [|x todo IH]; intros h bn; cbn [serial_pass]; [discriminate|]. destruct (dget h x); [apply IH|].
  pose proof (exn_column n op rs x) as Hc. destruct (r_column n op rs x); [apply IH|]. cbn [snd]. intros Q. injection Q as ->. destruct Hc. auto.
Qed.
Lemma expand_serial_nd n op rs fuel : forall b i h, nd (snd (expand_serial fuel n op rs b i h)).
Proof.
  induction fuel as [|fuel IH]; intros b i h; cbn [expand_serial]; destruct (Nat.ltb i (length b)); try discriminate.
  pose proof (serial_pass_nd n op rs b (skipn i b) h []) as H. destruct (serial_pass _ _ _ _ _ _ _) as [h' [bn|e]]; cbn [snd] in *; [apply IH|]. intros Q. injection Q as ->. auto.
Qed.
Lemma from_h_expl ord hs basis pm rl mode : explained (@get_hamiltonian_matrix_from_h_dict F ord hs basis pm rl mode).
Proof.
  unfold get_hamiltonian_matrix_from_h_dict. cbv zeta.
  assert (L : explained (map (fun rh => from_h_dict_local (ord (fst rh)) (snd rh) basis) (enumerate hs))).
  { apply expl_exn, Forall_map, Forall_forall. intros rh _. apply exn_local. }
  assert (K : forall e : exc, e <> Deadlock -> explained (map (fun _ : hdict_t F => @Err (M_Hamiltonian.mat F * dict pybytes nat) e) hs)).
  { intros e He. apply expl_nd, Forall_map, Forall_forall. intros h _ E. injection E as ->. auto. }
  destruct mode, pm, rl; try (apply K; discriminate).
  - apply expl_exn, Forall_map, Forall_forall. intros h _. apply exn_rmap. unfold from_h_dict_dense. ex.
  - apply expl_exn, Forall_map, Forall_forall. intros h _. apply exn_rmap. apply exn_sparse.
  - apply expl_rmap, L.
  - apply expl_rmap, expl_bcast, L.
Qed.
Lemma from_h_nd ord (h : hdict_t F) basis pm rl mode : pm <> HBuild -> nd (hd (Err GenericException) (get_hamiltonian_matrix_from_h_dict ord [h] basis pm rl mode)).
Proof.
  intros Hp. unfold get_hamiltonian_matrix_from_h_dict. cbv zeta. destruct pm; [|destruct Hp; reflexivity|]; destruct mode, rl; cbn [map hd]; try discriminate.
  - apply exn_nd, exn_rmap. unfold from_h_dict_dense. ex.
  - apply exn_nd, exn_rmap, exn_sparse.
Qed.
Lemma hbuild_agreed fuel n op rs ord b0 (hs : list (hdict_t F)) :
  agreed (map (fun x => rmap (fun b => (tt, b)) (snd x)) (expand_basis fuel n op rs ord HBuild b0 hs)).
Proof.
  unfold expand_basis. rewrite map_map. set (st := map (fun h => mkRS b0 0 h []) hs).
  pose proof (hbuild_len fuel n op rs ord st) as L. pose proof (expand_agreed n op rs ord fuel b0 0%nat st) as G.
  assert (Forall (level b0 0) st) as H by (apply Forall_map, Forall_forall; intros h _; split; reflexivity). specialize (G H).
  set (out := expand_hbuild fuel n op rs ord st) in *.
  replace (map _ (combine hs out)) with (map (rmap (fun hb : hdict_t F * list pybytes => (tt, snd hb))) out).
  - destruct G as [[b G]|[G1 [e G2]]].
    + left. exists b. apply Forall_map. eapply Forall_impl; [|exact G]. intros r (x & ->). exists tt. reflexivity.
    + right. split; [apply expl_rmap, G1|]. exists e. apply in_map_iff. exists (Err e). auto.
  - assert (Q : length hs = length out) by (rewrite L; unfold st; rewrite map_length; reflexivity). clearbody out. clear -Q. revert hs Q.
    induction out as [|r out IH]; intros [|h hs] Q; cbn in *; try discriminate; auto. injection Q as Q. f_equal; [destruct r as [[? ?]|]; reflexivity|apply IH, Q].
Qed.
Lemma ebh_expl fuel n op rs ord pm rl b0 (hs : list (hdict_t F)) : explained (map snd (expand_basis_and_hamiltonian fuel n op rs ord pm rl b0 hs)).
Proof.
  unfold expand_basis_and_hamiltonian. cbv zeta. destruct pm.
  - rewrite map_map. cbn [snd]. apply expl_nd, Forall_map, Forall_forall. intros [h r] Hi. cbn [fst snd]. apply nd_bind.
    + unfold expand_basis in Hi. apply in_map_iff in Hi as (h' & E & _). replace r with (snd (h, r)) by reflexivity. rewrite <- E. apply expand_serial_nd.
    + intros b. apply from_h_nd. discriminate.
  - pose proof (hbuild_agreed fuel n op rs ord b0 hs) as G. set (eb := expand_basis fuel n op rs ord HBuild b0 hs) in *.
    assert (W : (exists e, In (Err e) (map snd eb)) -> explained (map snd eb) ->
      explained (map snd (map (fun x : hdict_t F * res (list pybytes) => (fst x, match snd x with Ok _ => @Err (M_Hamiltonian.mat F * dict pybytes nat) Deadlock | Err e => Err e end)) eb))).
    { intros [e He] Hx. rewrite map_map. cbn [snd]. pose proof (expl_wait _ (M_Hamiltonian.mat F * dict pybytes nat) (map snd eb) Hx) as W. rewrite map_map in W. apply W.
      destruct (forallb is_ok (map snd eb)) eqn:Q; [|reflexivity]. rewrite forallb_forall in Q. specialize (Q _ He). discriminate. }
    assert (G' : (exists b, Forall (fun x => snd x = Ok b) eb) \/ explained (map snd eb) /\ exists e, In (Err e) (map snd eb)).
    { destruct G as [[b G]|[G1 [e G2]]].
      - left. exists b. rewrite Forall_map in G. eapply Forall_impl; [|exact G]. intros [h [c|e]] (x & E); cbn in *; [|discriminate]. injection E as _ ->. reflexivity.
      - right. split.
        + intros Hd. destruct G1 as (e' & Hn & Hi).
          * apply in_map_iff in Hd as (x & Ex & Hx). apply in_map_iff. exists x. rewrite Ex. auto.
          * exists e'. split; [exact Hn|]. apply in_map_iff in Hi as (x & Ex & Hx). apply in_map_iff. exists x. split; [|exact Hx]. destruct (snd x); [discriminate|]. cbn in Ex. injection Ex as ->. reflexivity.
        + exists e. apply in_map_iff in G2 as (x & Ex & Hx). apply in_map_iff. exists x. split; [|exact Hx]. destruct (snd x); [discriminate|]. cbn in Ex. injection Ex as ->. reflexivity. }
    destruct G' as [[b Gb]|[G1 G2]].
    + destruct eb as [|[h [c|e]] eb'] eqn:Eeb; [apply expl_nil| |inversion Gb; discriminate].
      rewrite <- Eeb in *. assert (c = b) as -> by (rewrite Eeb in Gb; inversion Gb as [|? ? Q]; cbn in Q; congruence).
      replace (forallb _ _) with true.
      * rewrite map_snd_combine; [apply from_h_expl|]. rewrite from_h_len, !map_length. reflexivity.
      * symmetry. apply forallb_forall. intros x Hx. rewrite Forall_forall in Gb. rewrite (Gb x Hx). destruct (eqb_spec b b); congruence.
    + specialize (W G2 G1). destruct eb as [|[h [c|e]] eb'] eqn:Eeb; try exact W. rewrite <- Eeb in *.
      replace (forallb _ _) with false; [exact W|]. symmetry. apply not_true_is_false. intros Q. rewrite forallb_forall in Q.
      destruct G2 as [e He]. apply in_map_iff in He as (x & Ex & Hx). specialize (Q x Hx). rewrite Ex in Q. discriminate.
  - rewrite map_map. cbn [snd]. apply expl_nd, Forall_map, Forall_forall. intros [h r] Hi. cbn [fst snd]. apply nd_bind.
    + unfold expand_basis in Hi. apply in_map_iff in Hi as (h' & E & _). injection E as _ <-. discriminate.
    + intros b. apply from_h_nd. discriminate.
Qed.
End A.
