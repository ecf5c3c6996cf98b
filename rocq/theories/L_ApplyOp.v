(* applyOp: all four branches refined to matrix elements in Fock space. *)
From Coq Require Import Permutation Ring Field Sorted.
From Verif Require Import M_Prelude M_Scalar M_PSR M_Ladder M_State S_Occ S_Routes S_Fock.
From Verif Require Import L_Scalar L_Sum L_Dict L_PSR L_PSR2 L_Ladder L_Ladder2 L_Fock L_State.
Local Open Scope Z_scope.

Ltac rwbind E := match type of E with _ = ?b =>
  match goal with |- context [bind ?e _] => replace e with b by exact (eq_sym E) end end; cbn [bind].

(* ---- restrictions ---- *)
Lemma StronglySorted_lt_NoDup (l : list Z) : StronglySorted Z.lt l -> NoDup l.
Proof.
  induction 1 as [|a l Hs IH Hf]; constructor; auto.
  intros Hi. rewrite Forall_forall in Hf. apply Hf in Hi. lia.
Qed.
Lemma occupied_btuple c k : occupied c k = true <-> In k (btuple c).
Proof.
  unfold occupied. rewrite btuple_In, andb_true_iff, Z.leb_le. split.
  - intros [Hk Hn]. exists (Z.to_nat k). destruct (lt_dec (Z.to_nat k) (length c)) as [Hl|Hl].
    + repeat split; auto. lia.
    + rewrite nth_overflow in Hn by lia. discriminate.
  - intros (j & Hj & -> & Hn). rewrite Nat2Z.id. split; auto. lia.
Qed.
Lemma occupation_count r c : NoDup r ->
  occupation r (bitarray2tuple c) = Z.of_nat (length (filter (occupied c) r)).
Proof.
  intros Hr. unfold occupation. rewrite c_bitarray2tuple. f_equal. apply Permutation_length.
  apply NoDup_Permutation.
  - apply NoDup_filter, StronglySorted_lt_NoDup, btuple_sorted.
  - apply NoDup_filter; auto.
  - intros k. rewrite !filter_In, inb_In, occupied_btuple. tauto.
Qed.
Definition okr (rs : option restrictions_t) (c : config) : bool :=
  match rs with None => true | Some r => restrictions_ok r (bitarray2tuple c) end.
Lemma okr_allowed rs c : wf_restr rs -> okr rs c = true <-> allowed_opt rs c.
Proof.
  destruct rs as [rs|]; simpl; [|tauto]. intros Hwf. unfold restrictions_ok, allowed.
  rewrite forallb_forall, Forall_forall. rewrite Forall_forall in Hwf.
  split; intros H r Hr; specialize (H r Hr); specialize (Hwf r Hr).
  - cbv zeta in H. rewrite occupation_count in H by auto.
    apply negb_true_iff, orb_false_iff in H as [H1 H2].
    apply Z.ltb_ge in H1, H2. lia.
  - cbv zeta. rewrite occupation_count by auto.
    apply negb_true_iff, orb_false_iff. split; apply Z.ltb_ge; lia.
Qed.

Section Ap.
Context {F : ofield}.
Add Field Ff : (f_field F).
Add Ring Cring : (@c_ring F).
Implicit Types psi phi : psi_t F.
Implicit Types op : op_t F.

Lemma cutoff_filter swm psi : NoDup (dkeys psi) ->
  cutoff swm psi = filter (fun ka => negb (cabs2 (snd ka) <? swm)%F) psi.
Proof. intros Hn. unfold cutoff. apply (pop_loop_filter0 (fun ka => (cabs2 (snd ka) <? swm)%F)); auto. Qed.
Lemma dget_cutoff swm psi k : NoDup (dkeys psi) ->
  dget (cutoff swm psi) k =
  match dget psi k with Some v => if (cabs2 v <? swm)%F then None else Some v | None => None end.
Proof.
  intros Hn. rewrite cutoff_filter by auto. rewrite dget_filter by auto.
  destruct (dget psi k); auto. cbn [snd]. destruct (cabs2 c <? swm)%F; reflexivity.
Qed.
Lemma NoDup_cutoff swm psi : NoDup (dkeys psi) -> NoDup (dkeys (cutoff swm psi)).
Proof. intros Hn. rewrite cutoff_filter by auto. apply NoDup_filter_keys; auto. Qed.
Lemma valid_cutoff n swm psi : valid_psi n psi -> valid_psi n (cutoff swm psi).
Proof.
  intros [Hn Hv]. split; [apply NoDup_cutoff; auto|]. intros k Hk. apply Hv.
  rewrite cutoff_filter in Hk by auto. unfold dkeys in *. apply in_map_iff in Hk as (x & <- & Hx).
  apply filter_In in Hx as [Hx _]. apply in_map; auto.
Qed.

(* contributions of one configuration *)
Definition contribs op (c : config) : list (config * cx F) :=
  flat_map (fun ph => match proc_act (fst ph) c with
                      | Some (d, s) => [(d, snd ph * cofZ s)%C]
                      | None => []
                      end) op.
Definition kc (l : list (config * cx F)) : list (pybytes * cx F) := map (fun dv => (key (fst dv), snd dv)) l.
Definition scale (a : cx F) (l : list (config * cx F)) : list (config * cx F) :=
  map (fun dv => (fst dv, a * snd dv)%C) l.
Definition okf rs (l : list (config * cx F)) := filter (fun dv => okr rs (fst dv)) l.

Lemma kc_app l m : kc (l ++ m) = kc l ++ kc m.
Proof. apply map_app. Qed.
Lemma scale_app a l m : scale a (l ++ m) = scale a l ++ scale a m.
Proof. apply map_app. Qed.
Lemma filter_app' {A} (p : A -> bool) l m : filter p (l ++ m) = filter p l ++ filter p m.
Proof. induction l; simpl; auto. destruct (p a); simpl; congruence. Qed.
Lemma okf_app rs l m : okf rs (l ++ m) = okf rs l ++ okf rs m.
Proof. apply filter_app'. Qed.

Lemma contribs_length n op c d v : length c = n -> In (d, v) (contribs op c) -> length d = n.
Proof.
  intros Hc Hi. unfold contribs in Hi. apply in_flat_map in Hi as ([p h] & _ & Hi). simpl in Hi.
  destruct (proc_act p c) as [[d' s]|] eqn:E; [|destruct Hi].
  destruct Hi as [[= <- <-]|[]]. apply proc_act_length in E. congruence.
Qed.

Lemma ksum_kc n (l : list (config * cx F)) t : length t = n -> (forall d v, In (d, v) l -> length d = n) ->
  ksum (kc l) (key t) = csum (fun dv => if list_eqb t (fst dv) then snd dv else c0) l.
Proof.
  intros Ht Hl. unfold ksum, kc. rewrite csum_map. apply csum_ext. intros [d v] Hi. cbn [fst snd].
  specialize (Hl d v Hi). destruct (eqb_spec (key t) (key d)) as [E|E], (list_eqb_spec t d) as [E'|E']; auto.
  - exfalso. apply E'. apply key_inj; congruence.
  - congruence.
Qed.
Lemma csum_contribs op t c :
  csum (fun dv => if list_eqb t (fst dv) then snd dv else c0) (contribs op c) = opelem op t c.
Proof.
  unfold contribs, opelem. rewrite csum_flat_map. apply csum_ext. intros [p h] _. cbn [fst snd].
  unfold pelem. destruct (proc_act p c) as [[d s]|]; cbn [csum fst snd].
  - destruct (list_eqb t d); [ring|rewrite cofZ_0; ring].
  - rewrite cofZ_0. ring.
Qed.
Lemma csum_okf rs t (l : list (config * cx F)) :
  csum (fun dv => if list_eqb t (fst dv) then snd dv else c0) (okf rs l) =
  if okr rs t then csum (fun dv => if list_eqb t (fst dv) then snd dv else c0) l else c0.
Proof.
  unfold okf. rewrite csum_filter. destruct (okr rs t) eqn:E.
  - apply csum_ext. intros [d v] _. cbn [fst snd]. destruct (list_eqb_spec t d) as [<-|].
    + rewrite E. auto.
    + destruct (okr rs d); auto.
  - apply csum_zero. intros [d v] _. cbn [fst snd]. destruct (list_eqb_spec t d) as [<-|].
    + rewrite E. auto.
    + destruct (okr rs d); auto.
Qed.
Lemma in_okf rs d v l : In (d, v) (okf rs l) <-> In (d, v) l /\ okr rs d = true.
Proof. unfold okf. rewrite filter_In. reflexivity. Qed.
Lemma in_scale a d v l : In (d, v) (scale a l) -> exists w, In (d, w) l.
Proof. unfold scale. rewrite in_map_iff. intros ([d' w] & E & Hi). injection E as <- <-. eauto. Qed.

Lemma wf_op_in n op p h : wf_op n op -> In (p, h) op -> Forall (wf_ladder n) p.
Proof. intros [_ Hw] Hi. rewrite Forall_forall in Hw. apply (Hw _ Hi). Qed.
Definition wfl n (l : list (process * cx F)) := Forall (fun ph => Forall (wf_ladder n) (fst ph)) l.

Lemma proc_loop_wf n p c sign : Forall (wf_ladder n) p -> length c = n ->
  exists sign', proc_loop (rev p) c 1 sign = Ok (sign', proc_act p c).
Proof.
  intros Hp Hc. destruct (proc_loop_correct n (rev p) c 1 sign) as [sg E]; auto.
  - apply Forall_rev; auto.
  - exists sg. rewrite E, rev_involutive. f_equal. f_equal.
    destruct (proc_act p c) as [[d s]|]; auto. f_equal. f_equal. lia.
Qed.

(* keys of psi are allowed configurations of n orbitals *)
Definition okkeys n rs psi := forall k, In k (dkeys psi) -> exists d, length d = n /\ k = key d /\ okr rs d = true.

Lemma contribs_cons p h op c : contribs ((p, h) :: op) c =
  match proc_act p c with Some (d, s) => [(d, h * cofZ s)%C] | None => [] end ++ contribs op c.
Proof. reflexivity. Qed.

Lemma dget_okkeys_none n rs psi d : okkeys n rs psi -> length d = n -> okr rs d = false -> dget psi (key d) = None.
Proof.
  intros Hk Hd Ho. apply dget_None. intros Hi. destruct (Hk _ Hi) as (d' & Hd' & E & Ho').
  assert (d = d') by (apply key_inj; congruence). subst. congruence.
Qed.

Lemma okkeys_dadd n rs psi d v : okkeys n rs psi -> length d = n -> okr rs d = true -> okkeys n rs (dadd psi (key d) v).
Proof.
  intros Hk Hd Ho k Hi. unfold dadd in Hi.
  assert (Hi' : k = key d \/ In k (dkeys psi)).
  { destruct (dget psi (key d)); apply in_dkeys_dset in Hi; auto. }
  destruct Hi' as [->|Hi']; eauto.
Qed.
Lemma okkeys_foldadd n rs l : forall psi, okkeys n rs psi ->
  (forall d v, In (d, v) l -> length d = n /\ okr rs d = true) -> okkeys n rs (foldadd (kc l) psi).
Proof.
  induction l as [|[d v] l IH]; intros psi Hk Hl; auto.
  change (foldadd (kc ((d, v) :: l)) psi) with (foldadd (kc l) (dadd psi (key d) v)).
  destruct (Hl d v (or_introl eq_refl)) as [Hd Ho]. apply IH.
  - apply okkeys_dadd; auto.
  - intros d' v' Hi. apply (Hl d' v'). right; auto.
Qed.
Lemma okkeys_nil n rs : okkeys n rs [].
Proof. intros k []. Qed.
Lemma okf_contribs_ok n rs op c a : length c = n -> forall d v, In (d, v) (scale a (okf rs (contribs op c))) ->
  length d = n /\ okr rs d = true.
Proof.
  intros Hc d v Hi. apply in_scale in Hi as [w Hi]. apply in_okf in Hi as [Hi Ho].
  split; auto. eapply contribs_length; eauto.
Qed.

(* ---- inner loop without cache ---- *)
Definition body_plain (a : cx F) (bits : bitarray) (st : psi_t F * option Z) (ph : process * cx F) :=
  let '(psiNew, sign) := st in
  do (sign', out) <- proc_loop (rev (fst ph)) bits 1 sign;
  match out with
  | None => Ok (psiNew, sign')
  | Some (state_new, signTot) =>
      Ok (dadd psiNew (bitarray2bytes state_new) (a * snd ph * cofZ signTot)%C, sign')
  end.
Definition body_restr rs (a : cx F) (bits : bitarray) (st : psi_t F * option Z) (ph : process * cx F) :=
  let '(psiNew, sign) := st in
  do (sign', out) <- proc_loop (rev (fst ph)) bits 1 sign;
  match out with
  | None => Ok (psiNew, sign')
  | Some (state_new, signTot) =>
      let stateB := bitarray2bytes state_new in
      let v := (a * snd ph * cofZ signTot)%C in
      match dget psiNew stateB with
      | Some w => Ok (dset psiNew stateB (w + v)%C, sign')
      | None => if restrictions_ok rs (bitarray2tuple state_new)
                then Ok (dset psiNew stateB v, sign') else Ok (psiNew, sign')
      end
  end.
Definition body_any rs a bits := match rs with Some r => body_restr r a bits | None => body_plain a bits end.

Lemma body_any_step n rs a c p h psiNew sign : Forall (wf_ladder n) p -> length c = n -> okkeys n rs psiNew ->
  exists sign', body_any rs a c (psiNew, sign) (p, h) =
    Ok (foldadd (kc (scale a (okf rs (contribs [(p, h)] c)))) psiNew, sign').
Proof.
  intros Hp Hc Hk. destruct (proc_loop_wf n p c sign Hp Hc) as [sg E].
  destruct rs as [rs|]; simpl body_any; unfold body_restr, body_plain; cbn [fst snd];
    rewrite E; cbn [bind]; rewrite contribs_cons; cbn [contribs flat_map]; rewrite app_nil_r.
  - destruct (proc_act p c) as [[d s]|] eqn:Ea; [|exists sg; reflexivity]. exists sg.
    pose proof (proc_act_length _ _ _ _ Ea) as Hd.
    unfold okf. cbn [filter fst]. simpl okr.
    fold (key d). destruct (restrictions_ok rs (bitarray2tuple d)) eqn:Eo.
    + cbn [scale map fst snd kc foldadd fold_left]. unfold dadd.
      replace (a * (h * cofZ s))%C with (a * h * cofZ s)%C by ring.
      destruct (dget psiNew (key d)); reflexivity.
    + rewrite (dget_okkeys_none n (Some rs)) by (auto; congruence). reflexivity.
  - destruct (proc_act p c) as [[d s]|] eqn:Ea; [|exists sg; reflexivity]. exists sg.
    cbn [okf filter fst okr scale map snd kc foldadd fold_left].
    replace (a * (h * cofZ s))%C with (a * h * cofZ s)%C by ring. reflexivity.
Qed.
Lemma body_any_loop n rs a c : length c = n -> forall op psiNew sign, wfl n op -> okkeys n rs psiNew ->
  exists sign', fold_res (body_any rs a c) op (psiNew, sign) =
    Ok (foldadd (kc (scale a (okf rs (contribs op c)))) psiNew, sign').
Proof.
  intros Hc. induction op as [|[p h] op IH]; intros psiNew sign Hw Hk.
  - exists sign. reflexivity.
  - apply Forall_cons_iff in Hw as [Hp Hw]. cbn [fold_res].
    destruct (body_any_step n rs a c p h psiNew sign Hp Hc Hk) as [sg E]. rwbind E.
    destruct (IH (foldadd (kc (scale a (okf rs (contribs [(p, h)] c)))) psiNew) sg Hw) as [sg' E'].
    { apply okkeys_foldadd; auto. apply okf_contribs_ok; auto. }
    exists sg'. etransitivity; [exact E'|]. f_equal. f_equal.
    rewrite <- foldadd_app, <- kc_app, <- scale_app, <- okf_app. rewrite !contribs_cons.
    cbn [contribs flat_map]. rewrite app_nil_r. reflexivity.
Qed.

(* all contributions of psi *)
Definition all_contribs n rs op psi : list (config * cx F) :=
  flat_map (fun ka => scale (snd ka) (okf rs (contribs op (bytes2bitarray (fst ka) (Z.of_nat n))))) psi.

Lemma valid_key_bits n k : valid_key n k -> length (bytes2bitarray k (Z.of_nat n)) = n /\
  key (bytes2bitarray k (Z.of_nat n)) = k.
Proof. intros (c & <- & ->). rewrite key_bits. auto. Qed.

Lemma outer_loop n rs op : wfl n op -> forall psi psiNew sign, (forall k, In k (dkeys psi) -> valid_key n k) ->
  okkeys n rs psiNew ->
  exists sign', fold_res (fun st sa => fold_res (body_any rs (snd sa) (bytes2bitarray (fst sa) (Z.of_nat n))) op st)
      psi (psiNew, sign) = Ok (foldadd (kc (all_contribs n rs op psi)) psiNew, sign').
Proof.
  intros Hw. induction psi as [|[k a] psi IH]; intros psiNew sign Hv Hk.
  - exists sign. reflexivity.
  - destruct (valid_key_bits n k) as [Hc _]; [apply Hv; left; auto|].
    cbn [fold_res fst snd].
    destruct (body_any_loop n rs a _ Hc op psiNew sign Hw Hk) as [sg E]. rwbind E.
    destruct (IH (foldadd (kc (scale a (okf rs (contribs op (bytes2bitarray k (Z.of_nat n)))))) psiNew) sg) as [sg' E'].
    { intros k' Hk'. apply Hv. right; auto. }
    { apply okkeys_foldadd; auto. apply okf_contribs_ok; auto. }
    exists sg'. etransitivity; [exact E'|]. f_equal. f_equal. unfold all_contribs. cbn [flat_map fst snd].
    rewrite kc_app, foldadd_app. reflexivity.
Qed.

Lemma applyOp_uncached n op psi swm rs : wfl n op -> (forall k, In k (dkeys psi) -> valid_key n k) ->
  applyOp (Z.of_nat n) op psi swm rs None =
  (None, Ok (cutoff swm (foldadd (kc (all_contribs n rs op psi)) []))).
Proof.
  intros Hw Hv. destruct (outer_loop n rs op Hw psi [] None Hv (okkeys_nil n rs)) as [sg E].
  unfold applyOp. f_equal. destruct rs as [rs|]; unfold applyOp_restr, applyOp_plain.
  - match goal with |- rmap _ (bind ?e _) = _ =>
      replace e with (fold_res (fun st sa => fold_res (body_any (Some rs) (snd sa) (bytes2bitarray (fst sa) (Z.of_nat n))) op st)
        psi ([], None)) by reflexivity end.
    rwbind E. reflexivity.
  - match goal with |- rmap _ (bind ?e _) = _ =>
      replace e with (fold_res (fun st sa => fold_res (body_any None (snd sa) (bytes2bitarray (fst sa) (Z.of_nat n))) op st)
        psi ([], None)) by reflexivity end.
    rwbind E. reflexivity.
Qed.

Lemma all_contribs_length n rs op psi : (forall k, In k (dkeys psi) -> valid_key n k) ->
  forall d v, In (d, v) (all_contribs n rs op psi) -> length d = n /\ okr rs d = true.
Proof.
  intros Hv d v Hi. unfold all_contribs in Hi. apply in_flat_map in Hi as ([k a] & Hk & Hi).
  apply okf_contribs_ok with (n := n) in Hi; auto. apply valid_key_bits. apply Hv.
  apply (in_map fst) in Hk. exact Hk.
Qed.

Lemma csum_scale t a (l : list (config * cx F)) :
  csum (fun dv => if list_eqb t (fst dv) then snd dv else c0) (scale a l) =
  (a * csum (fun dv => if list_eqb t (fst dv) then snd dv else c0) l)%C.
Proof.
  unfold scale. rewrite csum_map, <- csum_mul_l. apply csum_ext. intros [d v] _. cbn [fst snd].
  destruct (list_eqb t d); ring.
Qed.

Lemma ksum_all n rs op psi t : valid_psi n psi -> length t = n ->
  ksum (kc (all_contribs n rs op psi)) (key t) = if okr rs t then op_vec n op psi t else c0.
Proof.
  intros Hv Ht. rewrite (ksum_kc n); [|auto|intros d v Hi; apply (all_contribs_length n rs op psi (proj2 Hv) d v Hi)].
  unfold all_contribs. rewrite csum_flat_map.
  transitivity (csum (fun ka => (if okr rs t then opelem op t (bytes2bitarray (fst ka) (Z.of_nat n)) else c0) * snd ka)%C psi).
  - apply csum_ext. intros [k a] _. cbn [fst snd]. rewrite csum_scale, csum_okf, csum_contribs.
    destruct (okr rs t); ring.
  - rewrite (csum_psi n psi (fun k => if okr rs t then opelem op t (bytes2bitarray k (Z.of_nat n)) else c0) Hv).
    destruct (okr rs t).
    + apply csum_ext. intros s Hs. apply allcfg_In in Hs. rewrite <- Hs at 1. rewrite key_bits. auto.
    + apply csum_zero. intros; ring.
Qed.

(* Result of the uncached call. *)
Theorem applyOp_spec n op psi swm rs : wf_op n op -> valid_psi n psi ->
  exists psi', applyOp (Z.of_nat n) op psi swm rs None = (None, Ok psi') /\ valid_psi n psi' /\
    okkeys n rs psi' /\
    forall t, length t = n ->
      match dget psi' (key t) with
      | Some x => okr rs t = true /\ x = op_vec n op psi t /\ (cabs2 x <? swm)%F = false
      | None => okr rs t = false \/ op_vec n op psi t = c0 \/ (cabs2 (op_vec n op psi t) <? swm)%F = true
      end.
Proof.
  intros [Hnd Hw] Hv. exists (cutoff swm (foldadd (kc (all_contribs n rs op psi)) [])).
  assert (Hn : NoDup (dkeys (foldadd (kc (all_contribs n rs op psi)) []))) by (apply NoDup_foldadd; constructor).
  assert (Hok : okkeys n rs (foldadd (kc (all_contribs n rs op psi)) [])).
  { apply okkeys_foldadd; [apply okkeys_nil|]. intros d v Hi. eapply all_contribs_length; eauto. apply Hv. }
  assert (Hok2 : okkeys n rs (cutoff swm (foldadd (kc (all_contribs n rs op psi)) []))).
  { intros k Hk. apply Hok. rewrite cutoff_filter in Hk by auto. unfold dkeys in *.
    apply in_map_iff in Hk as (x & <- & Hx). apply filter_In in Hx as [Hx _]. apply in_map; auto. }
  split; [apply applyOp_uncached; auto; apply Hv|]. split; [|split; auto].
  - split; [apply NoDup_cutoff; auto|]. intros k Hk. apply Hok2 in Hk as (d & Hd & -> & _). exists d; auto.
  - intros t Ht. rewrite dget_cutoff by auto. rewrite dget_foldadd_nil, ksum_all by auto.
    destruct (inb (key t) (map fst (kc (all_contribs n rs op psi)))) eqn:Ei.
    + destruct (okr rs t) eqn:Eo.
      * destruct (cabs2 (op_vec n op psi t) <? swm)%F eqn:Es; auto.
      * destruct (cabs2 c0 <? swm)%F eqn:Es; auto.
        exfalso. apply inb_In in Ei. apply in_map_iff in Ei as ([k v] & E & Hi). cbn [fst] in E. subst k.
        unfold kc in Hi. apply in_map_iff in Hi as ([d w] & E & Hi). injection E as E _.
        eapply all_contribs_length in Hi; [|apply Hv]. destruct Hi as [Hd Ho].
        cbn [fst] in E. assert (t = d) by (apply key_inj; congruence). congruence.
    + destruct (okr rs t) eqn:Eo; auto. right. left.
      rewrite <- (ksum_notin _ _ Ei). rewrite ksum_all, Eo by auto. auto.
Qed.

(* amplitudes *)
Definition cut (swm : F) (x : cx F) : cx F := if (cabs2 x <? swm)%F then c0 else x.
Lemma applyOp_amp n op psi swm rs : wf_op n op -> valid_psi n psi ->
  exists psi', applyOp (Z.of_nat n) op psi swm rs None = (None, Ok psi') /\ valid_psi n psi' /\
    okkeys n rs psi' /\
    forall t, length t = n -> amp psi' t = if okr rs t then cut swm (op_vec n op psi t) else c0.
Proof.
  intros Hw Hv. destruct (applyOp_spec n op psi swm rs Hw Hv) as (psi' & E & Hv' & Hok & Hg).
  exists psi'. repeat (split; auto). intros t Ht. specialize (Hg t Ht). unfold amp, cut.
  destruct (dget psi' (key t)) as [x|].
  - destruct Hg as (-> & -> & ->). auto.
  - destruct Hg as [->|[E0|E0]]; auto.
    + rewrite E0. destruct (okr rs t); auto. destruct (cabs2 c0 <? swm)%F; auto.
    + rewrite E0. destruct (okr rs t); auto.
Qed.

(* ---- cached branches ---- *)
Definition col_ok n op swm rs (c : config) (col : psi_t F) : Prop :=
  valid_psi n col /\ okkeys n rs col /\
  forall t, length t = n -> amp col t = if okr rs t then cut swm (opelem op t c) else c0.

Definition colraw rs op c : psi_t F := foldadd (kc (okf rs (contribs op c))) [].
Lemma colraw_ok n op swm rs c : length c = n -> col_ok n op swm rs c (cutoff swm (colraw rs op c)).
Proof.
  intros Hc.
  assert (Hl : forall d v, In (d, v) (okf rs (contribs op c)) -> length d = n /\ okr rs d = true).
  { intros d v Hi. apply in_okf in Hi as [Hi Ho]. split; auto. eapply contribs_length; eauto. }
  assert (Hn : NoDup (dkeys (colraw rs op c))) by (apply NoDup_foldadd; constructor).
  assert (Hok : okkeys n rs (colraw rs op c)) by (apply okkeys_foldadd; auto using okkeys_nil).
  assert (Hok2 : okkeys n rs (cutoff swm (colraw rs op c))).
  { intros k Hk. apply Hok. rewrite cutoff_filter in Hk by auto. unfold dkeys in *.
    apply in_map_iff in Hk as (x & <- & Hx). apply filter_In in Hx as [Hx _]. apply in_map; auto. }
  split; [|split; auto].
  - split; [apply NoDup_cutoff; auto|]. intros k Hk. apply Hok2 in Hk as (d & Hd & -> & _). exists d; auto.
  - intros t Ht. unfold amp. rewrite dget_cutoff by auto. unfold colraw.
    assert (Ek : ksum (kc (okf rs (contribs op c))) (key t) = if okr rs t then opelem op t c else c0).
    { rewrite (ksum_kc n); [|auto|intros d v Hi; apply (Hl d v Hi)]. rewrite csum_okf, csum_contribs. auto. }
    rewrite dget_foldadd_nil. destruct (inb (key t) _) eqn:Ei.
    + rewrite Ek. unfold cut. destruct (okr rs t).
      * destruct (cabs2 (opelem op t c) <? swm)%F; auto.
      * destruct (cabs2 c0 <? swm)%F; auto.
    + apply ksum_notin in Ei. rewrite Ek in Ei. destruct (okr rs t); auto. rewrite Ei.
      unfold cut. destruct (cabs2 c0 <? swm)%F; auto.
Qed.

Definition col_loop rs l bits a psiNew col sign :=
  match rs with
  | Some rs' => col_loop_restr l bits a rs' psiNew col sign
  | None => @col_loop_plain F l bits a psiNew col sign
  end.
Lemma col_loop_correct n rs a c : length c = n -> forall op psiNew col sign, wfl n op -> okkeys n rs psiNew ->
  (forall k, In k (dkeys col) -> In k (dkeys psiNew)) ->
  exists sign', col_loop rs op c a psiNew col sign =
    COk (foldadd (kc (scale a (okf rs (contribs op c)))) psiNew, foldadd (kc (okf rs (contribs op c))) col, sign').
Proof.
  intros Hc. induction op as [|[p h] op IH]; intros psiNew col sign Hw Hk Hsub.
  - exists sign. destruct rs; reflexivity.
  - apply Forall_cons_iff in Hw as [Hp Hw]. cbn [fst] in Hp.
    destruct (proc_loop_wf n p c sign Hp Hc) as [sg E].
    destruct rs as [rs|]; cbn [col_loop] in *.
    + cbn [col_loop_restr]. rewrite E, contribs_cons.
      destruct (proc_act p c) as [[d s]|] eqn:Ea; [|apply IH; auto].
      pose proof (proc_act_length _ _ _ _ Ea) as Hd. fold (key d).
      change (okf (Some rs) ([(d, (h * cofZ s)%C)] ++ contribs op c)) with
        (if okr (Some rs) d then (d, (h * cofZ s)%C) :: okf (Some rs) (contribs op c) else okf (Some rs) (contribs op c)).
      change (restrictions_ok rs (bitarray2tuple d)) with (okr (Some rs) d).
      destruct (okr (Some rs) d) eqn:Eo.
      * destruct (IH (dadd psiNew (key d) (a * h * cofZ s)%C) (dadd col (key d) (h * cofZ s)%C) sg Hw) as [sg' E'].
        { apply okkeys_dadd; auto. congruence. }
        { intros k Hi. rewrite !dkeys_dadd in *.
          destruct (inb (key d) (dkeys col)) eqn:Ec; destruct (inb (key d) (dkeys psiNew)) eqn:Ep; auto.
          - apply in_or_app; auto.
          - apply in_app_or in Hi as [Hi|[<-|[]]]; auto. apply inb_In; auto.
          - apply in_app_or in Hi as [Hi|[<-|[]]]; apply in_or_app; auto. right; left; auto. }
        exists sg'. cbn [scale map kc fst snd foldadd fold_left].
        replace (a * (h * cofZ s))%C with (a * h * cofZ s)%C by ring.
        unfold dadd in E' |- *. unfold foldadd, kc, scale in E'. 
        destruct (dget psiNew (key d)) as [w|] eqn:Ep.
        -- exact E'.
        -- assert (En : dget col (key d) = None).
           { apply dget_None. intros Hi. apply Hsub in Hi. apply dget_None in Ep. auto. }
           rewrite En in E' |- *. exact E'.
      * rewrite (dget_okkeys_none n (Some rs)) by (auto; congruence). apply IH; auto.
    + cbn [col_loop_plain]. rewrite E, contribs_cons.
      destruct (proc_act p c) as [[d s]|] eqn:Ea; [|apply IH; auto].
      pose proof (proc_act_length _ _ _ _ Ea) as Hd. fold (key d).
      destruct (IH (dadd psiNew (key d) (a * h * cofZ s)%C) (dadd col (key d) (h * cofZ s)%C) sg Hw) as [sg' E'].
      { apply okkeys_dadd; auto. congruence. }
      { intros k Hi. rewrite !dkeys_dadd in *.
        destruct (inb (key d) (dkeys col)) eqn:Ec; destruct (inb (key d) (dkeys psiNew)) eqn:Ep; auto.
        - apply in_or_app; auto.
        - apply in_app_or in Hi as [Hi|[<-|[]]]; auto. apply inb_In; auto.
        - apply in_app_or in Hi as [Hi|[<-|[]]]; apply in_or_app; auto. right; left; auto. }
      exists sg'. cbn [app okf filter okr fst scale map kc snd foldadd fold_left].
      replace (a * (h * cofZ s))%C with (a * h * cofZ s)%C by ring. exact E'.
Qed.

Definition coherent n op swm rs (cache : cache_t F) : Prop :=
  forall k col, dget cache k = Some col -> exists c, length c = n /\ k = key c /\ col_ok n op swm rs c col.

(* contributions of psi when the cache is used *)
Definition colcontribs n rs op (cache : cache_t F) (ka : pybytes * cx F) : list (pybytes * cx F) :=
  match dget cache (fst ka) with
  | Some col => map (fun tv => (fst tv, snd tv * snd ka)%C) col
  | None => kc (scale (snd ka) (okf rs (contribs op (bytes2bitarray (fst ka) (Z.of_nat n)))))
  end.

Lemma okkeys_addToFirst n rs psi col a : okkeys n rs psi -> okkeys n rs col -> NoDup (dkeys col) ->
  okkeys n rs (addToFirst psi col a).
Proof.
  intros Hp Hc Hn k Hk. rewrite addToFirst_keys in Hk by auto. apply in_app_or in Hk as [Hk|Hk]; auto.
  apply filter_In in Hk as [Hk _]. auto.
Qed.

Lemma cached_loop_correct n op swm rs : wfl n op -> forall psi psiNew cache sign,
  valid_psi n psi -> okkeys n rs psiNew -> coherent n op swm rs cache ->
  exists cache', cached_loop (Z.of_nat n) op swm rs psi psiNew cache sign =
      COk (foldadd (flat_map (colcontribs n rs op cache) psi) psiNew, cache') /\
    coherent n op swm rs cache' /\
    okkeys n rs (foldadd (flat_map (colcontribs n rs op cache) psi) psiNew) /\
    (forall k col, dget cache k = Some col -> dget cache' k = Some col) /\
    (forall k, In k (dkeys psi) -> In k (dkeys cache')) /\
    (forall k, In k (dkeys cache') -> In k (dkeys cache) \/ In k (dkeys psi)).
Proof.
  intros Hw. induction psi as [|[k a] psi IH]; intros psiNew cache sign Hv Hk Hco.
  - exists cache. split; [reflexivity|]. repeat (split; auto). intros k [].
  - apply valid_cons_inv in Hv as (Hkey & Hni & Hv). cbn [cached_loop flat_map].
    destruct (dget cache k) as [col|] eqn:Ec.
    + destruct (Hco _ _ Ec) as (c & Hc & Ek & (Hvc & Hokc & _)).
      destruct (IH (addToFirst psiNew col a) cache sign Hv) as (cache' & E & Hco' & Hok' & Hold & Hall & Hnew).
      { apply okkeys_addToFirst; auto. apply Hvc. }
      { auto. }
      exists cache'. unfold colcontribs at 1 3. cbn [fst snd]. rewrite Ec, foldadd_app.
      rewrite <- addToFirst_foldadd. repeat (split; auto).
      * intros k' [<-|Hk']; auto. apply dget_Some_key. exists col. auto.
      * intros k' Hk'. destruct (Hnew k' Hk'); [left|right; right]; auto.
    + set (c := bytes2bitarray k (Z.of_nat n)). destruct (valid_key_bits n k Hkey) as [Hc Hkc]. fold c in Hc, Hkc.
      destruct (col_loop_correct n rs a c Hc op psiNew [] sign Hw Hk) as [sg E]; [intros ? []|].
      unfold col_loop in E. cbv zeta. rewrite E.
      fold (colraw rs op c).
      destruct (IH (foldadd (kc (scale a (okf rs (contribs op c)))) psiNew)
                   (dset cache k (cutoff swm (colraw rs op c))) sg Hv)
        as (cache' & E' & Hco' & Hok' & Hold & Hall & Hnew).
      { apply okkeys_foldadd; auto. apply okf_contribs_ok; auto. }
      { intros k' col' Hg. rewrite dget_dset in Hg. destruct (eqb_spec k' k) as [->|Hne].
        - injection Hg as <-. exists c. split; [auto|]. split; [auto|]. apply colraw_ok; auto.
        - apply Hco; auto. }
      assert (Ef : flat_map (colcontribs n rs op (dset cache k (cutoff swm (colraw rs op c)))) psi =
                   flat_map (colcontribs n rs op cache) psi).
      { rewrite !flat_map_concat_map. f_equal. apply map_ext_in. intros [k' a'] Hi.
        unfold colcontribs. cbn [fst snd]. rewrite dget_dset_other; auto.
        intros ->. apply Hni. apply (in_map fst) in Hi. exact Hi. }
      rewrite Ef in E', Hok'.
      exists cache'. unfold colcontribs at 1 3. cbn [fst snd]. rewrite Ec, foldadd_app. fold c.
      repeat (split; auto).
      * intros k' col' Hg. apply Hold. rewrite dget_dset_other; auto. congruence.
      * intros k' [<-|Hk']; auto. apply dget_Some_key. exists (cutoff swm (colraw rs op c)).
        apply Hold. apply dget_dset_same.
      * intros k' Hk'. destruct (Hnew k' Hk') as [Hx|Hx]; [|right; right; auto].
        apply in_dkeys_dset in Hx as [->|Hx]; [right; left|left]; auto.
Qed.

Lemma ksum_col (k : pybytes) (a : cx F) (col : psi_t F) : NoDup (dkeys col) ->
  ksum (map (fun tv => (fst tv, snd tv * a)%C) col) k = (match dget col k with Some v => v | None => c0 end * a)%C.
Proof.
  intros Hn. pose proof (addToFirst_get ([] : psi_t F) col a k Hn) as E.
  rewrite addToFirst_foldadd, dget_foldadd_nil in E. cbn [dget] in E.
  destruct (inb k (map fst (map (fun ka => (fst ka, (snd ka * a)%C)) col))) eqn:Ei.
  - destruct (dget col k); congruence.
  - rewrite ksum_notin by auto. destruct (dget col k); [discriminate|ring].
Qed.

(* matrix element as seen through the cache: cut if already cached *)
Definition elem_cached swm op (cache : cache_t F) (t s : config) : cx F :=
  if dmem cache (key s) then cut swm (opelem op t s) else opelem op t s.

Lemma ksum_cached n op swm rs cache psi t : valid_psi n psi -> coherent n op swm rs cache -> length t = n ->
  ksum (flat_map (colcontribs n rs op cache) psi) (key t) =
  if okr rs t then csum (fun s => elem_cached swm op cache t s * amp psi s)%C (allcfg n) else c0.
Proof.
  intros Hv Hco Ht. unfold ksum. rewrite csum_flat_map.
  transitivity (csum (fun ka => (if okr rs t then elem_cached swm op cache t (bytes2bitarray (fst ka) (Z.of_nat n)) else c0) * snd ka)%C psi).
  - apply csum_ext. intros [k a] Hi. fold (ksum (colcontribs n rs op cache (k, a)) (key t)).
    assert (Hkey : valid_key n k) by (apply Hv; apply (in_map fst) in Hi; exact Hi).
    destruct (valid_key_bits n k Hkey) as [Hc Hkc].
    unfold colcontribs, elem_cached. cbn [fst snd]. rewrite Hkc. rewrite dmem_dget.
    destruct (dget cache k) as [col|] eqn:Ec.
    + destruct (Hco _ _ Ec) as (c & Hcl & Ek & (Hvc & _ & Hamp)).
      rewrite ksum_col by apply Hvc. fold (amp col t). rewrite Hamp by auto.
      rewrite Ek. rewrite <- Hcl, key_bits. destruct (okr rs t); ring.
    + rewrite (ksum_kc n); auto.
      2:{ intros d v Hd. eapply okf_contribs_ok in Hd; [apply Hd|]; auto. }
      rewrite csum_scale, csum_okf, csum_contribs. destruct (okr rs t); ring.
  - rewrite (csum_psi n psi (fun k => if okr rs t then elem_cached swm op cache t (bytes2bitarray k (Z.of_nat n)) else c0) Hv).
    destruct (okr rs t).
    + apply csum_ext. intros s Hs. apply allcfg_In in Hs. rewrite <- Hs at 1. rewrite key_bits. auto.
    + apply csum_zero. intros; ring.
Qed.

Theorem applyOp_cached n op psi swm rs cache : wf_op n op -> valid_psi n psi -> coherent n op swm rs cache ->
  exists cache' psi', applyOp (Z.of_nat n) op psi swm rs (Some cache) = (Some cache', Ok psi') /\
    coherent n op swm rs cache' /\
    (forall k col, dget cache k = Some col -> dget cache' k = Some col) /\
    (forall k, In k (dkeys cache') <-> In k (dkeys cache) \/ In k (dkeys psi)) /\
    valid_psi n psi' /\ okkeys n rs psi' /\
    forall t, length t = n -> amp psi' t =
      if okr rs t then cut swm (csum (fun s => elem_cached swm op cache t s * amp psi s)%C (allcfg n)) else c0.
Proof.
  intros [Hnd Hw] Hv Hco.
  destruct (cached_loop_correct n op swm rs Hw psi [] cache None Hv (okkeys_nil n rs) Hco)
    as (cache' & E & Hco' & Hok & Hold & Hall & Hnew).
  set (raw := foldadd (flat_map (colcontribs n rs op cache) psi) []) in *.
  assert (Hn : NoDup (dkeys raw)) by (apply NoDup_foldadd; constructor).
  assert (Hok2 : okkeys n rs (cutoff swm raw)).
  { intros k Hk. apply Hok. rewrite cutoff_filter in Hk by auto. unfold dkeys in *.
    apply in_map_iff in Hk as (x & <- & Hx). apply filter_In in Hx as [Hx _]. apply in_map; auto. }
  exists cache', (cutoff swm raw). split; [unfold applyOp; rewrite E; reflexivity|].
  split; [auto|]. split; [auto|]. split; [|split; [|split; auto]].
  - intros k. split; [apply Hnew|]. intros [Hk|Hk]; auto.
    apply dget_Some_key in Hk as [col Hc]. apply dget_Some_key. eauto.
  - split; [apply NoDup_cutoff; auto|]. intros k Hk. apply Hok2 in Hk as (d & Hd & -> & _). exists d; auto.
  - intros t Ht. unfold amp at 1. rewrite dget_cutoff by auto. unfold raw.
    rewrite dget_foldadd_nil.
    destruct (inb (key t) (map fst (flat_map (colcontribs n rs op cache) psi))) eqn:Ei.
    + rewrite (ksum_cached n op swm) by auto. unfold cut at 1. destruct (okr rs t).
      * destruct (cabs2 _ <? swm)%F; auto.
      * destruct (cabs2 c0 <? swm)%F; auto.
    + apply ksum_notin in Ei. rewrite (ksum_cached n op swm) in Ei by auto.
      destruct (okr rs t); auto. rewrite Ei. unfold cut. destruct (cabs2 c0 <? swm)%F; auto.
Qed.
End Ap.
