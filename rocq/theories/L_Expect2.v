(* The functions apply{S,L}{z,+,-}3d are the textbook one-body operators. *)
From Coq Require Import Field Ring.
From Verif Require Import M_Prelude M_Scalar M_PSR M_State M_Basis M_Expect S_Fock S_Basis S_Expect
  L_Scalar L_Dict L_Fock L_State L_Index L_Ham L_FromH L_Expect.
Local Open Scope Z_scope.

Lemma fold_res_app {A S} (f : S -> A -> res S) l1 : forall l2 s, fold_res f (l1 ++ l2) s = (do s' <- fold_res f l1 s; fold_res f l2 s').
Proof. induction l1 as [|a l1 IH]; intros l2 s; cbn [app fold_res bind]; auto. destruct (f s a); cbn [bind]; auto. Qed.
Lemma fold_res_map {A B S} (g : A -> B) (f : S -> B -> res S) l : forall s, fold_res f (map g l) s = fold_res (fun s a => f s (g a)) l s.
Proof. induction l as [|a l IH]; intros s; cbn [map fold_res]; auto. destruct (f s (g a)); cbn [bind]; auto. Qed.
Lemma fold_res_prod {A B S} (f : S -> A -> B -> res S) (la : list A) (lb : list B) : forall s,
  fold_res (fun s a => fold_res (fun s b => f s a b) lb s) la s = fold_res (fun s ab => f s (fst ab) (snd ab)) (list_prod la lb) s.
Proof.
  induction la as [|a la IH]; intros s; cbn [list_prod fold_res]; auto. rewrite fold_res_app, fold_res_map. cbn [fst snd].
  destruct (fold_res (fun s b => f s a b) lb s); cbn [bind]; auto.
Qed.
Lemma mrange_sites l : list_prod (zrange 2) (mrange l) = sites l.
Proof.
  unfold sites, mrange, zrange2. change (zrange 2) with [0; 1]. f_equal.
  replace (l + 1 - - l) with (2 * l + 1) by lia. apply map_ext. intros k. lia.
Qed.
Lemma sites_In l s m : In (s, m) (sites l) <-> (s = 0 \/ s = 1) /\ - l <= m <= l.
Proof.
  rewrite <- mrange_sites. rewrite in_prod_iff, zrange_In. unfold mrange. rewrite zrange2_In. lia.
Qed.
Lemma sites_NoDup l : NoDup (sites l).
Proof.
  unfold sites. cbn [list_prod]. rewrite app_nil_r.
  assert (H : NoDup (map (fun k => Z.of_nat k - l) (seq 0 (Z.to_nat (2 * l + 1))))).
  { apply FinFun.Injective_map_NoDup; [intros a b E; lia|apply seq_NoDup]. }
  apply NoDup_app_intro; auto.
  - apply FinFun.Injective_map_NoDup; auto. intros a b [= E]. auto.
  - apply FinFun.Injective_map_NoDup; auto. intros a b [= E]. auto.
  - intros [s m] H1 H2. apply in_map_iff in H1, H2. destruct H1 as (y & [= <- <-] & _). destruct H2 as (y' & [= E _] & _).
Qed.

Section A.
Context {F : ofield}.
Add Field Ff : (f_field F).
Add Ring Cring : (@c_ring F).
Variable nb : nbaths_t.
Variable l : Z.
Hypothesis Hsh : has_shell nb l.
Let n := n_orb nb.
Let Hwf : wf_nbaths nb := proj1 Hsh.

Lemma total_orbitals_ok : total_orbitals nb = Ok (Z.of_nat n).
Proof.
  unfold n. rewrite (n_orb_Z nb Hwf). pose proof (proj1 (proj2 Hsh)) as Hk. clear Hsh Hwf n.
  assert (G : forall acc, fold_res (fun acc kn =>
    match fst kn with
    | KInt ang => Ok (acc + (2 * (2 * ang + 1) + snd kn))
    | KTup _ => Err TypeError
    end) nb acc = Ok (acc + n_total nb)).
  { induction Hk as [|[k m] nb' (a & Ea) Hk IH]; intros acc.
    - cbn [fold_res]. unfold n_total, n_imp, angs, dkeys. cbn. f_equal. lia.
    - cbn [fst] in Ea. subst k. cbn [fold_res bind fst snd]. rewrite IH. f_equal.
      unfold n_total, n_imp, angs, dkeys. cbn [map flat_map key_angs app fst snd zsum fold_right].
      unfold shell_size at 2. unfold zsum. lia. }
  unfold total_orbitals. rewrite (G 0). f_equal.
Qed.
Lemma shell_ok s m : (s = 0 \/ s = 1) -> - l <= m <= l -> coord_ok nb (SImp l s m).
Proof. intros Hs Hm. pose proof (proj2 (proj2 Hsh)) as Hl. cbn [coord_ok]. auto. Qed.
Lemma site_ok sm : In sm (sites l) -> coord_ok nb (orb l sm).
Proof. destruct sm as [s m]. intros H. apply sites_In in H. destruct H. apply shell_ok; auto. Qed.

(* c_i^+ c_j psi as the model computes it *)
Lemma hop_ok x y (psi : psi_t F) : coord_ok nb x -> coord_ok nb y -> valid_psi n psi ->
  c2i nb x = Ok (Z.of_nat (ix nb x)) /\ c2i nb y = Ok (Z.of_nat (ix nb y)) /\
  exists p q, op_a (Z.of_nat n) (Z.of_nat (ix nb y)) psi = Ok p /\ op_c (Z.of_nat n) (Z.of_nat (ix nb x)) p = Ok q /\
    valid_psi n p /\ valid_psi n q /\ veq n (amp p) (A_ (ix nb y) (amp psi)) /\ veq n (amp q) (E_ (ix nb x) (ix nb y) (amp psi)).
Proof.
  intros Hx Hy Hv. destruct (ix_ok nb Hwf x Hx) as [Lx Ex]. destruct (ix_ok nb Hwf y Hy) as [Ly Ey].
  split; [rewrite Ex; apply c2i_ok; auto|]. split; [rewrite Ey; apply c2i_ok; auto|].
  destruct (op_ac_get false n (ix nb y) psi Ly Hv) as (p & Ep & Hp & Gp).
  destruct (op_ac_get true n (ix nb x) p Lx Hp) as (r & Er & Hr & Gr).
  exists p, r. split; [exact Ep|]. split; [exact Er|]. split; [auto|]. split; [auto|]. split; [exact Gp|].
  intros t Ht. rewrite Gr by auto. apply (vpull_ext n); auto.
Qed.
Lemma hop_add_ok (psi acc : psi_t F) x y v : coord_ok nb x -> coord_ok nb y -> valid_psi n psi -> valid_psi n acc ->
  exists acc', hop_add nb (Z.of_nat n) psi acc x y v = Ok acc' /\ valid_psi n acc' /\
    veq n (amp acc') (fun t => amp acc t + v * E_ (ix nb x) (ix nb y) (amp psi) t)%C.
Proof.
  intros Hx Hy Hv Ha. destruct (hop_ok x y psi Hx Hy Hv) as (E1 & E2 & p & q & E3 & E4 & Hp & Hq & Gp & Gq).
  exists (addToFirst acc q v). unfold hop_add. rewrite E1. cbn [bind]. rewrite E2. cbn [bind]. rewrite E3. cbn [bind].
  rewrite E4. cbn [bind]. split; [auto|]. split; [apply valid_addToFirst; auto|].
  intros t Ht. rewrite addToFirst_amp by apply Hq. rewrite Gq by auto. ring.
Qed.
Lemma hop_list (psi : psi_t F) L : valid_psi n psi -> Forall (term_ok nb) L -> forall acc, valid_psi n acc ->
  exists acc', fold_res (fun acc (xyv : @term F) => hop_add nb (Z.of_nat n) psi acc (fst (fst xyv)) (snd (fst xyv)) (snd xyv)) L acc = Ok acc' /\
    valid_psi n acc' /\ veq n (amp acc') (fun t => amp acc t + gam nb L (amp psi) t)%C.
Proof.
  intros Hv HL. induction HL as [|[[x y] v] L [Hx Hy] HL IH]; intros acc Ha.
  - exists acc. cbn [fold_res]. split; auto. split; auto. intros t _. unfold gam, csum. cbn [fold_right]. ring.
  - cbn [fold_res fst snd] in *. destruct (hop_add_ok psi acc x y v Hx Hy Hv Ha) as (a1 & E1 & H1 & G1). rewrite E1. cbn [bind].
    destruct (IH a1 H1) as (a2 & E2 & H2 & G2). exists a2. split; auto. split; auto.
    intros t Ht. rewrite G2, G1 by auto. unfold gam, csum. cbn [fold_right fst snd]. ring.
Qed.
Lemma hop_list0 (psi : psi_t F) L : valid_psi n psi -> Forall (term_ok nb) L ->
  exists psi', fold_res (fun acc (xyv : @term F) => hop_add nb (Z.of_nat n) psi acc (fst (fst xyv)) (snd (fst xyv)) (snd xyv)) L [] = Ok psi' /\
    valid_psi n psi' /\ veq n (amp psi') (gam nb L (amp psi)).
Proof.
  intros Hv HL. destruct (hop_list psi L Hv HL [] (valid_nil n)) as (p & E & Hp & G). exists p. split; auto. split; auto.
  intros t Ht. rewrite G by auto. change (amp [] t) with (@c0 F). ring.
Qed.
(* reading a result as an operator *)
Lemma gam_is_op L (psi psi' : psi_t F) : Forall (term_ok nb) L -> valid_psi n psi' -> veq n (amp psi') (gam nb L (amp psi)) ->
  is_op n (one_body nb L) psi psi'.
Proof. intros HL Hv H. split; auto. intros t Ht. rewrite H by auto. symmetry. apply (op_vec_gam nb Hwf); auto. Qed.
Lemma is_op_gam L (psi psi' : psi_t F) : Forall (term_ok nb) L -> is_op n (one_body nb L) psi psi' -> veq n (amp psi') (gam nb L (amp psi)).
Proof. intros HL [_ H] t Ht. rewrite H by auto. apply (op_vec_gam nb Hwf); auto. Qed.
End A.
