(* The statements about angular momenta and density matrices in their final form. *)
From Coq Require Import Field Ring Permutation.
From Verif Require Import M_Prelude M_Scalar M_PSR M_State M_Basis M_Expect S_Fock S_Basis S_Expect S_Green
  L_Scalar L_Sum L_Dict L_Fock L_State L_Index L_Ham L_FromH L_PSR L_Expect L_Expect2 L_Expect3 L_Expect4 L_Cubic L_Expect5 L_Expect6.
Local Open Scope Z_scope.

Section W.
Context {F : ofield}.
Add Field Ff : (f_field F).
Add Ring Cring : (@c_ring F).
Variable nb : nbaths_t.
Let n := n_orb nb.

Lemma ev_is_op (op : op_t F) psi psi' : is_op n op psi psi' -> inner psi psi' = ev n op psi.
Proof.
  intros [Hv G]. rewrite (vip_inner n) by auto. unfold ev, vip. apply csum_ext. intros t Ht. apply allcfg_In in Ht. rewrite G by auto. reflexivity.
Qed.
Lemma Lz_agree (psi : psi_t F) : has_shell nb 2 -> valid_psi n psi ->
  exists v psi', getLz3d nb psi = Ok v /\ applyLz3d nb psi = Ok psi' /\ is_op n (one_body nb (Lz_terms 2)) psi psi' /\ inner psi psi' = creal v.
Proof.
  intros Hsh Hv. destruct (Lz_ok nb (proj1 Hsh) (proj1 (proj2 Hsh)) (proj2 (proj2 Hsh)) psi Hv) as (v & E & G).
  destruct (acts_is_op nb Hsh _ _ psi (ok_Lz nb Hsh) (acts_Lz nb Hsh) Hv) as (psi' & E' & H').
  exists v, psi'. split; auto. split; auto. split; auto. rewrite (ev_is_op _ _ _ H'). auto.
Qed.
Lemma Sz_agree (psi : psi_t F) : has_shell nb 2 -> valid_psi n psi ->
  exists v psi', getSz3d nb psi = Ok v /\ applySz3d nb psi = Ok psi' /\ is_op n (one_body nb (Sz_terms 2)) psi psi' /\ inner psi psi' = creal v.
Proof.
  intros Hsh Hv. destruct (Sz_ok nb (proj1 Hsh) (proj1 (proj2 Hsh)) (proj2 (proj2 Hsh)) psi Hv) as (v & E & G).
  destruct (acts_is_op nb Hsh _ _ psi (ok_Sz nb Hsh) (acts_Sz nb Hsh) Hv) as (psi' & E' & H').
  exists v, psi'. split; auto. split; auto. split; auto. rewrite (ev_is_op _ _ _ H'). auto.
Qed.
Lemma trace_agree (psi : psi_t F) l : has_shell nb l -> valid_psi n psi ->
  exists v, getTraceDensityMatrix nb psi l = Ok v /\ creal v = ev n (one_body nb (N_terms l)) psi /\
    creal v = csum (fun sm => rho nb psi (orb l sm) (orb l sm)) (sites l).
Proof.
  intros Hsh Hv. destruct (trace_ok nb l Hsh psi Hv) as (v & E & G). exists v. split; auto. split; auto.
  rewrite G. apply (ev_N nb l Hsh psi Hv).
Qed.

(* error cases *)
Lemma total_orbitals_err : ~ int_keys nb -> total_orbitals nb = Err TypeError.
Proof.
  intros Hn. unfold total_orbitals. generalize 0 as acc. unfold int_keys in Hn. revert Hn. clear n.
  induction nb as [|[k m] nb' IH]; intros Hn acc; [elim Hn; constructor|]. cbn [fold_res fst snd].
  destruct k as [a|t]; cbn [bind]; auto. apply IH. intros H. apply Hn. constructor; auto. exists a. reflexivity.
Qed.
Lemma tuple_keys (fsqrt : F -> F) psi l : ~ int_keys nb ->
  @getLz3d F nb psi = Err TypeError /\ @getSz3d F nb psi = Err TypeError /\ getTraceDensityMatrix nb psi l = Err TypeError /\
  getDensityMatrix nb psi l = Err TypeError /\ getEgT2gOccupation fsqrt nb psi = Err TypeError /\ getDensityMatrixCubic fsqrt nb psi = Err TypeError /\
  getLsqr3d fsqrt nb psi = Err TypeError /\ getSsqr3d nb psi = Err TypeError.
Proof.
  intros H. unfold getLsqr3d, getSsqr3d, getDensityMatrixCubic, getLz3d, getSz3d, getTraceDensityMatrix, getDensityMatrix, getEgT2gOccupation, applyLz3d, applySz3d.
  rewrite (total_orbitals_err H). cbn [bind]. repeat split.
Qed.
Lemma no_shell (fsqrt : F -> F) psi : int_keys nb -> ~ In 2 (angs nb) ->
  @applyLz3d F nb psi = Err GenericException /\ @applySz3d F nb psi = Err GenericException /\
  applyLplus3d fsqrt nb psi = Err GenericException /\ applyLminus3d fsqrt nb psi = Err GenericException /\
  applySplus3d nb psi = Err GenericException /\ applySminus3d nb psi = Err GenericException /\
  getDensityMatrix nb psi 2 = Err GenericException /\ getEgT2gOccupation fsqrt nb psi = Err GenericException.
Proof.
  intros Hk Hn. assert (Hc : forall s m, c2i nb (SImp 2 s m) = Err GenericException).
  { intros s m. apply c2i_err. cbn [coord_ok]. tauto. }
  assert (Ht : exists z, total_orbitals nb = Ok z).
  { unfold total_orbitals. generalize 0 as acc. clear -Hk. induction Hk as [|[k m] nb' (a & Ea) Hk IH]; intros acc; [eexists; reflexivity|].
    cbn [fold_res fst snd] in *. rewrite Ea. cbn [bind]. apply IH. }
  destruct Ht as (z & Ez).
  unfold applyLz3d, applySz3d, applyLplus3d, applyLminus3d, applySplus3d, applySminus3d, getDensityMatrix, getEgT2gOccupation. rewrite Ez, ?sph2cub_2. cbn [bind].
  change (zrange 2) with [0; 1]. change (zrange 5) with [0; 1; 2; 3; 4]. change (enumerate (mrange 2)) with [(0%nat, -2); (1%nat, -1); (2%nat, 0); (3%nat, 1); (4%nat, 2)].
  change (mrange 2) with [-2; -1; 0; 1; 2]. change (zrange2 (-2) 2) with [-2; -1; 0; 1]. change (zrange2 (-2 + 1) (2 + 1)) with [-1; 0; 1; 2].
  unfold hop_add. cbn [fold_res fst snd]. rewrite !Hc. cbn [bind]. repeat split.
Qed.
Lemma total_orbitals_int : wf_nbaths nb -> int_keys nb -> total_orbitals nb = Ok (Z.of_nat n).
Proof.
  intros Hwf Hk. unfold n. rewrite (n_orb_Z nb Hwf). clear Hwf n.
  assert (G : forall acc, fold_res (fun acc kn =>
    match fst kn with
    | KInt ang => Ok (acc + (2 * (2 * ang + 1) + snd kn))
    | KTup _ => Err TypeError
    end) nb acc = Ok (acc + n_total nb)).
  { induction Hk as [|[k m] nb' (a & Ea) Hk IH]; intros acc.
    - cbn [fold_res]. unfold n_total, n_imp, angs, dkeys. cbn. f_equal. lia.
    - cbn [fst] in Ea. subst k. cbn [fold_res bind fst snd]. rewrite IH. f_equal.
      unfold n_total, n_imp, angs, dkeys. cbn [map flat_map key_angs app fst snd zsum fold_right].
      unfold shell_size at 2. unfold zsum. lia. }
  unfold total_orbitals. rewrite (G 0). f_equal.
Qed.
Lemma fold_res_stay {A S} (f : S -> A -> res S) l s0 : (forall a, In a l -> f s0 a = Ok s0) -> fold_res f l s0 = Ok s0.
Proof. induction l as [|a l IH]; intros H; cbn [fold_res]; auto. rewrite H by (left; auto). cbn [bind]. apply IH. intros b Hb. apply H. right. auto. Qed.
Lemma no_shell_Lz (psi : psi_t F) : wf_nbaths nb -> int_keys nb -> ~ In 2 (angs nb) -> valid_psi n psi ->
  getLz3d nb psi = Ok 0%F /\ getSz3d nb psi = Ok 0%F.
Proof.
  intros Hwf Hk Hn Hv. pose proof (total_orbitals_int Hwf Hk) as Ez.
  assert (Hi : forall c i, length c = n -> In i (btuple c) -> exists x, i2c nb i = Ok x /\ match x with SImp a _ _ => (a =? 2) = false | _ => True end).
  { intros c i Hc Hi. apply btuple_In in Hi. destruct Hi as (k & Hlt & -> & _). pose proof (n_orb_Z nb Hwf) as HnZ. fold n in HnZ.
    destruct (i2c_total nb (Z.of_nat k) Hwf ltac:(lia)) as (x & Ex & Hx & _). exists x. split; auto. destruct x as [a sp m|]; auto.
    cbn [coord_ok] in Hx. apply Z.eqb_neq. intros ->. tauto. }
  unfold getLz3d, getSz3d. rewrite Ez. cbn [bind]. split; apply fold_res_stay; intros [k a] Hin; cbn [fst snd];
    destruct (proj2 Hv k) as (c & Hc & ->); try (apply (in_map fst) in Hin; exact Hin); unfold n; rewrite (key_tuple nb) by auto;
    rewrite fold_res_stay; try (cbn [bind]; f_equal; try change (fofZ 0) with (0 : F)%F; ring);
    intros i Hb; destruct (Hi c i Hc Hb) as (x & Ex & Hx); rewrite Ex; cbn [bind]; destruct x as [a' sp m|]; auto; rewrite Hx; reflexivity.
Qed.

(* ---- the algebra of angular momenta ---- *)
Variable fsqrt : F -> F.
Hypothesis Hsq : sqrt_laws fsqrt.
Hypothesis Hsh : has_shell nb 2.
Lemma comm_gen f g h L M N c (psi : psi_t F) : acts nb f L -> acts nb g M -> acts nb h N -> Forall (term_ok nb) L -> Forall (term_ok nb) M -> valid_psi n psi ->
  (forall v t, gam nb (comml L M) v t = (c * gam nb N v t)%C) -> commutes_to n f g h c psi.
Proof.
  intros Hf Hg Hh HL HM Hv E. destruct (acts_comm nb Hsh f g L M psi Hf Hg HL HM Hv) as (q & qp & p & pq & E1 & E2 & E3 & E4 & G).
  destruct (Hh psi Hv) as (r & E5 & _ & G5). exists q, qp, p, pq, r. do 5 (split; [solve [auto]|]).
  intros t Ht. rewrite G by auto. rewrite E, G5 by auto. reflexivity.
Qed.
Lemma commutators (psi : psi_t F) : valid_psi n psi ->
  commutes_to (F := F) n (applyLplus3d fsqrt nb) (applyLminus3d fsqrt nb) (applyLz3d nb) (cofZ 2) psi /\
  commutes_to (F := F) n (applyLz3d nb) (applyLplus3d fsqrt nb) (applyLplus3d fsqrt nb) c1 psi /\
  commutes_to (F := F) n (applyLz3d nb) (applyLminus3d fsqrt nb) (applyLminus3d fsqrt nb) (- c1)%C psi /\
  commutes_to (F := F) n (applySplus3d nb) (applySminus3d nb) (applySz3d nb) (cofZ 2) psi /\
  commutes_to (F := F) n (applySz3d nb) (applySplus3d nb) (applySplus3d nb) c1 psi /\
  commutes_to (F := F) n (applySz3d nb) (applySminus3d nb) (applySminus3d nb) (- c1)%C psi.
Proof.
  intros Hv. assert (E2 : @cofZ F 2 = (c1 + c1)%C) by (change 2 with (1 + 1); rewrite cofZ_add, cofZ_1; reflexivity). rewrite E2.
  split; [|split; [|split; [|split; [|split]]]].
  - eapply comm_gen; [apply acts_Lp|apply acts_Lm|apply acts_Lz|apply ok_Lp|apply ok_Lm| |]; auto. intros v t. apply comm_LpLm; auto.
  - eapply comm_gen; [apply acts_Lz|apply acts_Lp|apply acts_Lp|apply ok_Lz|apply ok_Lp| |]; auto. intros v t. rewrite comm_LzLp by auto. ring.
  - eapply comm_gen; [apply acts_Lz|apply acts_Lm|apply acts_Lm|apply ok_Lz|apply ok_Lm| |]; auto. intros v t. rewrite comm_LzLm by auto. ring.
  - eapply comm_gen; [apply acts_Sp|apply acts_Sm|apply acts_Sz|apply ok_Sp|apply ok_Sm| |]; auto. intros v t. apply comm_SpSm; auto.
  - eapply comm_gen; [apply acts_Sz|apply acts_Sp|apply acts_Sp|apply ok_Sz|apply ok_Sp| |]; auto. intros v t. rewrite comm_SzSp by auto. ring.
  - eapply comm_gen; [apply acts_Sz|apply acts_Sm|apply acts_Sm|apply ok_Sz|apply ok_Sm| |]; auto. intros v t. rewrite comm_SzSm by auto. ring.
Qed.
Lemma commutators_LS (psi : psi_t F) f g : valid_psi n psi ->
  In f [applyLz3d nb; applyLplus3d fsqrt nb; applyLminus3d fsqrt nb] -> In g [applySz3d nb; applySplus3d nb; applySminus3d nb] ->
  exists q qp p pq, g psi = Ok q /\ f q = Ok qp /\ f psi = Ok p /\ g p = Ok pq /\ forall t, length t = n -> amp qp t = amp pq t.
Proof.
  intros Hv Hf Hg.
  assert (HL : exists L, acts nb f L /\ Forall (term_ok nb) L /\ In L [Lz_terms 2; Lp_terms fsqrt 2; Lm_terms fsqrt 2]).
  { cbn [In] in Hf. destruct Hf as [<-|[<-|[<-|[]]]].
    - exists (Lz_terms 2). split; [apply acts_Lz; auto|]. split; [apply ok_Lz; auto|]. cbn [In]; auto.
    - exists (Lp_terms fsqrt 2). split; [apply acts_Lp; auto|]. split; [apply ok_Lp; auto|]. cbn [In]; auto.
    - exists (Lm_terms fsqrt 2). split; [apply acts_Lm; auto|]. split; [apply ok_Lm; auto|]. cbn [In]; auto. }
  assert (HM : exists M, acts nb g M /\ Forall (term_ok nb) M /\ In M [Sz_terms 2; Sp_terms 2; Sm_terms 2]).
  { cbn [In] in Hg. destruct Hg as [<-|[<-|[<-|[]]]].
    - exists (Sz_terms 2). split; [apply acts_Sz; auto|]. split; [apply ok_Sz; auto|]. cbn [In]; auto.
    - exists (Sp_terms 2). split; [apply acts_Sp; auto|]. split; [apply ok_Sp; auto|]. cbn [In]; auto.
    - exists (Sm_terms 2). split; [apply acts_Sm; auto|]. split; [apply ok_Sm; auto|]. cbn [In]; auto. }
  destruct HL as (L & HL1 & HL2 & HL3). destruct HM as (M & HM1 & HM2 & HM3).
  destruct (acts_comm nb Hsh f g L M psi HL1 HM1 HL2 HM2 Hv) as (q & qp & p & pq & E1 & E2 & E3 & E4 & G).
  exists q, qp, p, pq. do 4 (split; [solve [auto]|]). intros t Ht. pose proof (G t Ht) as G'. rewrite (comm_LS fsqrt nb L M) in G' by auto.
  transitivity (amp qp t - amp pq t + amp pq t)%C; [ring|]. rewrite G'. ring.
Qed.
End W.

Lemma occ_u : forall (F : ofield) (fsqrt : F -> F) nb, has_shell nb 2 -> sqrt_laws fsqrt -> forall psi, valid_psi (n_orb nb) psi ->
  forall u, get_spherical_2_cubic_matrix fsqrt false 2 = Ok u ->
  exists eg_dn eg_up t2g_dn t2g_up : F, getEgT2gOccupation fsqrt nb psi = Ok [inl eg_dn; inl eg_up; inl t2g_dn; inl t2g_up] /\
    creal eg_dn = csum (fun i => ev (n_orb nb) (one_body nb (cub_terms 2 u 0 i)) psi) [0; 1]%nat /\
    creal eg_up = csum (fun i => ev (n_orb nb) (one_body nb (cub_terms 2 u 1 i)) psi) [0; 1]%nat /\
    creal t2g_dn = csum (fun i => ev (n_orb nb) (one_body nb (cub_terms 2 u 0 i)) psi) [2; 3; 4]%nat /\
    creal t2g_up = csum (fun i => ev (n_orb nb) (one_body nb (cub_terms 2 u 1 i)) psi) [2; 3; 4]%nat /\
    (0 <= eg_dn)%F /\ (eg_dn <= fofZ 2 * norm2 psi)%F /\ (0 <= eg_up)%F /\ (eg_up <= fofZ 2 * norm2 psi)%F /\
    (0 <= t2g_dn)%F /\ (t2g_dn <= fofZ 3 * norm2 psi)%F /\ (0 <= t2g_up)%F /\ (t2g_up <= fofZ 3 * norm2 psi)%F /\
    getTraceDensityMatrix nb psi 2 = Ok (eg_dn + eg_up + t2g_dn + t2g_up)%F.
Proof.
  intros F fsqrt nb H Hs psi Hv u Hu. rewrite sph2cub_2 in Hu. injection Hu as <-. exact (occ_ok fsqrt nb H Hs psi Hv).
Qed.
Lemma cubic_u : forall (F : ofield) (fsqrt : F -> F) nb, has_shell nb 2 -> forall psi, valid_psi (n_orb nb) psi ->
  forall u, get_spherical_2_cubic_matrix fsqrt false 2 = Ok u ->
  exists d, getDensityMatrixCubic fsqrt nb psi = Ok d /\
    forall si sj i j, (si = 0 \/ si = 1) -> (sj = 0 \/ sj = 1) -> (i < 5)%nat -> (j < 5)%nat ->
      dval d ((si, Z.of_nat i), (sj, Z.of_nat j)) = ev (n_orb nb) (one_body nb (cub_hop 2 u sj j si i)) psi.
Proof.
  intros F fsqrt nb H psi Hv u Hu. rewrite sph2cub_2 in Hu. injection Hu as <-. exact (cubic_entries fsqrt nb H psi Hv).
Qed.
