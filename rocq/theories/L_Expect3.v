(* Angular momentum operators: action, adjoints, commutators, squares. *)
From Coq Require Import Field Ring.
From Verif Require Import M_Prelude M_Scalar M_PSR M_State M_Basis M_Expect S_Fock S_Basis S_Expect
  L_Scalar L_Dict L_Fock L_State L_Index L_Ham L_FromH L_Expect L_Expect2.
Local Open Scope Z_scope.

Section A.
Context {F : ofield}.
Add Field Ff : (f_field F).
Add Ring Cring : (@c_ring F).
Variable fsqrt : F -> F.
Variable nb : nbaths_t.
Hypothesis Hsh : has_shell nb 2.
Let n := n_orb nb.
Let Hwf : wf_nbaths nb := proj1 Hsh.

Ltac in_sites H := repeat (destruct H as [H|H]); try contradiction; subst.
Lemma ok_terms (L : list (@term F)) :
  (forall xyv, In xyv L -> exists s m s' m', fst xyv = (SImp 2 s m, SImp 2 s' m') /\ (s = 0 \/ s = 1) /\ -2 <= m <= 2 /\ (s' = 0 \/ s' = 1) /\ -2 <= m' <= 2) ->
  Forall (term_ok nb) L.
Proof.
  intros H. apply Forall_forall. intros [[x y] v] Hi. destruct (H _ Hi) as (s & m & s' & m' & E & Hs & Hm & Hs' & Hm').
  cbn [fst] in E. injection E as -> ->. split; cbn [fst snd]; apply (shell_ok nb 2 Hsh); auto.
Qed.
Lemma ok_Lz : Forall (term_ok nb) (@Lz_terms F 2).
Proof. apply ok_terms. intros xyv H. cbn in H. in_sites H; do 4 eexists; (split; [reflexivity|cbn; lia]). Qed.
Lemma ok_Sz : Forall (term_ok nb) (@Sz_terms F 2).
Proof. apply ok_terms. intros xyv H. cbn in H. in_sites H; do 4 eexists; (split; [reflexivity|cbn; lia]). Qed.
Lemma ok_N : Forall (term_ok nb) (@N_terms F 2).
Proof. apply ok_terms. intros xyv H. cbn in H. in_sites H; do 4 eexists; (split; [reflexivity|cbn; lia]). Qed.
Lemma ok_Lp : Forall (term_ok nb) (Lp_terms fsqrt 2).
Proof. apply ok_terms. intros xyv H. cbn in H. in_sites H; do 4 eexists; (split; [reflexivity|cbn; lia]). Qed.
Lemma ok_Lm : Forall (term_ok nb) (Lm_terms fsqrt 2).
Proof. apply ok_terms. intros xyv H. cbn in H. in_sites H; do 4 eexists; (split; [reflexivity|cbn; lia]). Qed.
Lemma ok_Sp : Forall (term_ok nb) (@Sp_terms F 2).
Proof. apply ok_terms. intros xyv H. cbn in H. in_sites H; do 4 eexists; (split; [reflexivity|cbn; lia]). Qed.
Lemma ok_Sm : Forall (term_ok nb) (@Sm_terms F 2).
Proof. apply ok_terms. intros xyv H. cbn in H. in_sites H; do 4 eexists; (split; [reflexivity|cbn; lia]). Qed.

Definition acts (f : psi_t F -> res (psi_t F)) (L : list (@term F)) : Prop :=
  forall psi, valid_psi n psi -> exists psi', f psi = Ok psi' /\ valid_psi n psi' /\ veq n (amp psi') (gam nb L (amp psi)).
Lemma acts_list (f : psi_t F -> res (psi_t F)) L : Forall (term_ok nb) L ->
  (forall psi, f psi = fold_res (fun acc (xyv : @term F) => hop_add nb (Z.of_nat n) psi acc (fst (fst xyv)) (snd (fst xyv)) (snd xyv)) L []) ->
  acts f L.
Proof. intros HL E psi Hv. rewrite E. apply (hop_list0 nb 2 Hsh); auto. Qed.
Lemma acts_Lz : acts (applyLz3d nb) (Lz_terms 2).
Proof.
  apply acts_list; [apply ok_Lz|]. intros psi. unfold applyLz3d. rewrite (total_orbitals_ok nb 2 Hsh). cbn [bind]. fold n.
  rewrite (fold_res_prod (fun acc s m => hop_add nb (Z.of_nat n) psi acc (SImp 2 s m) (SImp 2 s m) (cofZ m))).
  rewrite mrange_sites. unfold Lz_terms. rewrite fold_res_map. reflexivity.
Qed.
Lemma acts_Sz : acts (applySz3d nb) (Sz_terms 2).
Proof.
  apply acts_list; [apply ok_Sz|]. intros psi. unfold applySz3d. rewrite (total_orbitals_ok nb 2 Hsh). cbn [bind]. fold n.
  rewrite (fold_res_prod (fun acc s m => hop_add nb (Z.of_nat n) psi acc (SImp 2 s m) (SImp 2 s m) (creal (if s =? 1 then fhalf else - fhalf)%F))).
  rewrite mrange_sites. unfold Sz_terms. rewrite fold_res_map. reflexivity.
Qed.
Lemma acts_Lp : acts (applyLplus3d fsqrt nb) (Lp_terms fsqrt 2).
Proof.
  apply acts_list; [apply ok_Lp|]. intros psi. unfold applyLplus3d. rewrite (total_orbitals_ok nb 2 Hsh). cbn [bind]. fold n.
  rewrite (fold_res_prod (fun acc s m => hop_add nb (Z.of_nat n) psi acc (SImp 2 s (m + 1)) (SImp 2 s m) (creal (fsqrt (fofZ ((2 - m) * (2 + m + 1))))))).
  change (list_prod (zrange 2) (zrange2 (-2) 2)) with (filter (fun sm => snd sm <? 2) (sites 2)).
  unfold Lp_terms. rewrite fold_res_map. apply fold_res_ext. intros acc [s m] _. cbn [fst snd]. unfold ladder_coef, orb. cbn [fst snd].
  replace ((2 - m) * (2 + m + 1)) with (2 * (2 + 1) - m * (m + 1)) by ring. reflexivity.
Qed.
Lemma acts_Lm : acts (applyLminus3d fsqrt nb) (Lm_terms fsqrt 2).
Proof.
  apply acts_list; [apply ok_Lm|]. intros psi. unfold applyLminus3d. rewrite (total_orbitals_ok nb 2 Hsh). cbn [bind]. fold n.
  rewrite (fold_res_prod (fun acc s m => hop_add nb (Z.of_nat n) psi acc (SImp 2 s (m - 1)) (SImp 2 s m) (creal (fsqrt (fofZ ((2 + m) * (2 - m + 1))))))).
  change (list_prod (zrange 2) (zrange2 (-2 + 1) (2 + 1))) with (filter (fun sm => - 2 <? snd sm) (sites 2)).
  unfold Lm_terms. rewrite fold_res_map. apply fold_res_ext. intros acc [s m] _. cbn [fst snd]. unfold ladder_coef, orb. cbn [fst snd].
  replace ((2 + m) * (2 - m + 1)) with (2 * (2 + 1) - m * (m - 1)) by ring. reflexivity.
Qed.
Lemma acts_Sp : acts (applySplus3d nb) (Sp_terms 2).
Proof.
  apply acts_list; [apply ok_Sp|]. intros psi. unfold applySplus3d. rewrite (total_orbitals_ok nb 2 Hsh). cbn [bind]. fold n.
  unfold Sp_terms. rewrite fold_res_map.
  change (filter (fun sm => fst sm =? 0) (sites 2)) with (map (pair 0) (mrange 2)). rewrite fold_res_map. reflexivity.
Qed.
Lemma acts_Sm : acts (applySminus3d nb) (Sm_terms 2).
Proof.
  apply acts_list; [apply ok_Sm|]. intros psi. unfold applySminus3d. rewrite (total_orbitals_ok nb 2 Hsh). cbn [bind]. fold n.
  unfold Sm_terms. rewrite fold_res_map.
  change (filter (fun sm => fst sm =? 1) (sites 2)) with (map (pair 1) (mrange 2)). rewrite fold_res_map. reflexivity.
Qed.
Lemma acts_is_op f L psi : Forall (term_ok nb) L -> acts f L -> valid_psi n psi ->
  exists psi', f psi = Ok psi' /\ is_op n (one_body nb L) psi psi'.
Proof.
  intros HL Ha Hv. destruct (Ha psi Hv) as (p & E & Hp & G). exists p. split; auto. apply (gam_is_op nb 2 Hsh); auto.
Qed.

(* ---- adjoints ---- *)
Lemma acts_adjoint f g L M phi psi : acts f L -> acts g M -> (forall v t, gam nb (map dagt L) v t = gam nb M v t) ->
  valid_psi n phi -> valid_psi n psi ->
  exists psi' phi', f psi = Ok psi' /\ g phi = Ok phi' /\ inner phi psi' = inner phi' psi.
Proof.
  intros Hf Hg HLM Hphi Hpsi. destruct (Hf psi Hpsi) as (p & E & Hp & G). destruct (Hg phi Hphi) as (p' & E' & Hp' & G').
  exists p, p'. split; auto. split; auto. rewrite !(vip_inner n) by auto.
  rewrite (vip_ext n _ (amp phi) _ (gam nb L (amp psi))) by (auto; apply veq_refl).
  rewrite vip_gam. apply vip_ext; [|apply veq_refl]. intros t Ht. rewrite G' by auto. apply HLM.
Qed.
Lemma dag_L v t : gam nb (map dagt (Lp_terms fsqrt 2)) v t = gam nb (Lm_terms fsqrt 2) v t.
Proof.
  revert v t. unfold gam, csum.
  cbv [Lp_terms Lm_terms sites list_prod filter map app fold_right dagt fst snd orb ladder_coef seq Z.to_nat Pos.to_nat Pos.iter_op
       Init.Nat.add Z.of_nat Pos.of_succ_nat Pos.succ Z.mul Z.add Z.sub Z.opp Z.pos_sub Pos.mul Pos.add Pos.pred_double Z.double Z.succ_double Z.pred_double
       Z.ltb Z.compare Pos.compare Pos.compare_cont CompOpp].
  intros v t. rewrite !cconj_real. ring.
Qed.
Lemma dag_S v t : gam nb (map dagt (@Sp_terms F 2)) v t = gam nb (Sm_terms 2) v t.
Proof.
  revert v t. unfold gam, csum.
  cbv [Sp_terms Sm_terms sites list_prod filter map app fold_right dagt fst snd orb seq Z.to_nat Pos.to_nat Pos.iter_op
       Init.Nat.add Z.of_nat Pos.of_succ_nat Pos.succ Z.mul Z.add Z.sub Z.opp Z.pos_sub Pos.mul Pos.add Pos.pred_double Z.double Z.succ_double Z.pred_double
       Z.eqb Pos.eqb].
  intros v t. rewrite !cconj_1. ring.
Qed.
Lemma dag_dag (L : list (@term F)) : map dagt (map dagt L) = L.
Proof. rewrite map_map. rewrite <- (map_id L) at 2. apply map_ext. intros [[x y] c]. unfold dagt. cbn [fst snd]. rewrite cconj_conj. auto. Qed.

Lemma dag_diag (L : list (@term F)) : Forall (fun xyv => fst (fst xyv) = snd (fst xyv) /\ cconj (snd xyv) = snd xyv) L -> map dagt L = L.
Proof.
  intros H. induction H as [|[[x y] c] L [E1 E2] H IH]; cbn [map]; auto. rewrite IH. f_equal. cbn [fst snd] in *. unfold dagt.
  cbn [fst snd]. congruence.
Qed.
Lemma dag_Lz : map dagt (@Lz_terms F 2) = Lz_terms 2.
Proof. apply dag_diag. unfold Lz_terms. apply Forall_map, Forall_forall. intros sm _. cbn [fst snd]. split; auto. apply cconj_cofZ. Qed.
Lemma dag_Sz : map dagt (@Sz_terms F 2) = Sz_terms 2.
Proof. apply dag_diag. unfold Sz_terms. apply Forall_map, Forall_forall. intros sm _. cbn [fst snd]. split; auto. apply cconj_real. Qed.

(* ---- commutators ---- *)
Lemma acts_comm f g L M psi : acts f L -> acts g M -> Forall (term_ok nb) L -> Forall (term_ok nb) M -> valid_psi n psi ->
  exists q qp p pq, g psi = Ok q /\ f q = Ok qp /\ f psi = Ok p /\ g p = Ok pq /\
    forall t, length t = n -> (amp qp t - amp pq t)%C = gam nb (comml L M) (amp psi) t.
Proof.
  intros Hf Hg HL HM Hv. destruct (Hg psi Hv) as (q & E1 & Hq & G1). destruct (Hf q Hq) as (qp & E2 & Hqp & G2).
  destruct (Hf psi Hv) as (p & E3 & Hp & G3). destruct (Hg p Hp) as (pq & E4 & Hpq & G4).
  exists q, qp, p, pq. split; auto. split; auto. split; auto. split; auto. intros t Ht.
  rewrite G2, G4 by auto. rewrite <- (gam_comm nb Hwf L M) by auto. f_equal.
  - apply (gam_ext nb n L _ _ G1 t Ht).
  - apply (gam_ext nb n M _ _ G3 t Ht).
Qed.
Ltac gam_cbv :=
  unfold gam, csum;
  cbv [comml commt Lp_terms Lm_terms Sp_terms Sm_terms Lz_terms Sz_terms ladder_coef sites list_prod filter flat_map map app fold_right
       fst snd orb seq Z.to_nat Pos.to_nat Pos.iter_op eqb EqB_spinorb spinorb_eqb andb
       Init.Nat.add Z.of_nat Pos.of_succ_nat Pos.succ Z.mul Z.add Z.sub Z.opp Z.pos_sub Pos.mul Pos.add Pos.pred_double Z.double Z.succ_double Z.pred_double
       Z.eqb Pos.eqb Z.ltb Z.compare Pos.compare Pos.compare_cont CompOpp].
Hypothesis Hsq : forall x : F, (0 <= x)%F -> (0 <= fsqrt x)%F /\ (fsqrt x * fsqrt x)%F = x.
Lemma fofZ_nonneg z : 0 <= z -> (0 <= @fofZ F z)%F.
Proof.
  intros Hz. pattern z. apply Zlt_0_ind; auto. clear z Hz. intros z IH Hz.
  destruct (Z.eq_dec z 0) as [->|]; [apply fle_refl|].
  replace z with (1 + (z - 1)) by lia. rewrite fofZ_add. apply fadd_nonneg; [|apply IH; lia]. apply flt_le. apply flt_0_1.
Qed.
Lemma csqrt z : 0 <= z -> (creal (fsqrt (fofZ z)) * creal (fsqrt (fofZ z)))%C = @cofZ F z.
Proof. intros Hz. rewrite <- creal_mul. destruct (Hsq (fofZ z) (fofZ_nonneg z Hz)) as [_ ->]. reflexivity. Qed.
Lemma cofZ_vals : @cofZ F 4 = (c1 + c1 + c1 + c1)%C /\ @cofZ F 6 = (c1 + c1 + c1 + c1 + c1 + c1)%C /\
  @cofZ F 2 = (c1 + c1)%C /\ @cofZ F (-2) = (- (c1 + c1))%C.
Proof.
  change 4 with (1 + 1 + 1 + 1). change 6 with (1 + 1 + 1 + 1 + 1 + 1). change (-2) with (-1 + -1). change 2 with (1 + 1).
  rewrite !cofZ_add, cofZ_1, cofZ_m1. repeat split; ring.
Qed.
Lemma comm_LpLm v t : gam nb (comml (Lp_terms fsqrt 2) (Lm_terms fsqrt 2)) v t = ((c1 + c1) * gam nb (Lz_terms 2) v t)%C.
Proof.
  gam_cbv. pose proof (csqrt 4 ltac:(lia)) as H4. pose proof (csqrt 6 ltac:(lia)) as H6.
  destruct cofZ_vals as (V4 & V6 & V2 & Vm2). rewrite V4 in H4. rewrite V6 in H6. rewrite V2, Vm2, cofZ_0, cofZ_1, cofZ_m1.
  set (a := creal (fsqrt (fofZ 4))) in *. set (b := creal (fsqrt (fofZ 6))) in *. clearbody a b. ring [H4 H6].
Qed.

Add Field Cf : (@c_field F).
Lemma two_neq : (@c1 F + c1)%C <> c0.
Proof.
  intros E. apply (f_equal re) in E. cbn in E. pose proof (flt_0_1 (F := F)) as H. pose proof (fadd_pos 1 1 H (flt_le _ _ H))%F as G.
  rewrite E in G. rewrite flt_irrefl in G. discriminate.
Qed.
Lemma half_c : creal (@fhalf F) = (c1 / (c1 + c1))%C.
Proof.
  assert (E : ((c1 + c1) * creal fhalf)%C = @c1 F).
  { apply cx_ext; cbn; unfold fhalf; field; intros E; apply two_neq; apply cx_ext; cbn; auto; ring. }
  rewrite <- E at 1. field. apply two_neq.
Qed.
Lemma mhalf_c : creal (- @fhalf F)%F = (- (c1 / (c1 + c1)))%C.
Proof. rewrite <- half_c. apply cx_ext; cbn; ring. Qed.
Ltac gam_solve :=
  gam_cbv; rewrite ?half_c, ?mhalf_c;
  destruct cofZ_vals as (_ & _ & V2 & Vm2); rewrite ?V2, ?Vm2, ?cofZ_0, ?cofZ_1, ?cofZ_m1;
  set (a := creal (fsqrt (fofZ 4))) in *; set (b := creal (fsqrt (fofZ 6))) in *; clearbody a b; try (field; apply two_neq); try ring.
Lemma comm_LzLp v t : gam nb (comml (Lz_terms 2) (Lp_terms fsqrt 2)) v t = gam nb (Lp_terms fsqrt 2) v t.
Proof. gam_solve. Qed.
Lemma comm_LzLm v t : gam nb (comml (Lz_terms 2) (Lm_terms fsqrt 2)) v t = (- gam nb (Lm_terms fsqrt 2) v t)%C.
Proof. gam_solve. Qed.
Lemma comm_SpSm (v : config -> cx F) t : gam nb (comml (Sp_terms 2) (Sm_terms 2)) v t = ((c1 + c1) * gam nb (Sz_terms 2) v t)%C.
Proof. gam_solve. Qed.
Lemma comm_SzSp (v : config -> cx F) t : gam nb (comml (Sz_terms 2) (Sp_terms 2)) v t = gam nb (Sp_terms 2) v t.
Proof. gam_solve. Qed.
Lemma comm_SzSm (v : config -> cx F) t : gam nb (comml (Sz_terms 2) (Sm_terms 2)) v t = (- gam nb (Sm_terms 2) v t)%C.
Proof. gam_solve. Qed.
Lemma comm_LS L M v t : In L [Lz_terms 2; Lp_terms fsqrt 2; Lm_terms fsqrt 2] -> In M [Sz_terms 2; Sp_terms 2; Sm_terms 2] ->
  gam nb (comml L M) v t = c0.
Proof.
  intros [<-|[<-|[<-|[]]]] [<-|[<-|[<-|[]]]]; gam_solve.
Qed.

(* ---- squares ---- *)
Lemma acts_square f g L M psi : acts f L -> acts g M -> (forall v t, gam nb (map dagt L) v t = gam nb M v t) -> valid_psi n psi ->
  exists p q, f psi = Ok p /\ g p = Ok q /\ valid_psi n p /\ valid_psi n q /\ creal (norm2 p) = inner psi q.
Proof.
  intros Hf Hg HLM Hv. destruct (Hf psi Hv) as (p & E & Hp & G). destruct (Hg p Hp) as (q & E' & Hq & G').
  exists p, q. repeat (split; [assumption|]). rewrite norm2_inner by apply Hp.
  rewrite !(vip_inner n) by auto. rewrite (vip_ext n (amp psi) (amp psi) (amp q) (gam nb (map dagt L) (amp p))).
  - rewrite vip_gam, dag_dag. apply vip_ext; [auto|apply veq_refl].
  - apply veq_refl.
  - intros t Ht. rewrite G' by auto. symmetry. apply HLM.
Qed.
Lemma norm2_nonneg (psi : psi_t F) : (0 <= norm2 psi)%F.
Proof. rewrite norm2_fsum. apply fsum_nonneg. intros a _. apply cabs2_nonneg. Qed.
Lemma fhalf_nonneg : (0 <= @fhalf F)%F.
Proof. unfold fhalf. apply fdiv_nonneg; [apply flt_le, flt_0_1|]. apply fadd_pos; [apply flt_0_1|apply flt_le, flt_0_1]. Qed.
Lemma dag_L' v t : gam nb (map dagt (Lm_terms fsqrt 2)) v t = gam nb (Lp_terms fsqrt 2) v t.
Proof.
  revert v t. unfold gam, csum.
  cbv [Lp_terms Lm_terms sites list_prod filter map app fold_right dagt fst snd orb ladder_coef seq Z.to_nat Pos.to_nat Pos.iter_op
       Init.Nat.add Z.of_nat Pos.of_succ_nat Pos.succ Z.mul Z.add Z.sub Z.opp Z.pos_sub Pos.mul Pos.add Pos.pred_double Z.double Z.succ_double Z.pred_double
       Z.ltb Z.compare Pos.compare Pos.compare_cont CompOpp].
  intros v t. rewrite !cconj_real. ring.
Qed.
Lemma dag_S' v t : gam nb (map dagt (@Sm_terms F 2)) v t = gam nb (Sp_terms 2) v t.
Proof.
  revert v t. unfold gam, csum.
  cbv [Sp_terms Sm_terms sites list_prod filter map app fold_right dagt fst snd orb seq Z.to_nat Pos.to_nat Pos.iter_op
       Init.Nat.add Z.of_nat Pos.of_succ_nat Pos.succ Z.mul Z.add Z.sub Z.opp Z.pos_sub Pos.mul Pos.add Pos.pred_double Z.double Z.succ_double Z.pred_double
       Z.eqb Pos.eqb].
  intros v t. rewrite !cconj_1. ring.
Qed.
Lemma square_sum fz fp fm Lz Lp Lm psi : acts fz Lz -> acts fp Lp -> acts fm Lm -> map dagt Lz = Lz ->
  (forall v t, gam nb (map dagt Lp) v t = gam nb Lm v t) -> (forall v t, gam nb (map dagt Lm) v t = gam nb Lp v t) -> valid_psi n psi ->
  exists v z zz p mp m pm, (do psi1 <- fz psi; do psi2 <- fp psi; do psi3 <- fm psi; Ok (norm2 psi1 + fhalf * (norm2 psi2 + norm2 psi3))%F) = Ok v /\
    fz psi = Ok z /\ fz z = Ok zz /\ fp psi = Ok p /\ fm p = Ok mp /\ fm psi = Ok m /\ fp m = Ok pm /\
    creal v = (inner psi zz + creal fhalf * (inner psi mp + inner psi pm))%C /\ (0 <= v)%F.
Proof.
  intros Hz Hp Hm Dz Dp Dm Hv.
  destruct (acts_square fz fz Lz Lz psi Hz Hz) as (z & zz & E1 & E2 & _ & _ & N1); auto. { intros v t. rewrite Dz. auto. }
  destruct (acts_square fp fm Lp Lm psi Hp Hm Dp Hv) as (p & mp & E3 & E4 & _ & _ & N2).
  destruct (acts_square fm fp Lm Lp psi Hm Hp Dm Hv) as (m & pm & E5 & E6 & _ & _ & N3).
  exists (norm2 z + fhalf * (norm2 p + norm2 m))%F, z, zz, p, mp, m, pm. rewrite E1, E3, E5. cbn [bind].
  do 7 (split; [solve [auto]|]). split.
  - rewrite <- N1, <- N2, <- N3, creal_add, creal_mul, creal_add. reflexivity.
  - apply fadd_nonneg; [apply norm2_nonneg|]. apply fmul_nonneg; [apply fhalf_nonneg|]. apply fadd_nonneg; apply norm2_nonneg.
Qed.
End A.
