(* Magnetic field operator; conserved quantum numbers of configurations. *)
From Coq Require Import Permutation Ring Field.
From Verif Require Import M_Prelude M_Scalar M_PSR M_Ladder M_State M_Basis M_Expect M_Operators.
From Verif Require Import S_Fock S_Ops S_Basis S_Expect S_Operators.
From Verif Require Import L_Scalar L_Sum L_Dict L_Ops L_Index L_Expect L_Expect2 L_Expect3 L_Expect5 L_Expect6 L_Operators.
Local Open Scope Z_scope.

Section A.
Context {F : ofield}.
Add Field Ff : (f_field F).
Add Ring Cring : (@c_ring F).
Add Field Cf : (@c_field F).

Definition fld_up (hx hy : F) : cx F := (creal (hx / fofZ 2) + creal (- hy)%F * cI / cofZ 2)%C.
Definition fld_dn (hx hy : F) : cx F := (creal (hx / fofZ 2) + creal hy * cI / cofZ 2)%C.
Definition fld_m (hx hy hz : F) (l m : Z) : list (sprocess * cx F) :=
  [(hop2 (SImp l 1 m) (SImp l 0 m), fld_up hx hy); (hop2 (SImp l 0 m) (SImp l 1 m), fld_dn hx hy);
   (hop2 (SImp l 0 m) (SImp l 0 m), creal (- hz / fofZ 2)%F); (hop2 (SImp l 1 m) (SImp l 1 m), creal (hz / fofZ 2)%F)].
Definition fld_list (hx hy hz : F) (l : Z) : list (sprocess * cx F) := flat_map (fld_m hx hy hz l) (mrange l).
Lemma fld_wr (hx hy hz : F) l : gethHfieldop hx hy hz l = wr (fld_list hx hy hz l) [].
Proof.
  unfold gethHfieldop, fld_list. rewrite (wr_flat _ (fld_m hx hy hz l)); [reflexivity|]. intros d m _.
  set (up := hop2 (SImp l 1 m) (SImp l 0 m)). set (dn := hop2 (SImp l 0 m) (SImp l 1 m)).
  assert (Hud : up <> dn) by (unfold up, dn, hop2; intros E; injection E; lia).
  change [cre_ (SImp l 1 m); ann_ (SImp l 0 m)] with up. change [cre_ (SImp l 0 m); ann_ (SImp l 1 m)] with dn.
  cbv zeta. unfold fld_m, wr. cbn [fold_left fst snd]. fold up dn.
  unfold dadd. rewrite (dget_dset_other _ dn) by auto. rewrite dget_dset_same. rewrite dset_swap by auto.
  rewrite dget_dset_same, dset_same. reflexivity.
Qed.
Lemma fld_In hx hy hz l p v : In (p, v) (fld_list hx hy hz l) <-> exists m, - l <= m <= l /\
  ((p = hop2 (SImp l 1 m) (SImp l 0 m) /\ v = fld_up hx hy) \/ (p = hop2 (SImp l 0 m) (SImp l 1 m) /\ v = fld_dn hx hy) \/
   (p = hop2 (SImp l 0 m) (SImp l 0 m) /\ v = creal (- hz / fofZ 2)%F) \/ (p = hop2 (SImp l 1 m) (SImp l 1 m) /\ v = creal (hz / fofZ 2)%F)).
Proof.
  unfold fld_list. rewrite in_flat_map. split; intros (m & Hm & Hi); exists m.
  - unfold mrange in Hm. apply zrange2_In in Hm. split; [lia|]. cbn [fld_m In] in Hi.
    destruct Hi as [E|[E|[E|[E|[]]]]]; injection E as <- <-; auto 6.
  - split; [apply zrange2_In; lia|]. cbn [fld_m In]. destruct Hi as [[-> ->]|[[-> ->]|[[-> ->]|[-> ->]]]]; auto 6.
Qed.
Ltac hop_eq E := unfold hop2 in E; injection E; intros; subst; try lia; try discriminate.
Lemma fld_consistent hx hy hz l : consistent (fld_list hx hy hz l).
Proof.
  intros p v v' H H'. apply fld_In in H, H'. destruct H as (m & _ & H), H' as (m' & _ & H').
  destruct H as [[-> ->]|[[-> ->]|[[-> ->]|[-> ->]]]]; destruct H' as [[E ->]|[[E ->]|[[E ->]|[E ->]]]]; auto; hop_eq E.
Qed.
Lemma fld_NoDup (hx hy hz : F) l : NoDup (dkeys (gethHfieldop hx hy hz l)).
Proof. rewrite fld_wr. apply NoDup_wr. constructor. Qed.
Lemma fld_dget (hx hy hz : F) l p v : dget (gethHfieldop hx hy hz l) p = Some v <-> In (p, v) (fld_list hx hy hz l).
Proof. rewrite fld_wr. apply dget_wr, fld_consistent. Qed.
Lemma fld_key (hx hy hz : F) l p : In p (dkeys (gethHfieldop hx hy hz l)) <-> exists v, In (p, v) (fld_list hx hy hz l).
Proof. rewrite dget_Some_key. split; intros [v H]; exists v; apply fld_dget; auto. Qed.
Lemma cofZ_2 : @cofZ F 2 = (c1 + c1)%C.
Proof. unfold cofZ. rewrite fofZ_2. apply cx_ext; cbn; ring. Qed.
Lemma cdiv_2 (x : cx F) : (x / cofZ 2)%C = mkC (re x / (1 + 1))%F (im x / (1 + 1))%F.
Proof.
  unfold cofZ. rewrite fofZ_2. pose proof two_nz (F := F) as H.
  assert (H2 : ((1 + 1) * (1 + 1) : F)%F <> 0%F).
  { intros E. apply fmul_integral in E as [E|E]; auto. }
  apply cx_ext; cbn; unfold cabs2; cbn; field; repeat split; first [exact H|exact H2].
Qed.
Lemma fld_conj hx hy : cconj (fld_up hx hy) = fld_dn hx hy.
Proof. unfold fld_up, fld_dn. rewrite !cdiv_2, fofZ_2. pose proof two_nz (F := F). apply cx_ext; cbn; field; auto. Qed.

Lemma fld_hermitian (hx hy hz : F) l : assert_hermitian (gethHfieldop hx hy hz l) = Ok tt.
Proof.
  apply herm_intro.
  - intros p v H. apply fld_dget, fld_In in H as (m & _ & H). destruct H as [[-> ->]|[[-> ->]|[[-> ->]|[-> ->]]]]; apply good_hop2.
  - apply fld_NoDup.
  - intros p v H. apply fld_dget, fld_In in H as (m & Hm & H). apply fld_dget, fld_In. exists m. split; auto.
    destruct H as [[-> ->]|[[-> ->]|[[-> ->]|[-> ->]]]]; rewrite dag_hop2.
    + right; left. rewrite fld_conj. auto.
    + left. rewrite <- fld_conj, cconj_conj. auto.
    + right; right; left. rewrite cconj_real. auto.
    + right; right; right. rewrite cconj_real. auto.
Qed.
Lemma fld_conserves (hx hy hz : F) l : conserves q_N (gethHfieldop hx hy hz l) /\ conserves q_Lz (gethHfieldop hx hy hz l).
Proof.
  split; intros p H; apply fld_key in H as [v H]; apply fld_In in H as (m & _ & H);
  destruct H as [[-> _]|[[-> _]|[[-> _]|[-> _]]]]; rewrite pcharge_hop2; unfold q_N, q_Lz; lia.
Qed.
Lemma fld_matrix (hx hy hz : F) l : one_body_op l (gethHfieldop hx hy hz l) (hS hx hy hz).
Proof.
  split.
  - intros p H. apply fld_key in H as [v H]. apply fld_In in H as (m & Hm & H).
    destruct H as [[-> _]|[[-> _]|[[-> _]|[-> _]]]];
      (do 2 eexists; split; [reflexivity|]; split; do 2 eexists; (split; [reflexivity|lia])).
  - intros x y (s & m & -> & Hs & Hm) (s' & m' & -> & Hs' & Hm').
    assert (EI : forall z : cx F, (z / (cofZ 2 * cI))%C = ((- cI * z) / cofZ 2)%C).
    { intros z. assert (Hc : @cofZ F 2 <> c0).
      { rewrite cofZ_2. apply two_neq. }
      assert (Hi : @cI F <> c0). { intros E. apply (f_equal im) in E. cbn in E. pose proof (flt_0_1 (F := F)) as G. rewrite E, flt_irrefl in G. discriminate. }
      assert (E : (@cI F * cI)%C = (- c1)%C) by (apply cx_ext; cbn; ring).
      assert (Ez : z = (- (cI * cI) * z)%C) by (rewrite E; ring).
      rewrite Ez at 1. field. auto. }
    unfold hS. rewrite EI. unfold m_Sp, m_Sm, m_Sz, onem. pose proof two_nz (F := F) as H2.
    destruct (Z.eqb_spec m m') as [<-|Hne].
    + destruct Hs as [-> | ->], Hs' as [-> | ->]; cbn [Z.eqb Pos.eqb andb when].
      * rewrite (val_some _ _ (creal (- hz / fofZ 2)%F)) by (apply fld_dget, fld_In; exists m; auto 6).
        rewrite !cdiv_2, fofZ_2. apply cx_ext; cbn; unfold fhalf; field; auto.
      * rewrite (val_some _ _ (fld_dn hx hy)) by (apply fld_dget, fld_In; exists m; auto 6).
        unfold fld_dn. rewrite !cdiv_2, fofZ_2. apply cx_ext; cbn; unfold fhalf; field; auto.
      * rewrite (val_some _ _ (fld_up hx hy)) by (apply fld_dget, fld_In; exists m; auto 6).
        unfold fld_up. rewrite !cdiv_2, fofZ_2. apply cx_ext; cbn; unfold fhalf; field; auto.
      * rewrite (val_some _ _ (creal (hz / fofZ 2)%F)) by (apply fld_dget, fld_In; exists m; auto 8).
        rewrite !cdiv_2, fofZ_2. apply cx_ext; cbn; unfold fhalf; field; auto.
    + rewrite val_none.
      * rewrite !Bool.andb_false_r. cbn [when]. rewrite !cdiv_2. apply cx_ext; cbn; field; auto.
      * intros v E. apply fld_dget, fld_In in E as (m1 & _ & E). destruct E as [[E _]|[[E _]|[[E _]|[E _]]]]; hop_eq E.
Qed.
End A.
