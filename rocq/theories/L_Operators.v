(* Dictionaries written by nested loops; spin-orbit coupling and magnetic field operators. *)
From Coq Require Import Permutation Ring Field.
From Verif Require Import M_Prelude M_Scalar M_PSR M_Ladder M_State M_Basis M_Expect M_Operators.
From Verif Require Import S_Fock S_Ops S_Basis S_Expect S_Operators.
From Verif Require Import L_Scalar L_Sum L_Dict L_Ops L_Index L_Expect L_Expect2 L_Expect3 L_Expect5 L_Expect6.
Local Open Scope Z_scope.

(* the writes (k, v) of a loop, in order *)
Section W.
Context {K : Type} {EK : EqB K} {V : Type}.
Implicit Types d : dict K V.
Definition wr (L : list (K * V)) d : dict K V := fold_left (fun d kv => dset d (fst kv) (snd kv)) L d.
Lemma wr_app L M d : wr (L ++ M) d = wr M (wr L d).
Proof. apply fold_left_app. Qed.
Lemma wr_flat {X} (step : dict K V -> X -> dict K V) (g : X -> list (K * V)) l :
  (forall d x, In x l -> step d x = wr (g x) d) -> forall d, fold_left step l d = wr (flat_map g l) d.
Proof.
  induction l as [|x l IH]; intros H d; cbn [fold_left flat_map]; auto.
  rewrite H by (cbn; auto). rewrite IH by (intros; apply H; cbn; auto). rewrite wr_app. reflexivity.
Qed.
Lemma NoDup_wr L : forall d, NoDup (dkeys d) -> NoDup (dkeys (wr L d)).
Proof. induction L as [|[k v] L IH]; intros d H; cbn [wr fold_left]; auto. apply IH. apply NoDup_dset; auto. Qed.
Lemma keys_wr L k : forall d, In k (dkeys (wr L d)) <-> In k (dkeys d) \/ In k (map fst L).
Proof.
  induction L as [|[k0 v] L IH]; intros d; cbn [wr fold_left map fst snd].
  - cbn. tauto.
  - change (fold_left _ L (dset d k0 v)) with (wr L (dset d k0 v)). rewrite IH, in_dkeys_dset. cbn [In]. intuition.
Qed.
Lemma dget_wr_notin L k : forall d, ~ In k (map fst L) -> dget (wr L d) k = dget d k.
Proof.
  induction L as [|[k0 v] L IH]; intros d H; cbn [wr fold_left fst snd]; auto.
  change (fold_left _ L (dset d k0 v)) with (wr L (dset d k0 v)). cbn [map fst In] in H.
  rewrite IH by tauto. apply dget_dset_other. intros ->. apply H. auto.
Qed.
(* all writes to one key write the same value *)
Definition consistent (L : list (K * V)) : Prop := forall k v v', In (k, v) L -> In (k, v') L -> v = v'.
Lemma dget_wr_in L k : consistent L -> forall v d, In (k, v) L -> dget (wr L d) k = Some v.
Proof.
  induction L as [|[k0 v0] L IH]; intros HC v d Hi; [destruct Hi|]. cbn [wr fold_left fst snd].
  change (fold_left _ L (dset d k0 v0)) with (wr L (dset d k0 v0)).
  assert (HC' : consistent L) by (intros k' w w' A B; apply (HC k'); right; auto).
  destruct (in_dec_key k (map fst L)) as [Hk|Hk].
  - apply in_map_iff in Hk as ([k1 w] & E & Hw). cbn [fst] in E. subst k1.
    rewrite (IH HC' w _ Hw). f_equal. apply (HC k); [right|]; auto.
  - rewrite dget_wr_notin by auto. destruct Hi as [E|Hi]; [|elim Hk; apply (in_map fst) in Hi; exact Hi].
    injection E as -> ->. apply dget_dset_same.
Qed.
Lemma dget_wr L k v : consistent L -> dget (wr L []) k = Some v <-> In (k, v) L.
Proof.
  intros HC. split.
  - intros E. destruct (in_dec_key k (map fst L)) as [Hk|Hk].
    + apply in_map_iff in Hk as ([k1 w] & E' & Hw). cbn [fst] in E'. subst k1.
      rewrite (dget_wr_in L k HC w [] Hw) in E. injection E as ->. auto.
    + rewrite dget_wr_notin in E by auto. discriminate.
  - intros Hi. apply dget_wr_in; auto.
Qed.
Lemma dset_swap d k k' a b a' : k <> k' -> dset (dset (dset d k a) k' b) k a' = dset (dset d k a') k' b.
Proof.
  intros Hne. assert (Hne' : k' <> k) by auto.
  assert (Hs : forall d : dict K V, dset (dset d k a) k a' = dset d k a').
  { clear d. induction d as [|[k0 v0] d IH]; cbn [dset]; [rewrite eqb_refl; auto|].
    destruct (eqb_spec k k0) as [<-|H0]; cbn [dset]; [rewrite eqb_refl; auto|]. rewrite (eqb_neq k k0) by auto. f_equal. apply IH. }
  pose proof (eqb_neq _ _ Hne) as E1. pose proof (eqb_neq _ _ Hne') as E2.
  induction d as [|[k0 v0] d IH].
  - repeat (cbn [dset]; rewrite ?eqb_refl, ?E1, ?E2). reflexivity.
  - destruct (eqb_spec k k0) as [<-|H0].
    + repeat (cbn [dset]; rewrite ?eqb_refl, ?E1, ?E2). reflexivity.
    + destruct (eqb_spec k' k0) as [<-|H1].
      * repeat (cbn [dset]; rewrite ?eqb_refl, ?E1, ?E2). rewrite Hs. reflexivity.
      * pose proof (eqb_neq _ _ H0) as E3. pose proof (eqb_neq _ _ H1) as E4.
        repeat (cbn [dset]; rewrite ?E3, ?E4). rewrite IH. reflexivity.
Qed.
Lemma dset_same d k a b : dset (dset d k a) k b = dset d k b.
Proof.
  induction d as [|[k0 v0] d IH]; cbn [dset]; [rewrite eqb_refl; auto|].
  destruct (eqb_spec k k0) as [<-|H0]; cbn [dset]; [rewrite eqb_refl; auto|]. rewrite (eqb_neq k k0) by auto. f_equal. apply IH.
Qed.
End W.

Section A.
Context {F : ofield}.
Add Field Ff : (f_field F).
Add Ring Cring : (@c_ring F).
Add Field Cf : (@c_field F).
Variable fsqrt : F -> F.

Lemma cre_ne x y : cre_ x <> ann_ y.
Proof. unfold cre_, ann_. intros E. injection E as _ E. discriminate. Qed.

(* ---- spin-orbit coupling ---- *)
Definition soc_diag (xi : F) (l m : Z) : list (sprocess * cx F) :=
  map (fun s => (hop2 (SImp l s m) (SImp l s m), creal (xi * fofZ m * (if s =? 1 then 1 / fofZ 2 else - (1) / fofZ 2))%F)) (zrange 2).
Definition soc_off (xi : F) (l m : Z) : list (sprocess * cx F) :=
  let v := creal (xi / fofZ 2 * fsqrt (fofZ ((l - m) * (l + m + 1))))%F in
  [(hop2 (SImp l 1 m) (SImp l 0 (m + 1)), v); (hop2 (SImp l 0 (m + 1)) (SImp l 1 m), v)].
Definition soc_list (xi : F) (l : Z) : list (sprocess * cx F) :=
  flat_map (soc_diag xi l) (mrange l) ++ flat_map (soc_off xi l) (zrange2 (- l) l).
Lemma soc_wr xi l : getSOCop fsqrt xi l = wr (soc_list xi l) [].
Proof.
  unfold getSOCop, soc_list. rewrite wr_app.
  rewrite (wr_flat _ (soc_off xi l)) by (intros d m _; reflexivity).
  rewrite (wr_flat _ (soc_diag xi l)); [reflexivity|]. intros d m _. reflexivity.
Qed.
Lemma soc_In xi l p v : In (p, v) (soc_list xi l) <->
  (exists s m, (s = 0 \/ s = 1) /\ - l <= m <= l /\ p = hop2 (SImp l s m) (SImp l s m) /\
     v = creal (xi * fofZ m * (if s =? 1 then 1 / fofZ 2 else - (1) / fofZ 2))%F) \/
  (exists m, - l <= m < l /\ v = creal (xi / fofZ 2 * fsqrt (fofZ ((l - m) * (l + m + 1))))%F /\
     (p = hop2 (SImp l 1 m) (SImp l 0 (m + 1)) \/ p = hop2 (SImp l 0 (m + 1)) (SImp l 1 m))).
Proof.
  unfold soc_list. rewrite in_app_iff, !in_flat_map. split.
  - intros [(m & Hm & Hi)|(m & Hm & Hi)].
    + left. unfold soc_diag in Hi. apply in_map_iff in Hi as (s & E & Hs). injection E as <- <-.
      unfold mrange in Hm. apply zrange2_In in Hm. apply zrange_In in Hs. exists s, m. repeat split; auto; lia.
    + right. apply zrange2_In in Hm. exists m. destruct Hi as [E|[E|[]]]; injection E as <- <-; auto.
  - intros [(s & m & Hs & Hm & -> & ->)|(m & Hm & -> & Hp)].
    + left. exists m. split; [unfold mrange; apply zrange2_In; lia|]. apply in_map_iff. exists s. split; auto. apply zrange_In; lia.
    + right. exists m. split; [apply zrange2_In; lia|]. destruct Hp as [-> | ->]; cbn; auto.
Qed.
Lemma soc_consistent xi l : consistent (soc_list xi l).
Proof.
  intros p v v' H H'. apply soc_In in H, H'.
  destruct H as [(s & m & Hs & Hm & -> & ->)|(m & Hm & -> & [-> | ->])];
  destruct H' as [(s' & m' & Hs' & Hm' & E & ->)|(m' & Hm' & -> & [E|E])]; unfold hop2 in E; try (injection E; intros; subst; lia || discriminate).
  all: injection E; intros; subst; try discriminate; try reflexivity.
  all: try (replace m' with m by lia; reflexivity).
Qed.
Lemma soc_NoDup xi l : NoDup (dkeys (getSOCop fsqrt xi l)).
Proof. rewrite soc_wr. apply NoDup_wr. constructor. Qed.
Lemma soc_dget xi l p v : dget (getSOCop fsqrt xi l) p = Some v <-> In (p, v) (soc_list xi l).
Proof. rewrite soc_wr. apply dget_wr, soc_consistent. Qed.
Lemma soc_key xi l p : In p (dkeys (getSOCop fsqrt xi l)) <-> exists v, In (p, v) (soc_list xi l).
Proof. rewrite dget_Some_key. split; intros [v H]; exists v; apply soc_dget; auto. Qed.

(* operators given by their entries *)
Lemma herm_intro (op : sop_t F) : (forall p v, dget op p = Some v -> Forall good_label p) ->
  NoDup (dkeys op) -> (forall p v, dget op p = Some v -> dget op (dag p) = Some (cconj v)) -> assert_hermitian op = Ok tt.
Proof.
  intros Hg Hn H. apply assert_hermitian_iff; auto. split; [|exact H].
  apply Forall_forall. intros [p v] Hi. cbn [fst]. apply (Hg p v). apply In_dget; auto.
Qed.
Lemma dag_hop2 x y : dag (hop2 x y) = hop2 y x. Proof. reflexivity. Qed.
Lemma good_hop2 x y : Forall good_label (hop2 x y).
Proof.
  apply Forall_cons; [right; reflexivity|]. apply Forall_cons; [left; reflexivity|]. constructor.
Qed.

Lemma pcharge_hop2 (w : spinorb -> Z) x y : pcharge w (hop2 x y) = w x - w y.
Proof. unfold pcharge, hop2. cbn [map fst snd Ascii.eqb Bool.eqb zsum fold_right]. lia. Qed.
Lemma pcharge_hop4 (w : spinorb -> Z) x y z t : pcharge w (hop4 x y z t) = w x + w y - w z - w t.
Proof. unfold pcharge, hop4. cbn [map fst snd Ascii.eqb Bool.eqb zsum fold_right]. lia. Qed.

Lemma soc_hermitian xi l : assert_hermitian (getSOCop fsqrt xi l) = Ok tt.
Proof.
  apply herm_intro.
  - intros p v H. apply soc_dget in H. apply soc_In in H.
    destruct H as [(s & m & _ & _ & -> & _)|(m & _ & _ & [-> | ->])]; apply good_hop2.
  - apply soc_NoDup.
  - intros p v H. apply soc_dget in H. apply soc_dget. apply soc_In in H. apply soc_In.
    destruct H as [(s & m & Hs & Hm & -> & ->)|(m & Hm & -> & [-> | ->])].
    + left. exists s, m. rewrite dag_hop2, cconj_real. auto.
    + right. exists m. rewrite dag_hop2, cconj_real. auto.
    + right. exists m. rewrite dag_hop2, cconj_real. auto.
Qed.
Lemma soc_conserves xi l : conserves q_N (getSOCop fsqrt xi l) /\ conserves q_2Jz (getSOCop fsqrt xi l).
Proof.
  split; intros p H; apply soc_key in H as [v H]; apply soc_In in H;
  destruct H as [(s & m & Hs & Hm & -> & _)|(m & Hm & _ & [-> | ->])]; rewrite pcharge_hop2; unfold q_N, q_2Jz, q_2Sz, q_Lz; lia.
Qed.

Lemma mm_single l (a b : spinorb -> spinorb -> cx F) x y s m : In (s, m) (sites l) ->
  (forall s' m', In (s', m') (sites l) -> (s', m') <> (s, m) -> (a x (SImp l s' m') * b (SImp l s' m') y)%C = c0) ->
  mm l a b x y = (a x (SImp l s m) * b (SImp l s m) y)%C.
Proof.
  intros Hi H. unfold mm. rewrite (csum_single _ (sites l) (s, m)); auto.
  - apply sites_NoDup.
  - intros [s' m'] Hi' Hne. apply (H s' m'); auto.
Qed.
Ltac bool_cases := repeat match goal with
  | |- context [Z.eqb ?a ?b] => destruct (Z.eqb_spec a b); cbn [andb when]; try lia; try congruence
  end.
Lemma mm_LzSz l s m s' m' : (s = 0 \/ s = 1) -> - l <= m <= l ->
  mm l m_Lz m_Sz (SImp l s m) (SImp l s' m') =
  when ((s =? s') && (m =? m')) (cofZ m * (if s =? 1 then creal (@fhalf F) else - creal fhalf))%C.
Proof.
  intros Hs Hm. rewrite (mm_single l _ _ _ _ s m).
  - cbn [m_Lz m_Sz onem]. unfold m_Lz, m_Sz, onem. rewrite !Z.eqb_refl. cbn [andb when]. destruct ((s =? s') && (m =? m')); cbn [when]; ring.
  - apply sites_In; auto.
  - intros s1 m1 _ Hne. unfold m_Lz, onem. destruct (Z.eqb_spec s s1), (Z.eqb_spec m m1); cbn [andb when]; try ring. subst. congruence.
Qed.
Lemma mm_LpSm l s m s' m' : (s = 0 \/ s = 1) -> - l <= m' <= l ->
  mm l (m_Lp fsqrt l) m_Sm (SImp l s m) (SImp l s' m') =
  when ((s =? 0) && (s' =? 1) && (m =? m' + 1)) (creal (fsqrt (fofZ (l * (l + 1) - m' * (m' + 1))))).
Proof.
  intros Hs Hm. rewrite (mm_single l _ _ _ _ s m').
  - unfold m_Lp, m_Sm, onem. rewrite !Z.eqb_refl. cbn [andb]. rewrite Bool.andb_true_r.
    destruct (s =? 0), (s' =? 1), (m =? m' + 1); cbn [andb when]; ring.
  - apply sites_In; auto.
  - intros s1 m1 _ Hne. unfold m_Lp, m_Sm, onem. destruct (Z.eqb_spec s s1); cbn [andb when]; [|ring].
    destruct (Z.eqb_spec m1 m'); [subst; congruence|]. rewrite Bool.andb_false_r. cbn [when]. ring.
Qed.
Lemma mm_LmSp l s m s' m' : (s = 0 \/ s = 1) -> - l <= m' <= l ->
  mm l (m_Lm fsqrt l) m_Sp (SImp l s m) (SImp l s' m') =
  when ((s =? 1) && (s' =? 0) && (m =? m' - 1)) (creal (fsqrt (fofZ (l * (l + 1) - m' * (m' - 1))))).
Proof.
  intros Hs Hm. rewrite (mm_single l _ _ _ _ s m').
  - unfold m_Lm, m_Sp, onem. rewrite !Z.eqb_refl. cbn [andb]. rewrite Bool.andb_true_r.
    destruct (s =? 1), (s' =? 0), (m =? m' - 1); cbn [andb when]; ring.
  - apply sites_In; auto.
  - intros s1 m1 _ Hne. unfold m_Lm, m_Sp, onem. destruct (Z.eqb_spec s s1); cbn [andb when]; [|ring].
    destruct (Z.eqb_spec m1 m'); [subst; congruence|]. rewrite Bool.andb_false_r. cbn [when]. ring.
Qed.
Lemma fofZ_2 : @fofZ F 2 = (1 + 1)%F.
Proof. change 2 with (1 + 1). rewrite fofZ_add. f_equal; cbn; ring. Qed.
Lemma two_nz : (1 + 1 : F)%F <> 0%F.
Proof. intros E. pose proof (flt_0_1 (F := F)) as H. pose proof (fadd_pos 1 1 H (flt_le _ _ H))%F as G. rewrite E, flt_irrefl in G. discriminate. Qed.
Lemma val_some (op : sop_t F) p v : dget op p = Some v -> val op p = v.
Proof. unfold val. intros ->. reflexivity. Qed.
Lemma val_none (op : sop_t F) p : (forall v, dget op p <> Some v) -> val op p = c0.
Proof. unfold val. intros H. destruct (dget op p) as [v|]; auto. elim (H v); auto. Qed.

Lemma soc_matrix xi l : one_body_op l (getSOCop fsqrt xi l) (fun x y => creal xi * LS fsqrt l x y)%C.
Proof.
  split.
  - intros p H. apply soc_key in H as [v H]. apply soc_In in H.
    destruct H as [(s & m & Hs & Hm & -> & _)|(m & Hm & _ & [-> | ->])];
      (do 2 eexists; split; [reflexivity|]; split; do 2 eexists; (split; [reflexivity|lia])).
  - intros x y (s & m & -> & Hs & Hm) (s' & m' & -> & Hs' & Hm').
    unfold LS. rewrite mm_LzSz, mm_LpSm, mm_LmSp by auto.
    destruct (Z.eqb_spec s s') as [<-|Hne].
    + destruct (Z.eqb_spec m m') as [<-|Hm1].
      * rewrite (val_some _ _ (creal (xi * fofZ m * (if s =? 1 then 1 / fofZ 2 else - (1) / fofZ 2))%F)).
        2:{ apply soc_dget, soc_In. left. exists s, m. auto. }
        assert (E1 : (s =? 0) && (s =? 1) = false) by (destruct Hs; subst; reflexivity).
        assert (E2 : (s =? 1) && (s =? 0) = false) by (destruct Hs; subst; reflexivity).
        rewrite E1, E2. cbn [andb when]. rewrite fofZ_2. pose proof two_nz.
        destruct (s =? 1); apply cx_ext; cbn; unfold fhalf; field; auto.
      * rewrite val_none.
        2:{ intros v E. apply soc_dget, soc_In in E.
            destruct E as [(s1 & m1 & _ & _ & E & _)|(m1 & _ & _ & [E|E])]; injection E; intros; subst; lia. }
        assert (E1 : (s =? 0) && (s =? 1) = false) by (destruct Hs; subst; reflexivity).
        assert (E2 : (s =? 1) && (s =? 0) = false) by (destruct Hs; subst; reflexivity).
        rewrite E1, E2. cbn [andb when]. ring.
    + destruct Hs as [-> | ->], Hs' as [-> | ->]; try congruence; cbn [Z.eqb Pos.eqb andb when].
      * destruct (Z.eqb_spec m (m' + 1)) as [->|Hm1]; cbn [when].
        -- rewrite (val_some _ _ (creal (xi / fofZ 2 * fsqrt (fofZ ((l - m') * (l + m' + 1))))%F)).
           2:{ apply soc_dget, soc_In. right. exists m'. split; [lia|]. auto. }
           replace ((l - m') * (l + m' + 1)) with (l * (l + 1) - m' * (m' + 1)) by ring.
           rewrite fofZ_2. pose proof two_nz. apply cx_ext; cbn; unfold fhalf; field; auto.
        -- rewrite val_none; [ring|]. intros v E. apply soc_dget, soc_In in E.
           destruct E as [(s1 & m1 & _ & _ & E & _)|(m1 & _ & _ & [E|E])]; injection E; intros; subst; lia.
      * destruct (Z.eqb_spec m (m' - 1)) as [->|Hm1]; cbn [when].
        -- rewrite (val_some _ _ (creal (xi / fofZ 2 * fsqrt (fofZ ((l - (m' - 1)) * (l + (m' - 1) + 1))))%F)).
           2:{ apply soc_dget, soc_In. right. exists (m' - 1). split; [lia|]. split; auto. left.
               replace (m' - 1 + 1) with m' by lia. reflexivity. }
           replace ((l - (m' - 1)) * (l + (m' - 1) + 1)) with (l * (l + 1) - m' * (m' - 1)) by ring.
           rewrite fofZ_2. pose proof two_nz. apply cx_ext; cbn; unfold fhalf; field; auto.
        -- rewrite val_none; [ring|]. intros v E. apply soc_dget, soc_In in E.
           destruct E as [(s1 & m1 & _ & _ & E & _)|(m1 & _ & _ & [E|E])]; injection E; intros; subst; lia.
Qed.
End A.
