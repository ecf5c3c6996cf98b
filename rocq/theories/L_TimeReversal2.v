(* Time reversal of operators on spin-orbitals. *)
From Coq Require Import Permutation Ring Field.
From Verif Require Import M_Prelude M_Scalar M_PSR M_State M_Basis M_Expect M_Operators S_Fock S_Ops S_Basis S_Expect S_Operators S_Symmetry S_TimeReversal.
From Verif Require Import L_Scalar L_Sum L_Dict L_Fock L_State L_Ops L_Index L_Expect L_Expect4 L_Operators L_Operators2 L_Operators3 L_Operators4 L_Operators5.
From Verif Require Import L_Symmetry L_Symmetry3 L_Symmetry6 L_TimeReversal.
Local Open Scope Z_scope.

Lemma parity_sq m : parity m * parity m = 1.
Proof. unfold parity. destruct (Z.even m); auto. Qed.
Lemma parity_opp m : parity (- m) = parity m.
Proof. unfold parity. rewrite Z.even_opp. auto. Qed.
Lemma parity_add m k : parity (m + k) = parity m * parity k.
Proof. unfold parity. rewrite Z.even_add. destruct (Z.even m), (Z.even k); auto. Qed.
Lemma parity_succ m : parity (m + 1) = - parity m.
Proof. rewrite parity_add. change (parity 1) with (-1). lia. Qed.

Section T.
Context {F : ofield}.
Add Field Ff : (f_field F).
Add Ring Cring : (@c_ring F).
Implicit Types v w : config -> cx F.
Variable bp bs : bkey -> Z -> Z.
Variable nb : nbaths_t.
Hypothesis Hwf : wf_nbaths nb.
Hypothesis Hang : NoDup (angs nb).
Hypothesis Hpair : pairs bp bs nb.
Notation rv := (reverse bp).
Notation sg := (reverse_sign bs).
Notation n := (n_orb nb).
Lemma rv_ok x : coord_ok nb x -> coord_ok nb (rv x).
Proof.
  destruct x as [l s m|k b]; cbn [reverse reverse_sign coord_ok].
  - intros (H1 & H2 & H3). split; auto. split; lia.
  - intros (m & Hk & Hb). exists m. split; auto. apply (Hpair k m b); auto.
Qed.
Lemma rv_rv x : coord_ok nb x -> rv (rv x) = x.
Proof.
  destruct x as [l s m|k b]; cbn [reverse reverse_sign coord_ok].
  - intros _. f_equal; lia.
  - intros (m & Hk & Hb). f_equal. apply (Hpair k m b); auto.
Qed.
Lemma sg_sq x : coord_ok nb x -> sg x * sg x = 1.
Proof.
  destruct x as [l s m|k b]; cbn [reverse reverse_sign coord_ok].
  - intros _. pose proof (parity_sq m). destruct (s =? 1); lia.
  - intros (m & Hk & Hb). destruct (Hpair k m b Hk Hb) as (_ & _ & [-> | ->] & _); auto.
Qed.
Lemma sg_rv x : coord_ok nb x -> sg (rv x) = - sg x.
Proof.
  destruct x as [l s m|k b]; cbn [reverse reverse_sign coord_ok].
  - intros (_ & [-> | ->] & _); cbn; rewrite parity_opp; lia.
  - intros (m & Hk & Hb). apply (Hpair k m b); auto.
Qed.
Lemma ix_lt x : coord_ok nb x -> (ix nb x < n)%nat.
Proof. intros H. destruct (c2i_P nb x Hwf H) as (_ & R & _). unfold ix, n_orb. lia. Qed.
Definition tau (i : nat) : nat := Z.to_nat (reverse_at bp nb i).
Definition sig (i : nat) : Z := sign_at bs nb i.
Lemma at_ix x : coord_ok nb x -> i2c nb (Z.of_nat (ix nb x)) = Ok x.
Proof. intros H. destruct (c2i_P nb x Hwf H) as (_ & R & _). unfold ix. rewrite Z2Nat.id by lia. apply i2c_index; auto. Qed.
Lemma tau_ix x : coord_ok nb x -> tau (ix nb x) = ix nb (rv x).
Proof. intros H. unfold tau, reverse_at. rewrite at_ix by auto. reflexivity. Qed.
Lemma sig_ix x : coord_ok nb x -> sig (ix nb x) = sg x.
Proof. intros H. unfold sig, sign_at. rewrite at_ix by auto. reflexivity. Qed.
Lemma ix_surj i : (i < n)%nat -> exists x, coord_ok nb x /\ i = ix nb x.
Proof.
  intros Hi. destruct (i2c_total nb (Z.of_nat i) Hwf) as (x & E & Hx & Hj). { unfold n_orb in Hi. lia. }
  exists x. split; auto. unfold ix. rewrite Hj by auto. lia.
Qed.
Lemma tau_lt i : (i < n)%nat -> (tau i < n)%nat.
Proof. intros H. apply ix_surj in H as (x & Hx & ->). rewrite tau_ix by auto. apply ix_lt, rv_ok, Hx. Qed.
Lemma tau_inv i : (i < n)%nat -> tau (tau i) = i.
Proof. intros H. apply ix_surj in H as (x & Hx & ->). rewrite !tau_ix by (auto using rv_ok). rewrite rv_rv; auto. Qed.
Lemma sig_1 i : (i < n)%nat -> sig i * sig i = 1.
Proof. intros H. apply ix_surj in H as (x & Hx & ->). rewrite sig_ix by auto. apply sg_sq; auto. Qed.
Lemma sig_tau i : (i < n)%nat -> sig (tau i) = - sig i.
Proof. intros H. apply ix_surj in H as (x & Hx & ->). rewrite tau_ix, !sig_ix by (auto using rv_ok). apply sg_rv; auto. Qed.
Notation T := (Tv n tau sig).
Lemma reverse_at_nonneg i : (i < n)%nat -> Z.of_nat (tau i) = reverse_at bp nb i.
Proof.
  intros H. apply ix_surj in H as (x & Hx & ->). unfold tau, reverse_at. rewrite at_ix by auto. destruct (c2i_P nb (rv x) Hwf (rv_ok x Hx)) as (_ & R & _).
  rewrite Z2Nat.id; lia.
Qed.
Lemma timerev_T v t : length t = n -> timerev bp bs nb v t = T v t.
Proof.
  intros Ht. unfold timerev, Tv. rewrite (vpull_sum n) by (intros s a E; destruct (gam'_some n tau sig tau_lt tau_inv sig_1 t Ht) as (d & a' & E' & Hd & _); congruence).
  apply csum_ext. intros s Hs. apply allcfg_In in Hs. f_equal. f_equal.
  rewrite (gam'_delem n tau sig tau_lt tau_inv sig_1 sig_tau) by auto.
  assert (E : map (fun i => (reverse_at bp nb i, lab_c)) (occupied s) = map (fun i => (Z.of_nat i, lab_c)) (map tau (occupied s))).
  { rewrite map_map. apply map_ext_in. intros i Hi. rewrite reverse_at_nonneg; auto. apply (occ_lt n s); auto. }
  rewrite E. unfold delem, L_TimeReversal.gam, sigs, pelem. rewrite ket_proc.
  destruct (ket n (map tau (occupied s))) as [[d a]|]; cbn [scale].
  - destruct (list_eqb_spec t d); [reflexivity|lia].
  - lia.
Qed.

(* processes *)
Definition prv (p : sprocess) : sprocess := map (fun xa => (rv (fst xa), snd xa)) p.
Definition psg (p : sprocess) : Z := zprod (map (fun xa => sg (fst xa)) p).
Notation pok p := (Forall (fun xa : spinorb * ascii => coord_ok nb (fst xa)) p).
Lemma T_pvec p v t : pok p -> length t = n -> T (pvec (pidx nb p) v) t = (cofZ (psg p) * pvec (pidx nb (prv p)) (T v) t)%C.
Proof.
  intros Hp. revert t. induction p as [|[x a] p IH]; intros t Ht.
  - cbn. rewrite cofZ_1. ring.
  - apply Forall_cons_iff in Hp as [Hx Hp]. cbn [fst] in Hx. cbn [pidx map pvec prv fst snd]. fold (pidx nb p) (pidx nb (prv p)) (prv p).
    change (Z.to_nat (coord_index nb x)) with (ix nb x). change (Z.to_nat (coord_index nb (rv x))) with (ix nb (rv x)).
    set (b := negb (Ascii.eqb a lab_c)).
    rewrite (Tv_flip n tau sig tau_lt tau_inv sig_1 sig_tau) by (auto using ix_lt). rewrite tau_ix, sig_ix by auto.
    rewrite (L_Expect.vpull_ext n b (ix nb (rv x)) _ (fun s => cofZ (psg p) * pvec (pidx nb (prv p)) (T v) s)%C) by (auto; intros s Hs; apply IH; auto).
    rewrite vpull_scale. change (psg ((x, a) :: p)) with (sg x * psg p). rewrite cofZ_mul. unfold pidx. ring.
Qed.
(* reversed operators *)
Definition trd (op op' : sop_t F) : Prop := forall p a, dget op p = Some a -> dget op' (prv p) = Some (cofZ (psg p) * cconj a)%C.
Definition tr (op op' : sop_t F) : Prop := forall v t, length t = n -> T (sv nb op v) t = sv nb op' (T v) t.
Lemma prv_prv p : pok p -> prv (prv p) = p.
Proof.
  intros H. unfold prv. rewrite map_map. rewrite <- (map_id p) at 2. apply map_ext_in. intros [x a] Hi. cbn [fst snd].
  rewrite Forall_forall in H. rewrite rv_rv; auto. apply (H (x, a) Hi).
Qed.
Lemma psg_sq p : pok p -> psg p * psg p = 1.
Proof.
  induction p as [|[x a] p IH]; intros H; auto. apply Forall_cons_iff in H as [Hx Hp]. apply (sq_mul (sg x) (psg p)); [apply sg_sq; auto|auto].
Qed.
Lemma psg_prv p : pok p -> psg (prv p) = (if Nat.even (length p) then 1 else -1) * psg p.
Proof.
  induction p as [|[x a] p IH]; intros H; auto. apply Forall_cons_iff in H as [Hx Hp]. cbn [fst] in Hx.
  change (psg (prv ((x, a) :: p))) with (sg (rv x) * psg (prv p)). change (psg ((x, a) :: p)) with (sg x * psg p).
  rewrite IH, sg_rv by auto. cbn [length]. rewrite Nat.even_succ, <- Nat.negb_even. destruct (Nat.even (length p)); cbn [negb]; lia.
Qed.
Definition even_op (op : sop_t F) : Prop := forall p, In p (dkeys op) -> Nat.even (length p) = true.
Lemma trd_tr op op' : NoDup (dkeys op) -> NoDup (dkeys op') -> op_in nb op -> op_in nb op' -> even_op op' -> trd op op' -> trd op' op -> tr op op'.
Proof.
  intros N N' I I' Ev H H' v t Ht.
  assert (In_ok : forall (o : sop_t F) p a, op_in nb o -> In (p, a) o -> pok p).
  { intros o p a Ho Hi. unfold op_in in Ho. rewrite Forall_forall in Ho. apply (Ho _ Hi). }
  assert (P : Permutation (map (fun pa => (prv (fst pa), cofZ (psg (fst pa)) * cconj (snd pa))%C) op) op').
  { apply NoDup_Permutation.
    - apply NoDup_map_on.
      + intros [p a] [q b] Hp Hq E. injection E as E _. cbn [fst snd] in E.
        assert (p = q). { rewrite <- (prv_prv p), <- (prv_prv q), E; eauto. } subst q.
        apply In_dget in Hp, Hq; auto. congruence.
      + apply (NoDup_map_inv fst). exact N.
    - apply (NoDup_map_inv fst). exact N'.
    - intros [q b]. split.
      + intros Hi. apply in_map_iff in Hi as ([p a] & E & Hi). injection E as <- <-. cbn [fst snd]. apply dget_In. apply H. apply In_dget; auto.
      + intros Hi. assert (Hok : pok q) by eauto. pose proof (Ev q (in_map fst _ _ Hi)) as He. apply In_dget in Hi; auto. apply H' in Hi.
        apply in_map_iff. exists (prv q, (cofZ (psg q) * cconj b)%C). cbn [fst snd]. split; [|apply dget_In; auto].
        rewrite prv_prv by auto. f_equal. rewrite psg_prv, He, cconj_mul, cconj_cofZ, cconj_conj by auto. rewrite Z.mul_1_l.
        transitivity (cofZ (psg q * psg q) * b)%C; [rewrite cofZ_mul; ring|]. rewrite psg_sq, cofZ_1 by auto. ring. }
  unfold sv at 2. rewrite <- (csum_perm _ _ _ P), csum_map.
  transitivity (csum (fun kv => T (fun s => snd kv * pvec (pidx nb (fst kv)) v s)%C t) op).
  - unfold sv. apply (Tv_csum n tau sig (fun kv s => snd kv * pvec (pidx nb (fst kv)) v s)%C).
  - apply csum_ext. intros [p a] Hi. cbn [fst snd]. rewrite Tv_scale, T_pvec by eauto. ring.
Qed.
Lemma T_ext v w t : (forall s, length s = n -> v s = w s) -> length t = n -> T v t = T w t.
Proof. intros H Ht. apply (Tv_ext n tau sig tau_lt tau_inv sig_1 v w); auto. Qed.
Lemma tr_addOps ops ops' : Forall2 tr ops ops' -> tr (addOps ops) (addOps ops').
Proof.
  intros H v t Ht. rewrite (T_ext _ (fun s => csum (fun op => sv nb op v s) ops)) by (auto; intros; apply sv_addOps).
  rewrite (Tv_csum n tau sig (fun op s => sv nb op v s)), sv_addOps.
  induction H as [|op op' ops ops' H1 H IH]; auto. cbn [csum]. rewrite IH, H1; auto.
Qed.
Lemma tr_reverses op op' : good_labels op -> good_labels op' -> tr op op' -> reverses bp bs nb (indexed nb op) (indexed nb op').
Proof.
  intros Hg Hg' H v t Ht. rewrite timerev_T by auto. rewrite (T_ext _ (sv nb op v)) by (auto; intros; apply indexed_vec; auto).
  rewrite H by auto. rewrite <- indexed_vec by auto. apply (L_Symmetry6.opv_ext n). intros s Hs. symmetry. apply timerev_T; auto.
Qed.
Lemma reverses_tr op op' : good_labels op -> good_labels op' -> reverses bp bs nb (indexed nb op) (indexed nb op') -> tr op op'.
Proof.
  intros Hg Hg' H v t Ht. specialize (H v t Ht). rewrite timerev_T in H by auto. rewrite (T_ext _ (sv nb op v)) in H by (auto; intros; apply indexed_vec; auto).
  rewrite H. rewrite (L_Symmetry6.opv_ext n _ _ (T v)); [apply indexed_vec; auto|]. intros s Hs. apply timerev_T; auto.
Qed.

(* the parts of the Hamiltonian *)
Lemma prv_hop2 x y : prv (hop2 x y) = hop2 (rv x) (rv y). Proof. reflexivity. Qed.
Lemma prv_hop4 x y z t : prv (hop4 x y z t) = hop4 (rv x) (rv y) (rv z) (rv t). Proof. reflexivity. Qed.
Lemma psg_hop2 x y : psg (hop2 x y) = sg x * sg y. Proof. unfold psg, hop2. cbn. lia. Qed.
Lemma psg_hop4 x y z t : psg (hop4 x y z t) = sg x * sg y * sg z * sg t. Proof. unfold psg, hop4. cbn. lia. Qed.
Lemma rv_shell l x : in_shell l x -> in_shell l (rv x).
Proof. intros (s & m & -> & Hs & Hm). exists (1 - s), (- m). cbn [reverse]. split; auto. split; lia. Qed.
Variable fsqrt : F -> F.
Lemma soc_trd xi l : trd (getSOCop fsqrt xi l) (getSOCop fsqrt xi l).
Proof.
  intros p a H. apply soc_dget. apply soc_dget, soc_In in H. apply soc_In. destruct H as [(s & m & Hs & Hm & -> & ->)|(m & Hm & -> & Hp)].
  - left. exists (1 - s), (- m). split; [lia|]. split; [lia|]. split; [reflexivity|]. rewrite psg_hop2, cconj_real.
    replace (sg (SImp l s m) * sg (SImp l s m)) with 1 by (cbn; pose proof (parity_sq m); destruct (s =? 1); lia).
    rewrite cofZ_1, fofZ_opp. destruct Hs as [-> | ->]; change (1 - 0) with 1; change (1 - 1) with 0; cbn [Z.eqb Pos.eqb]; apply cx_ext; cbn; rewrite ?(Fdiv_def (f_field F)); ring.
  - right. exists (- m - 1). split; [lia|]. split.
    + replace (psg p) with 1.
      * rewrite cofZ_1, cconj_real. replace ((l - (- m - 1)) * (l + (- m - 1) + 1)) with ((l - m) * (l + m + 1)) by lia. apply cx_ext; cbn; ring.
      * destruct Hp as [-> | ->]; rewrite psg_hop2; cbn; rewrite parity_succ; pose proof (parity_sq m); lia.
    + destruct Hp as [-> | ->]; rewrite prv_hop2; [right|left]; unfold hop2; cbn [reverse]; do 3 f_equal; f_equal; try lia.
Qed.
Lemma fld_neg (hx hy : F) : (- fld_dn hx hy)%C = fld_dn (- hx)%F (- hy)%F /\ (- fld_up hx hy)%C = fld_up (- hx)%F (- hy)%F.
Proof.
  pose proof two_nz (F := F). unfold fld_dn, fld_up. rewrite !cdiv_2, fofZ_2. split; apply cx_ext; cbn; field; auto.
Qed.
Lemma cofZ_m1 : @cofZ F (-1) = (- c1)%C.
Proof. unfold cofZ. rewrite (fofZ_opp 1). apply cx_ext; cbn; ring. Qed.
Lemma fld_trd (hx hy hz : F) l : trd (gethHfieldop hx hy hz l) (gethHfieldop (- hx)%F (- hy)%F (- hz)%F l).
Proof.
  intros p a H. apply fld_dget. apply fld_dget, fld_In in H as (m & Hm & H). apply fld_In. exists (- m). split; [lia|]. pose proof (parity_sq m) as HS.
  destruct (fld_neg hx hy) as [N1 N2].
  destruct H as [[-> ->]|[[-> ->]|[[-> ->]|[-> ->]]]]; rewrite psg_hop2, prv_hop2.
  - right; left. split; [reflexivity|]. replace (sg (SImp l 1 m) * sg (SImp l 0 m)) with (-1) by (cbn; lia). rewrite fld_conj, <- N1, cofZ_m1. ring.
  - left. split; [reflexivity|]. replace (sg (SImp l 0 m) * sg (SImp l 1 m)) with (-1) by (cbn; lia). rewrite <- fld_conj, cconj_conj, <- N2, cofZ_m1. ring.
  - right; right; right. split; [reflexivity|]. replace (sg (SImp l 0 m) * sg (SImp l 0 m)) with 1 by (cbn; lia). rewrite cofZ_1, cconj_real.
    apply cx_ext; cbn; rewrite ?(Fdiv_def (f_field F)); ring.
  - right; right; left. split; [reflexivity|]. replace (sg (SImp l 1 m) * sg (SImp l 1 m)) with 1 by (cbn; lia). rewrite cofZ_1, cconj_real.
    apply cx_ext; cbn; rewrite ?(Fdiv_def (f_field F)); ring.
Qed.
Lemma fopp_opp (x : F) : (- - x)%F = x. Proof. ring. Qed.
Lemma eDC_trd d p : trd (eDC d p) (eDC d p).
Proof.
  intros q a H. apply eDC_dget. apply eDC_dget, eDC_In in H as (x & -> & H). apply eDC_In. exists (rv x). split; [reflexivity|].
  assert (E : forall l, in_shell l x -> forall y : F, (cofZ (psg (hop2 x x)) * cconj (creal y))%C = creal y).
  { intros l (s & m & -> & _) y. rewrite psg_hop2, cconj_real. replace (sg (SImp l s m) * sg (SImp l s m)) with 1 by (cbn; pose proof (parity_sq m); destruct (s =? 1); lia).
    rewrite cofZ_1. ring. }
  destruct H as [[H ->]|[H ->]]; [left|right]; (split; [apply rv_shell; auto|]); eapply E; eauto.
Qed.
Variable pi : F.
Variable gaunt : Z -> Z -> Z -> Z -> Z -> Z -> F.
Hypothesis gaunt_neg : forall l1 l2 l3 m1 m2 m3, gaunt l1 l2 l3 (- m1) (- m2) (- m3) = gaunt l1 l2 l3 m1 m2 m3.
Notation ck := (gauntC fsqrt pi gaunt).
Lemma ck_neg k l m l' m' : ck k l (- m) l' (- m') = ck k l m l' m'.
Proof.
  unfold gauntC. f_equal. { f_equal. unfold minus1pow. rewrite Z.even_opp. reflexivity. }
  rewrite <- (gaunt_neg l k l' (- m)). f_equal; lia.
Qed.
Lemma slater_neg R l1 l2 l3 l4 m1 m2 m3 m4 :
  slater ck R (l1, - m1) (l2, - m2) (l3, - m3) (l4, - m4) = slater ck R (l1, m1) (l2, m2) (l3, m3) (l4, m4).
Proof.
  unfold slater. cbn [fst snd]. destruct (Z.eqb_spec (m1 + m2) (m3 + m4)), (Z.eqb_spec (- m1 + - m2) (- m3 + - m4)); try lia; auto.
  apply fsum_ext. intros k _. rewrite !ck_neg. reflexivity.
Qed.
Lemma u_trd l1 l2 l3 l4 R : trd (getUop fsqrt pi gaunt l1 l2 l3 l4 R) (getUop fsqrt pi gaunt l1 l2 l3 l4 R).
Proof.
  intros p a H. apply u_elements. apply u_elements in H as (m1 & m2 & m3 & m4 & s & sp & H). cbv zeta in H.
  destruct H as (H1 & H2 & H3 & H4 & H5 & H6 & Hu & -> & ->). exists (- m1), (- m2), (- m3), (- m4), (1 - s), (1 - sp). cbv zeta.
  rewrite slater_neg.
  split; [apply (rv_shell l1 (SImp l1 s m1)); auto|]. split; [apply (rv_shell l2 (SImp l2 sp m2)); auto|].
  split; [apply (rv_shell l3 (SImp l3 sp m3)); auto|]. split; [apply (rv_shell l4 (SImp l4 s m4)); auto|].
  split. { intros E. apply H5. apply (f_equal rv) in E. cbn [reverse] in E. rewrite !Z.opp_involutive, !(Z.sub_sub_distr 1 1), !Z.sub_diag, !Z.add_0_l in E. exact E. }
  split. { intros E. apply H6. apply (f_equal rv) in E. cbn [reverse] in E. rewrite !Z.opp_involutive, !(Z.sub_sub_distr 1 1), !Z.sub_diag, !Z.add_0_l in E. exact E. }
  split; [auto|]. split; [reflexivity|]. rewrite psg_hop4, cconj_real. replace (_ * _ * _ * _) with 1; [rewrite cofZ_1; ring|].
  assert (E : m1 + m2 = m3 + m4). { unfold slater in Hu. cbn [fst snd] in Hu. destruct (Z.eqb_spec (m1 + m2) (m3 + m4)); [auto|congruence]. }
  assert (HP : parity m1 * parity m2 * parity m3 * parity m4 = 1).
  { rewrite <- Z.mul_assoc, <- !parity_add, <- E. rewrite parity_add. apply parity_sq. }
  cbn [reverse_sign]. destruct (s =? 1), (sp =? 1); lia.
Qed.
Lemma even_one l (op : sop_t F) h : one_body_op l op h -> even_op op.
Proof. intros [H _] p Hp. destruct (H p Hp) as (x & y & -> & _). reflexivity. Qed.
Lemma keys_in (op : sop_t F) : (forall p, In p (dkeys op) -> pok p) -> op_in nb op.
Proof. intros H. apply Forall_forall. intros [p a] Hi. cbn [fst]. apply H. apply (in_map fst) in Hi. exact Hi. Qed.
Lemma shell_ok l x : In l (angs nb) -> in_shell l x -> coord_ok nb x.
Proof. intros Hl (s & m & -> & Hs & Hm). cbn. auto. Qed.
Lemma one_in l (op : sop_t F) h : In l (angs nb) -> one_body_op l op h -> op_in nb op.
Proof.
  intros Hl [H _]. apply keys_in. intros p Hp. destruct (H p Hp) as (x & y & -> & Hx & Hy). constructor; [cbn; apply (shell_ok l); auto|].
  constructor; [cbn; apply (shell_ok l); auto|constructor].
Qed.
Lemma tr_soc xi l : In l (angs nb) -> tr (getSOCop fsqrt xi l) (getSOCop fsqrt xi l).
Proof.
  intros Hl. apply trd_tr; try apply soc_NoDup; try (eapply one_in; eauto using soc_matrix); try apply soc_trd. eapply even_one. apply soc_matrix.
Qed.
Lemma tr_fld (hx hy hz : F) l : In l (angs nb) -> tr (gethHfieldop hx hy hz l) (gethHfieldop (- hx)%F (- hy)%F (- hz)%F l).
Proof.
  intros Hl. apply trd_tr; try apply fld_NoDup; try (eapply one_in; eauto using fld_matrix); try apply fld_trd.
  - eapply even_one. apply fld_matrix.
  - pose proof (fld_trd (- hx)%F (- hy)%F (- hz)%F l) as H. rewrite !fopp_opp in H. exact H.
Qed.
Lemma tr_eDC d p : In 1 (angs nb) -> In 2 (angs nb) -> tr (eDC d p) (eDC d p).
Proof.
  intros H1 H2.
  assert (K : forall q, In q (dkeys (eDC d p)) -> exists x, q = hop2 x x /\ coord_ok nb x).
  { intros q Hq. apply dget_Some_key in Hq as [v Hq]. apply eDC_dget, eDC_In in Hq as (x & -> & H). exists x. split; auto.
    destruct H as [[H _]|[H _]]; [apply (shell_ok 2)|apply (shell_ok 1)]; auto. }
  apply trd_tr; try apply eDC_NoDup; try apply eDC_trd.
  1,2: apply keys_in; intros q Hq; destruct (K q Hq) as (x & -> & Hx); repeat (apply Forall_cons || apply Forall_nil); cbn [fst]; exact Hx.
  intros q Hq. destruct (K q Hq) as (x & -> & Hx). reflexivity.
Qed.
Lemma tr_U l1 l2 l3 l4 R : (forall l, In l [l1; l2; l3; l4] -> In l (angs nb)) -> tr (getUop fsqrt pi gaunt l1 l2 l3 l4 R) (getUop fsqrt pi gaunt l1 l2 l3 l4 R).
Proof.
  intros HL.
  assert (K : forall q, In q (dkeys (getUop fsqrt pi gaunt l1 l2 l3 l4 R)) -> exists x y z t, q = hop4 x y z t /\ coord_ok nb x /\ coord_ok nb y /\ coord_ok nb z /\ coord_ok nb t).
  { intros q Hq. apply dget_Some_key in Hq as [v Hq]. apply u_elements in Hq as (m1 & m2 & m3 & m4 & s & sp & H). cbv zeta in H.
    destruct H as (H1 & H2 & H3 & H4 & _ & _ & _ & -> & _). do 4 eexists. split; [reflexivity|].
    split; [apply (shell_ok l1)|split; [apply (shell_ok l2)|split; [apply (shell_ok l3)|apply (shell_ok l4)]]]; auto; apply HL; cbn; auto. }
  apply trd_tr; try apply u_NoDup; try apply u_trd.
  1,2: apply keys_in; intros q Hq; destruct (K q Hq) as (x & y & z & t & -> & Hx & Hy & Hz & Ht); repeat (apply Forall_cons || apply Forall_nil); cbn [fst]; assumption.
  intros q Hq. destruct (K q Hq) as (x & y & z & t & -> & _). reflexivity.
Qed.
Lemma tr_pd Fdd Fpp Fpd Gpd : In 1 (angs nb) -> In 2 (angs nb) ->
  tr (get2p3dSlaterCondonUop fsqrt pi gaunt Fdd Fpp Fpd Gpd) (get2p3dSlaterCondonUop fsqrt pi gaunt Fdd Fpp Fpd Gpd).
Proof.
  intros H1 H2. unfold get2p3dSlaterCondonUop.
  apply tr_addOps. constructor; [|constructor; [|constructor; [|constructor; [|constructor]]]].
  3,4: apply tr_addOps; constructor; [|constructor; [|constructor]].
  all: apply tr_U; intros l Hl; cbn in Hl; repeat (destruct Hl as [<-|Hl]; [assumption|]); destruct Hl.
Qed.
(* the whole Hamiltonian *)
Variable fint : F -> Z.
Hypothesis fint_law : forall z, fint (fofZ z) = z.
Hypothesis Hp1 : In 1 (angs nb).
Hypothesis Hd2 : In 2 (angs nb).
Lemma tr_total hp n3d h0 h0' hOp hOp' :
  dget (hp_n0imps hp) 2 = Some n3d -> dget (hp_n0imps hp) 1 = Some 6 -> (5 <= length (hp_Fdd hp))%nat -> (1 <= length (hp_Fpd hp))%nat -> (4 <= length (hp_Gpd hp))%nat ->
  NoDup (dkeys h0) -> good_labels h0 -> op_in nb h0 -> NoDup (dkeys h0') -> good_labels h0' -> op_in nb h0' ->
  reverses bp bs nb (indexed nb h0) (indexed nb h0') ->
  get_hamiltonian_operator fsqrt pi gaunt fint nb hp h0 = Ok hOp ->
  get_hamiltonian_operator fsqrt pi gaunt fint nb (opposite_field hp) h0' = Ok hOp' -> reverses bp bs nb hOp hOp'.
Proof.
  intros A1 A2 A3 A4 A5 N G I N' G' I' Hr E E'. unfold get_hamiltonian_operator in E, E'.
  rewrite (total_eq fint fint_law fsqrt pi gaunt nb hp n3d) in E by auto.
  rewrite (total_eq fint fint_law fsqrt pi gaunt nb (opposite_field hp) n3d) in E' by auto.
  rewrite to_index_ok in E; auto; [|apply sum_in; auto|apply addOps_NoDup]. rewrite to_index_ok in E'; auto; [|apply sum_in; auto|apply addOps_NoDup]. cbn [bind] in E, E'.
  destruct (assert_hermitian _) as [[]|e] in E; cbn [bind] in E; [|discriminate E]. injection E as <-.
  destruct (assert_hermitian _) as [[]|e] in E'; cbn [bind] in E'; [|discriminate E']. injection E' as <-.
  change (reverses bp bs nb (indexed nb (addOps (h_parts fsqrt pi gaunt hp n3d ++ [h0]))) (indexed nb (addOps (h_parts fsqrt pi gaunt (opposite_field hp) n3d ++ [h0'])))).
  assert (GA : forall hp h, NoDup (dkeys h) -> good_labels h -> good_labels (addOps (h_parts fsqrt pi gaunt hp n3d ++ [h]))).
  { intros hp' h Hn Hg. apply good_addOps; apply Forall_app; split; [apply parts_NoDup|repeat constructor; auto|apply good_parts|repeat constructor; auto]. }
  apply tr_reverses; auto. apply tr_addOps. apply Forall2_app.
  - unfold h_parts. repeat (apply Forall2_cons || apply Forall2_nil); [apply tr_pd|apply tr_fld|apply tr_soc|apply tr_soc|apply tr_eDC]; auto.
  - repeat (apply Forall2_cons || apply Forall2_nil). apply reverses_tr; auto.
Qed.
End T.
