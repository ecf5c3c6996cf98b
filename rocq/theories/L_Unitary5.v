(* The bath basis of the crystal-field program. *)
From Coq Require Import Permutation Ring Field.
From Verif Require Import M_Prelude M_Scalar M_PSR M_State M_Mpi M_Hamiltonian M_Basis M_Expect M_Operators M_Main M_Program S_Fock S_Ops S_Basis S_Expect S_Operators S_Green S_Symmetry S_TimeReversal S_Sector S_Unitary S_Unitary2.
From Verif Require Import L_Scalar L_Sum L_Dict L_Fock L_State L_Ops L_FockP L_Expect L_Symmetry L_Index L_Basis L_Basis2 L_Basis3 L_Basis4 L_Main3 L_Cubic L_RIXS L_Program4 L_Operators L_Operators2 L_Operators3 L_Operators4 L_Operators5 L_Operators6 L_Operators9 L_Operators10 L_Symmetry3 L_Unitary L_Unitary2 L_Shift2 L_Unitary4.
Local Open Scope Z_scope.

Section C.
Context {F : ofield}.
Add Field Ff : (f_field F).
Add Field Cf : (@c_field F).
Local Open Scope cx_scope.
(* the orbitals of the crystal-field Hamiltonian: impurity, valence bath, conduction bath *)
Inductive cls := cD | cV | cC.
Definition cz (c : cls) (s : Z) (i : nat) : spinorb := match c with cD => d_orb s i | cV => bath_orb 0 s i | cC => bath_orb 10 s i end.
Definition cok (con : bool) (c : cls) : Prop := c = cC -> con = true.
Definition row (u ub : list (list (cx F))) (c : cls) : list (list (cx F)) := match c with cD => u | _ => ub end.
Definition two := (F * F)%type.
Definition dxy (dd vd vv cd cc : two) (c c' : cls) : two :=
  match c, c' with cD, cD => dd | cV, cD | cD, cV => vd | cV, cV => vv | cC, cD | cD, cC => cd | cC, cC => cc | _, _ => (0%F, 0%F) end.
Lemma rotm_0 (a b : list (list (cx F))) i j : rotm a b 0%F 0%F i j = c0.
Proof. unfold rotm. apply csum_zero. intros k _. destruct (Nat.ltb k 2); change (creal 0%F) with (@c0 F); ring. Qed.
Lemma cf_uniform u ub con eg t2g ve vt ev_eg ev_t2g vce vct ec_eg ec_t2g (op : sop_t F) : cf_spec u ub con eg t2g ve vt ev_eg ev_t2g vce vct ec_eg ec_t2g op -> herm_op op ->
  forall c c' s s' i j, cok con c -> cok con c' -> (s = 0 \/ s = 1)%Z -> (s' = 0 \/ s' = 1)%Z -> (i < 5)%nat -> (j < 5)%nat ->
  val op (hop2 (cz c s i) (cz c' s' j)) = when (s =? s')%Z (let d := dxy (eg, t2g) (ve, vt) (ev_eg, ev_t2g) (vce, vct) (ec_eg, ec_t2g) c c' in rotm (row u ub c) (row u ub c') (fst d) (snd d) i j).
Proof.
  intros H HH c c' s s' i j Hc Hc' Hs Hs' Hi Hj.
  assert (D : forall x y, val op (hop2 x y) = cconj (val op (hop2 y x))).
  { intros x y. rewrite <- (herm_val op (hop2 y x) HH); [reflexivity|]. unfold hop2. repeat (apply Forall_cons || apply Forall_nil); [right|left]; reflexivity. }
  assert (Wn : forall (b : bool) (x : cx F), cconj (when b x) = when b (cconj x)) by (intros [] x; [reflexivity|apply cconj_0]).
  assert (W0 : forall b : bool, when b (@c0 F) = c0) by (intros []; reflexivity).
  destruct c, c'; cbn [cz row dxy fst snd] in *.
  - apply (cf_imp _ _ _ _ _ _ _ _ _ _ _ _ _ _ H); auto.
  - rewrite D, (cf_val _ _ _ _ _ _ _ _ _ _ _ _ _ _ H), Wn, rotm_conj, Z.eqb_sym by auto. reflexivity.
  - rewrite D, (cf_con _ _ _ _ _ _ _ _ _ _ _ _ _ _ H), Wn, rotm_conj, Z.eqb_sym by auto. reflexivity.
  - apply (cf_val _ _ _ _ _ _ _ _ _ _ _ _ _ _ H); auto.
  - apply (cf_eval _ _ _ _ _ _ _ _ _ _ _ _ _ _ H); auto.
  - rewrite rotm_0, W0. apply (cf_valcon _ _ _ _ _ _ _ _ _ _ _ _ _ _ H); auto.
  - apply (cf_con _ _ _ _ _ _ _ _ _ _ _ _ _ _ H); auto.
  - rewrite D, (cf_valcon _ _ _ _ _ _ _ _ _ _ _ _ _ _ H), rotm_0, W0 by auto. apply cconj_0.
  - apply (cf_econ _ _ _ _ _ _ _ _ _ _ _ _ _ _ H); auto.
Qed.
Lemma rot_turn (a b a2 b2 : list (list (cx F))) (w w' : nat -> cx F) x y i j : (forall k, (k < 5)%nat -> csum (fun r => w r * at_m a r k) (seq 0 5) = at_m a2 i k) -> (forall k, (k < 5)%nat -> csum (fun r => w' r * at_m b r k) (seq 0 5) = at_m b2 j k) ->
  csum (fun r => w r * csum (fun r' => cconj (w' r') * rotm a b x y r r') (seq 0 5)) (seq 0 5) = rotm a2 b2 x y i j.
Proof.
  intros H H'. unfold rotm.
  rewrite (csum_ext _ (fun r => csum (fun k => w r * at_m a r k * (creal (if Nat.ltb k 2 then x else y) * cconj (at_m b2 j k))) (seq 0 5))).
  - rewrite csum_swap. apply csum_ext. intros k Hk. apply in_seq in Hk. rewrite csum_mul_r, H by lia. ring.
  - intros r _. rewrite (csum_ext _ (fun r' => csum (fun k => at_m a r k * creal (if Nat.ltb k 2 then x else y) * cconj (w' r' * at_m b r' k)) (seq 0 5))) by (intros r' _; rewrite <- csum_mul_l; apply csum_ext; intros k _; rewrite cconj_mul; ring).
    rewrite csum_swap, <- csum_mul_l. apply csum_ext. intros k Hk. apply in_seq in Hk. rewrite csum_mul_l, csum_conj, H' by lia. ring.
Qed.
Lemma ident_at r k : (r < 5)%nat -> (k < 5)%nat -> at_m (@ident F 5) r k = if Nat.eqb k r then c1 else c0.
Proof. intros Hr Hk. destruct r as [|[|[|[|[|r]]]]]; [..|lia]; (destruct k as [|[|[|[|[|k]]]]]; [..|lia]); reflexivity. Qed.

Variables (nb : nbaths_t) (nB : Z).
Hypothesis W : wf_nbaths nb.
Hypothesis HA : NoDup (angs nb).
Hypothesis HB : dget nb (KInt 2) = Some nB.
Hypothesis HnB : (nB = 10 \/ nB = 20)%Z.
Notation n := (n_orb nb).
Definition nx (x : spinorb) : nat := Z.to_nat (coord_index nb x).
Notation b0 := (nx (SBath (KInt 2) 0)).
Notation gg := (Z.to_nat (nB / 5)).
Lemma bath2_ok b : (0 <= b < nB)%Z -> coord_ok nb (SBath (KInt 2) b).
Proof. intros H. exists nB. split; [apply dget_In; exact HB|auto]. Qed.
Lemma nx_lt x : coord_ok nb x -> (nx x < n)%nat.
Proof. intros H. destruct (coord_lt nb W x H) as (i & E & Hi). unfold nx. rewrite E, Nat2Z.id. auto. Qed.
Lemma nx_Z x : coord_ok nb x -> Z.of_nat (nx x) = coord_index nb x.
Proof. intros H. destruct (coord_lt nb W x H) as (i & E & Hi). unfold nx. lia. Qed.
Lemma nx_inj x y : coord_ok nb x -> coord_ok nb y -> nx x = nx y -> x = y.
Proof. intros Hx Hy E. apply (coord_index_inj nb); auto. rewrite <- !nx_Z by auto. congruence. Qed.
Lemma nx_bath b : (0 <= b < nB)%Z -> nx (SBath (KInt 2) b) = (b0 + Z.to_nat b)%nat.
Proof.
  intros H. pose proof (nx_Z _ (bath2_ok b H)) as E. pose proof (nx_Z _ (bath2_ok 0 ltac:(lia))) as E0. cbn [coord_index] in E, E0. lia.
Qed.
Lemma blk : (b0 + 5 * gg <= n)%nat.
Proof.
  pose proof (nx_lt _ (bath2_ok (nB - 1) ltac:(lia))) as H. rewrite nx_bath in H by lia. destruct HnB as [E|E]; rewrite E in *; cbn in H |- *; lia.
Qed.
Lemma blk_size : (5 * gg = Z.to_nat nB)%nat.
Proof. destruct HnB as [-> | ->]; reflexivity. Qed.
Lemma blk_bath x : coord_ok nb x -> inblk b0 gg (nx x) -> exists b, x = SBath (KInt 2) b /\ (0 <= b < nB)%Z.
Proof.
  intros Hx H. unfold inblk in H. rewrite blk_size in H. exists (Z.of_nat (nx x - b0)). split; [|lia]. apply nx_inj; [auto|apply bath2_ok; lia|]. rewrite nx_bath by lia. lia.
Qed.
Lemma imp_out i : (Z.of_nat i < n_imp nb)%Z -> ~ inblk b0 gg i.
Proof.
  intros Hi H. unfold inblk in H. pose proof (bath2_ok 0 ltac:(lia)) as C. destruct (c2i_P nb _ W C) as (_ & _ & X). pose proof (nx_Z _ C). lia.
Qed.
Definition wgt (u : list (list (cx F))) (c : cls) (i r : nat) : cx F := match c with cD => if Nat.eqb r i then c1 else c0 | _ => at_m u i r end.
Notation con := (nB - 10 =? 10)%Z.
Lemma cz_coord c s i : In 2%Z (angs nb) -> cok con c -> (s = 0 \/ s = 1)%Z -> (i < 5)%nat -> coord_ok nb (cz c s i).
Proof.
  intros H2 Hc Hs Hi. destruct c; cbn [cz]; unfold d_orb, bath_orb.
  - cbn [coord_ok]. split; [auto|]. split; [auto|lia].
  - apply bath2_ok. lia.
  - specialize (Hc eq_refl). apply Z.eqb_eq in Hc. apply bath2_ok. lia.
Qed.
Lemma cz_row u c s i (f : nat -> cx F) : In 2%Z (angs nb) -> cok con c -> (s = 0 \/ s = 1)%Z -> (i < 5)%nat ->
  csum (fun k => bath_turn nb nB u (nx (cz c s i)) k * f k) (seq 0 n) = csum (fun r => wgt u c i r * f (nx (cz c s r))) (seq 0 5).
Proof.
  intros H2 Hc Hs Hi. unfold bath_turn. fold (nx (SBath (KInt 2) 0)). pose proof (cz_coord c s i H2 Hc Hs Hi) as C.
  assert (B : forall o : Z, (o = 0 \/ o = 10)%Z -> (o + 10 <= nB)%Z -> csum (fun k => group_turn b0 gg (at_m u) (nx (bath_orb o s i)) k * f k) (seq 0 n) = csum (fun r => at_m u i r * f (nx (bath_orb o s r))) (seq 0 5)).
  { intros o Ho Hb. set (q := Z.to_nat (o / 5 + s)). assert (E : forall r, (r < 5)%nat -> nx (bath_orb o s r) = (b0 + 5 * q + r)%nat).
    { intros r Hr. unfold bath_orb. rewrite nx_bath by lia. unfold q. rewrite <- Nat.add_assoc. f_equal. destruct Ho as [-> | ->], Hs as [-> | ->]; change (0 / 5)%Z with 0%Z; change (10 / 5)%Z with 2%Z; lia. }
    rewrite E by auto. rewrite (row_in b0 gg n blk (at_m u) q i f) by (auto; unfold q; destruct Ho as [-> | ->], Hs as [-> | ->], HnB as [EB|EB]; rewrite EB in *; cbn; lia).
    apply csum_ext. intros r Hr. apply in_seq in Hr. rewrite E by lia. reflexivity. }
  destruct c; cbn [cz wgt] in *.
  - assert (O : ~ inblk b0 gg (nx (d_orb s i))) by (apply imp_out; destruct (c2i_P nb _ W C) as (_ & _ & X); rewrite nx_Z by auto; exact X).
    rewrite (row_out b0 gg n blk (at_m u) _ f O (nx_lt _ C)).
    rewrite (csum_single (fun r => (if Nat.eqb r i then c1 else c0) * f (nx (d_orb s r))) _ i (seq_NoDup 5 0)); [rewrite Nat.eqb_refl; ring|apply in_seq; lia|]. intros r _ Hr. destruct (Nat.eqb_spec r i); [congruence|ring].
  - apply B; lia.
  - specialize (Hc eq_refl). apply Z.eqb_eq in Hc. apply B; lia.
Qed.
Lemma other_row u x (f : nat -> cx F) : coord_ok nb x -> (forall c s i, cok con c -> (s = 0 \/ s = 1)%Z -> (i < 5)%nat -> x <> cz c s i) ->
  csum (fun k => bath_turn nb nB u (nx x) k * f k) (seq 0 n) = f (nx x).
Proof.
  intros C N. unfold bath_turn. fold (nx (SBath (KInt 2) 0)). apply (row_out b0 gg n blk); [|apply nx_lt; auto]. intros H. apply blk_bath in H as (b & -> & Hb); [|auto].
  destruct (Z_lt_dec b 10) as [L|L].
  - apply (N cV (b / 5)%Z (Z.to_nat (b mod 5))); [discriminate| | |]; pose proof (Z.div_mod b 5 ltac:(lia)); pose proof (Z.mod_pos_bound b 5 ltac:(lia)); [lia|lia|]. cbn [cz]. unfold bath_orb. f_equal. lia.
  - apply (N cC ((b - 10) / 5)%Z (Z.to_nat ((b - 10) mod 5))); [intros _; apply Z.eqb_eq; lia| | |]; pose proof (Z.div_mod (b - 10) 5 ltac:(lia)); pose proof (Z.mod_pos_bound (b - 10) 5 ltac:(lia)); [lia|lia|]. cbn [cz]. unfold bath_orb. f_equal. lia.
Qed.
Lemma cz_dec x : coord_ok nb x -> (exists c s i, cok con c /\ (s = 0 \/ s = 1)%Z /\ (i < 5)%nat /\ x = cz c s i) \/ (forall c s i, cok con c -> (s = 0 \/ s = 1)%Z -> (i < 5)%nat -> x <> cz c s i).
Proof.
  intros C. destruct x as [l s m|k b].
  - destruct (Z.eq_dec l 2) as [->|N]; [left|right; intros [] ? ? _ _ _ E; unfold cz, d_orb, bath_orb in E; congruence]. destruct C as (_ & Hs & Hm). exists cD, s, (Z.to_nat (m + 2)). split; [discriminate|]. split; [auto|]. split; [lia|]. cbn [cz]. unfold d_orb. f_equal. lia.
  - destruct (eqb_spec k (KInt 2)) as [->|N]; [left|right; intros [] ? ? _ _ _ E; unfold cz, d_orb, bath_orb in E; congruence]. destruct C as (n' & Hn & Hb). assert (n' = nB) by (pose proof (In_dget nb (KInt 2) n' (proj1 W) Hn) as X; congruence). subst n'.
    destruct (Z_lt_dec b 10) as [L|L].
    + exists cV, (b / 5)%Z, (Z.to_nat (b mod 5)). pose proof (Z.div_mod b 5 ltac:(lia)). pose proof (Z.mod_pos_bound b 5 ltac:(lia)). split; [discriminate|]. split; [lia|]. split; [lia|]. cbn [cz]. unfold bath_orb. f_equal. lia.
    + exists cC, ((b - 10) / 5)%Z, (Z.to_nat ((b - 10) mod 5)). pose proof (Z.div_mod (b - 10) 5 ltac:(lia)). pose proof (Z.mod_pos_bound (b - 10) 5 ltac:(lia)). split; [intros _; apply Z.eqb_eq; lia|]. split; [lia|]. split; [lia|]. cbn [cz]. unfold bath_orb. f_equal. lia.
Qed.
Lemma hop_val (op : sop_t F) x y : NoDup (dkeys op) -> op_in nb op -> coord_ok nb x -> coord_ok nb y -> hop_matrix nb op (nx x) (nx y) = val op (hop2 x y).
Proof.
  intros Hn Hi Cx Cy. unfold hop_matrix. rewrite !nx_Z by auto. exact (idx_val nb op (hop2 x y) W Hi Hn (Forall_cons (x, "c"%char) Cx (Forall_cons (y, "a"%char) Cy (Forall_nil _)))).
Qed.
Lemma orb_coord k : (k < n)%nat -> exists x, coord_ok nb x /\ k = nx x.
Proof.
  intros Hk. destruct (orb_i2c nb W HA k) as (x & _ & C & E); [apply in_seq; lia|]. exists x. split; [auto|]. unfold nx. lia.
Qed.
Section M.
Variables (u : list (list (cx F))) (A B : sop_t F) (eg t2g ve vt ev_eg ev_t2g vce vct ec_eg ec_t2g : F).
Hypothesis H2 : In 2%Z (angs nb).
Hypothesis SA : cf_spec u (ident 5) con eg t2g ve vt ev_eg ev_t2g vce vct ec_eg ec_t2g A.
Hypothesis SB : cf_spec u u con eg t2g ve vt ev_eg ev_t2g vce vct ec_eg ec_t2g B.
Hypothesis EA : herm_op A.
Hypothesis EB : herm_op B.
Hypothesis NA : NoDup (dkeys A).
Hypothesis NB : NoDup (dkeys B).
Hypothesis IA : op_in nb A.
Hypothesis IB : op_in nb B.
Lemma cf_only ub (op : sop_t F) x y : cf_spec u ub con eg t2g ve vt ev_eg ev_t2g vce vct ec_eg ec_t2g op -> (forall c s i, cok con c -> (s = 0 \/ s = 1)%Z -> (i < 5)%nat -> x <> cz c s i) \/ (forall c s i, cok con c -> (s = 0 \/ s = 1)%Z -> (i < 5)%nat -> y <> cz c s i) -> val op (hop2 x y) = c0.
Proof.
  intros S N. unfold val. destruct (dget op (hop2 x y)) as [v|] eqn:E; [|reflexivity]. exfalso. assert (K : In (hop2 x y) (dkeys op)) by (apply dget_Some_key; eauto).
  destruct (cf_hops _ _ _ _ _ _ _ _ _ _ _ _ _ _ S _ K) as (x' & y' & E' & Z). injection E' as <- <-.
  assert (G : forall z, z = x \/ z = y -> exists c s i, cok con c /\ (s = 0 \/ s = 1)%Z /\ (i < 5)%nat /\ z = cz c s i).
  { intros z Hz. destruct (Z z Hz) as [(s & i & -> & Hs & Hi)|(o & s & i & -> & Ho & Hs & Hi)]; [exists cD, s, i; split; [discriminate|auto]|]. destruct Ho as [-> |[Hc ->]]; [exists cV, s, i; split; [discriminate|auto]|exists cC, s, i; split; [intros _; exact Hc|auto]]. }
  destruct N as [N|N]; [destruct (G x (or_introl eq_refl)) as (c & s & i & Hc & Hs & Hi & Ez)|destruct (G y (or_intror eq_refl)) as (c & s & i & Hc & Hs & Hi & Ez)]; exact (N c s i Hc Hs Hi Ez).
Qed.
Lemma conj_row x (f : nat -> cx F) : csum (fun k => cconj (bath_turn nb nB u (nx x) k) * f k) (seq 0 n) = cconj (csum (fun k => bath_turn nb nB u (nx x) k * cconj (f k)) (seq 0 n)).
Proof. rewrite <- csum_conj. apply csum_ext. intros k _. rewrite cconj_mul, cconj_conj. reflexivity. Qed.
Lemma wgt_row c i k : cok con c -> (i < 5)%nat -> (k < 5)%nat -> csum (fun r => wgt u c i r * at_m (row u (ident 5) c) r k) (seq 0 5) = at_m (row u u c) i k.
Proof.
  intros _ Hi Hk. assert (I : csum (fun r => at_m u i r * at_m (@ident F 5) r k) (seq 0 5) = at_m u i k).
  { rewrite (csum_single (fun r => at_m u i r * at_m (@ident F 5) r k) _ k (seq_NoDup 5 0)); [rewrite ident_at, Nat.eqb_refl by auto; ring|apply in_seq; lia|]. intros r Hr N. apply in_seq in Hr. rewrite ident_at by lia. destruct (Nat.eqb_spec k r); [congruence|ring]. }
  destruct c; cbn [wgt row]; [|exact I|exact I].
  rewrite (csum_single (fun r => (if Nat.eqb r i then c1 else c0) * at_m u r k) _ i (seq_NoDup 5 0)); [rewrite Nat.eqb_refl; ring|apply in_seq; lia|]. intros r _ N. destruct (Nat.eqb_spec r i); [congruence|ring].
Qed.
Lemma cf_turned k l : (k < n)%nat -> (l < n)%nat -> hop_matrix nb B k l = turned_hops n (bath_turn nb nB u) (hop_matrix nb A) k l.
Proof.
  intros Hk Hl. destruct (orb_coord k Hk) as (x & Cx & ->). destruct (orb_coord l Hl) as (y & Cy & ->). rewrite hop_val by auto. unfold turned_hops.
  rewrite (csum_ext _ (fun i => bath_turn nb nB u (nx x) i * csum (fun j => cconj (bath_turn nb nB u (nx y) j) * hop_matrix nb A i j) (seq 0 n))) by (intros i _; rewrite <- csum_mul_l; apply csum_ext; intros j _; ring).
  destruct (cz_dec x Cx) as [(c & s & i & Hc & Hs & Hi & ->)|Nx].
  - rewrite cz_row by auto. destruct (cz_dec y Cy) as [(c' & s' & j & Hc' & Hs' & Hj & ->)|Ny].
    + rewrite (cf_uniform _ _ _ _ _ _ _ _ _ _ _ _ _ B SB EB) by auto. cbv zeta.
      set (d := dxy (eg, t2g) (ve, vt) (ev_eg, ev_t2g) (vce, vct) (ec_eg, ec_t2g) c c').
      transitivity (csum (fun r => wgt u c i r * csum (fun r' => cconj (wgt u c' j r') * when (s =? s')%Z (rotm (row u (ident 5) c) (row u (ident 5) c') (fst d) (snd d) r r')) (seq 0 5)) (seq 0 5)).
      * destruct (s =? s')%Z; cbn [when].
        -- symmetry. apply rot_turn; intros k' Hk'; apply wgt_row; auto.
        -- symmetry. apply csum_zero. intros r _. rewrite csum_zero; [ring|intros; ring].
      * apply csum_ext. intros r Hr. apply in_seq in Hr. f_equal. rewrite conj_row, (cz_row u c' s' j (fun k => cconj (hop_matrix nb A (nx (cz c s r)) k))) by auto. rewrite <- csum_conj. apply csum_ext. intros r' Hr'. apply in_seq in Hr'.
        rewrite cconj_mul, cconj_conj, hop_val by (auto; apply cz_coord; auto; lia). rewrite (cf_uniform _ _ _ _ _ _ _ _ _ _ _ _ _ A SA EA) by (auto; lia). reflexivity.
    + rewrite (cf_only u B) by auto. symmetry. apply csum_zero. intros r Hr. apply in_seq in Hr. rewrite conj_row, (other_row u y (fun k => cconj (hop_matrix nb A (nx (cz c s r)) k))), cconj_conj by auto. rewrite hop_val by (auto; apply cz_coord; auto; lia). rewrite (cf_only (ident 5) A) by auto. ring.
  - rewrite other_row by auto. rewrite (cf_only u B) by auto. symmetry. apply csum_zero. intros j Hj. apply in_seq in Hj. destruct (orb_coord j ltac:(lia)) as (y' & Cy' & ->). rewrite hop_val by auto. rewrite (cf_only (ident 5) A) by auto. ring.
Qed.
End M.
(* the occupation restrictions *)
Lemma bt_kept (u : list (list (cx F))) : kept_impurity nb (bath_turn nb nB u).
Proof. intros i Hi. unfold bath_turn. fold (nx (SBath (KInt 2) 0)). apply (gt_kept b0 gg n blk). apply imp_out. exact Hi. Qed.
Lemma bt_unitary (u : list (list (cx F))) : unitary 5 u -> unitary_orbitals n (bath_turn nb nB u).
Proof. intros H. unfold bath_turn. fold (nx (SBath (KInt 2) 0)). apply gt_unitary; [apply blk|auto]. Qed.
Lemma bt_unmixed (u : list (list (cx F))) (L : list Z) a : (forall x, In x L -> x < n_imp nb)%Z \/ (exists b : Z, (a = 0 \/ a = 10)%Z /\ (b = 0 \/ b = 10 \/ b = 20)%Z /\ forall x, In x L <-> (coord_index nb (SBath (KInt 2) 0) + a <= x < coord_index nb (SBath (KInt 2) 0) + b)%Z) ->
  forall i j, (i < n)%nat -> (j < n)%nat -> bath_turn nb nB u j i <> c0 -> (In (Z.of_nat i) L <-> In (Z.of_nat j) L).
Proof.
  intros HL i j Hi Hj Hne. pose proof (nx_Z _ (bath2_ok 0 ltac:(lia))) as E0. unfold bath_turn in Hne. fold (nx (SBath (KInt 2) 0)) in Hne.
  destruct (inblk_dec b0 gg n blk i) as [Bi|Bi]; [destruct (inblk_dec b0 gg n blk j) as [Bj|Bj]|].
  - destruct (inblk_form b0 gg n blk i Bi) as (q & r & Ei & Hq & Hr). destruct (inblk_form b0 gg n blk j Bj) as (q' & r' & Ej & Hq' & Hr'). rewrite Ei, Ej in Hne. rewrite (gt_in b0 gg n blk) in Hne by auto. destruct (Nat.eqb_spec q' q) as [->|N]; [|congruence].
    destruct HL as [HL|(b & Ha & Hb & HL)].
    + split; intros X; apply HL in X; [elim (imp_out i X Bi)|elim (imp_out j X Bj)].
    + rewrite !HL, <- E0. subst i j. lia.
  - rewrite (gt_out b0 gg n blk) in Hne by auto. destruct (Nat.eqb_spec j i) as [->|]; [tauto|congruence].
  - rewrite (gt_out b0 gg n blk) in Hne by auto. destruct (Nat.eqb_spec j i) as [->|]; [tauto|congruence].
Qed.
End C.

Section R.
Context {F : ofield}.
Lemma excited_unmixed d vals dnV dnC tol n0 rs nB p (u : list (list (cx F))) : wf_shells d -> dget d 2 = Some nB -> nB = 10 \/ nB = 20 -> shell_params vals dnV dnC tol n0 2 p -> p_val p = 10 ->
  excited_restrictions d vals dnV dnC tol n0 = Ok rs -> wf_restr (Some rs) /\ unmixed (n_orb (nbaths_of d)) (bath_turn (nbaths_of d) nB u) (Some rs).
Proof.
  intros Hw HB HnB Hp Hv E. pose proof (dget_In _ _ _ HB) as H2. rewrite (restrictions_eq d vals dnV dnC tol n0 Hw nB H2 p Hp ltac:(lia)) in E. injection E as <-.
  assert (W : wf_nbaths (nbaths_of d)) by (apply wf_nb; auto).
  assert (HB' : dget (nbaths_of d) (KInt 2) = Some nB).
  { apply In_dget; [apply W|]. unfold nbaths_of. apply in_map_iff. exists (2, nB). auto. }
  pose proof (fun L a => bt_unmixed (F := F) (nbaths_of d) nB W HB' HnB u L a) as BU.
  assert (S0 : coord_index (nbaths_of d) (SBath (KInt 2) 0) = bath_start d 2) by (unfold bath_start; cbn [coord_index]; lia). rewrite S0 in BU.
  assert (I : forall i j, (i < n_orb (nbaths_of d))%nat -> (j < n_orb (nbaths_of d))%nat -> bath_turn (nbaths_of d) nB u j i <> c0 -> (In (Z.of_nat i) (imp_idx d 2) <-> In (Z.of_nat j) (imp_idx d 2))).
  { apply (BU _ 0). left. intros x Hx. pose proof (imp_idx_lt d Hw 2 nB x H2 Hx). lia. }
  assert (V : forall i j, (i < n_orb (nbaths_of d))%nat -> (j < n_orb (nbaths_of d))%nat -> bath_turn (nbaths_of d) nB u j i <> c0 -> (In (Z.of_nat i) (val_idx d 2 (p_val p)) <-> In (Z.of_nat j) (val_idx d 2 (p_val p)))).
  { apply (BU _ 0). right. exists 10. split; [auto|]. split; [auto|]. intros x. unfold val_idx. rewrite zrange2_In, Hv. lia. }
  assert (K : forall i j, (i < n_orb (nbaths_of d))%nat -> (j < n_orb (nbaths_of d))%nat -> bath_turn (nbaths_of d) nB u j i <> c0 -> (In (Z.of_nat i) (con_idx d 2 (p_val p) nB) <-> In (Z.of_nat j) (con_idx d 2 (p_val p) nB))).
  { apply (BU _ 10). right. exists nB. split; [auto|]. split; [lia|]. intros x. unfold con_idx. rewrite zrange2_In, Hv. lia. }
  split.
  - cbn [wf_restr]. destruct (fs_eqb _ _); repeat constructor; apply zrange2_NoDup.
  - cbn [unmixed]. destruct (fs_eqb _ _); repeat (apply Forall_cons || apply Forall_nil); cbn [fst]; assumption.
Qed.
End R.

(* the transition operators act on impurity orbitals only *)
Section T.
Context {F : ofield}.
Variable nb : nbaths_t.
Hypothesis W : wf_nbaths nb.
Definition at_imp (op : op_t F) : Prop := forall p l, In p (dkeys op) -> In l p -> 0 <= fst l < n_imp nb.
Lemma c2i_imp l s m i : c2i nb (SImp l s m) = Ok i -> 0 <= i < n_imp nb.
Proof.
  intros E. destruct (coord_dec nb (SImp l s m)) as [H|H]; [|rewrite c2i_err in E by auto; discriminate]. destruct (c2i_P nb _ W H) as (E' & R & X). assert (i = coord_index nb (SImp l s m)) by congruence. subst i. lia.
Qed.
Lemma imp_dset (op : op_t F) p v : at_imp op -> Forall (fun l => 0 <= fst l < n_imp nb) p -> at_imp (dset op p v).
Proof. intros H Hp q l Hq Hl. apply in_dkeys_dset in Hq as [->|Hq]; [|eauto]. rewrite Forall_forall in Hp. apply (Hp l Hl). Qed.
Lemma imp_dadd (op : op_t F) p v : at_imp op -> Forall (fun l => 0 <= fst l < n_imp nb) p -> at_imp (dadd op p v).
Proof. intros. unfold dadd. destruct (dget op p); apply imp_dset; auto. Qed.
Lemma imp_nil : at_imp []. Proof. intros p l []. Qed.
Lemma imp_two l s m l' s' m' i j : c2i nb (SImp l s m) = Ok i -> c2i nb (SImp l' s' m') = Ok j -> Forall (fun x : Z * ascii => 0 <= fst x < n_imp nb) [(i, lab_c); (j, lab_a)].
Proof. intros Ei Ej. apply c2i_imp in Ei, Ej. repeat constructor; cbn [fst]; lia. Qed.
Variables fsqrt arccos fsin : F -> F.
Variable pi : F.
Variable gaunt : Z -> Z -> Z -> Z -> Z -> Z -> F.
Variable spherical_jn : Z -> F -> F.
Variable sph_harm : Z -> Z -> F -> F -> cx F.
Lemma pes_imp label l (ops : list (op_t F)) : getPESOperators label nb l = Ok ops -> Forall at_imp ops.
Proof.
  intros E. eapply L_Program4.map_res_all; [|exact E]. intros [s m] op _ Eo. cbn [fst snd] in Eo. destruct (c2i _ _) as [i|] eqn:Ei; [|discriminate]. injection Eo as <-.
  apply (imp_dset [] [(i, label)]); [apply imp_nil|]. apply c2i_imp in Ei. repeat constructor; cbn [fst]; lia.
Qed.
Lemma dip_imp v (op : op_t F) : getDipoleOperator fsqrt pi gaunt nb v = Ok op -> at_imp op.
Proof.
  unfold getDipoleOperator. destruct (py_nth v 0) as [n0|]; [|discriminate]. cbn [bind]. destruct (py_nth v 1) as [n1|]; [|discriminate]. cbn [bind].
  destruct (py_nth v 2) as [n2|]; [|discriminate]. cbn [bind]. destruct (dkeys nb) as [|k1 [|k2 [|]]]; try discriminate. destruct k2, k1; try discriminate.
  apply (fold_res_inv' _ at_imp); [|apply imp_nil]. intros s1 m s2 H1 _. revert H1. apply (fold_res_inv' _ at_imp). clear s1 s2.
  intros s1 mp s2 H1 _. revert H1. apply (fold_res_inv' _ at_imp). clear s1 s2. intros s1 s s2 H1 _.
  destruct (Z.abs (m - mp) <=? 1); [|intros E0; injection E0 as <-; exact H1]. destruct (pol _ _ _ _ _) as [nd|]; [|discriminate]. cbn [bind]. destruct (negb _); [|intros E0; injection E0 as <-; exact H1].
  destruct (c2i nb (SImp _ s m)) as [i|] eqn:Ei; [|discriminate]. cbn [bind]. destruct (c2i nb (SImp _ s mp)) as [j|] eqn:Ej; [|discriminate]. cbn [bind]. intros E. injection E as <-.
  apply imp_dset; auto. eapply imp_two; eauto.
Qed.
Lemma ddips_imp vs (ops : list (op_t F)) : getDaggeredDipoleOperators fsqrt pi gaunt nb vs = Ok ops -> Forall at_imp ops.
Proof.
  unfold getDaggeredDipoleOperators. intros E. eapply L_Program4.map_res_all; [|exact E]. intros v d _ Hd. cbn beta in Hd.
  destruct (getDipoleOperator fsqrt pi gaunt nb v) as [op|] eqn:Ed; [|discriminate]. cbn [bind] in Hd. pose proof (dip_imp v op Ed) as HI. pose proof (dip_wf nb W fsqrt pi gaunt v op Ed) as [HN _].
  apply daggerOp_ok_inv in Hd as [Hg ->]; auto. intros p l Hp Hl. unfold dkeys, dagl in Hp. rewrite map_map in Hp. apply in_map_iff in Hp as (kv & <- & Hkv). cbn [fst] in Hl. unfold dag in Hl. apply in_map_iff in Hl as (y & <- & Hy). apply in_rev in Hy.
  apply (HI (fst kv) y); [apply in_map; auto|auto].
Qed.
Lemma nixs_imp qs li lj radial (ops : list (op_t F)) : getNIXSOperators fsqrt arccos fsin pi gaunt spherical_jn sph_harm nb qs li lj radial = Ok ops -> Forall at_imp ops.
Proof.
  intros E. eapply L_Program4.map_res_all; [|exact E]. intros [[q0 q1] q2] op _. unfold getNIXSOperator.
  apply (fold_res_inv' _ at_imp); [|apply imp_nil]. intros s1 k s2 H1 _. destruct (_ =? 0)%Z; [|intros E0; injection E0 as <-; exact H1]. revert H1.
  apply (fold_res_inv' _ at_imp). clear s1 s2. intros s1 mi s2 H1 _. revert H1.
  apply (fold_res_inv' _ at_imp). clear s1 s2. intros s1 mj s2 H1 _. destruct (_ <=? k)%Z; [|intros E0; injection E0 as <-; exact H1]. destruct (negb _); [|intros E0; injection E0 as <-; exact H1]. revert H1.
  apply (fold_res_inv' _ at_imp). clear s1 s2. intros s1 s s2 H1 _.
  destruct (c2i nb (SImp li s mi)) as [i|] eqn:Ei; [|discriminate]. cbn [bind]. destruct (c2i nb (SImp lj s mj)) as [j|] eqn:Ej; [|discriminate]. cbn [bind]. intros H. injection H as <-.
  apply imp_dadd; auto. eapply imp_two; eauto.
Qed.
Lemma transitions_turned u ops dN dNc : unitary_orbitals (n_orb nb) u -> kept_impurity nb u -> transition_ops fsqrt arccos fsin pi gaunt spherical_jn sph_harm nb ops dN dNc -> Forall (wf_op (n_orb nb)) ops /\ Forall (fun o => turns (n_orb nb) u o o) ops.
Proof.
  intros HU HK HT. assert (X : Forall (wf_op (n_orb nb)) ops /\ Forall at_imp ops).
  { destruct HT as [ops E|ops E|ops E|qs radial ops E|eps ops E|eps ops E].
    - split; [eapply pes_wf; [auto|left; reflexivity|exact E]|eapply pes_imp; exact E].
    - split; [eapply pes_wf; [auto|right; reflexivity|exact E]|eapply pes_imp; exact E].
    - split; [eapply pes_wf; [auto|left; reflexivity|exact E]|eapply pes_imp; exact E].
    - split; [eapply nixs_wf; eauto|eapply nixs_imp; exact E].
    - split; [eapply dips_wf; eauto|eapply L_Program4.map_res_all; [|exact E]; intros v op _; apply dip_imp].
    - split; [eapply ddips_wf; eauto|eapply ddips_imp; exact E]. }
  destruct X as [X Y]. split; [auto|]. rewrite Forall_forall in *. intros o Ho. apply turns_kept; auto. intros p l Hp Hl. apply HK. pose proof (Y o Ho p l Hp Hl). lia.
Qed.
End T.

Section P.
Context {F : ofield}.
Lemma CF_turned (fsqrt : F -> F) pi gaunt fint nb nv hp n3d params nB rs hOp hOp' : sqrt_laws fsqrt -> wf_nbaths nb -> NoDup (angs nb) ->
  (forall l1 l2 l3 m1 m2 m3, gaunt l1 l2 l3 m1 m2 m3 = gaunt l3 l2 l1 m3 m2 m1) ->
  (forall l1 l2 l3 m1 m2 m3, gaunt l1 l2 l3 (- m1) (- m2) (- m3) = gaunt l1 l2 l3 m1 m2 m3) ->
  (forall z, fint (fofZ z) = z) -> dget (hp_n0imps hp) 2 = Some n3d -> dget (hp_n0imps hp) 1 = Some 6 ->
  (5 <= length (hp_Fdd hp))%nat -> (1 <= length (hp_Fpd hp))%nat -> (4 <= length (hp_Gpd hp))%nat -> In 1 (angs nb) -> In 2 (angs nb) ->
  dget nb (KInt 2) = Some nB -> nB = 10 \/ nB = 20 -> dget nv (KInt 2) = Some 10 ->
  exists u, get_spherical_2_cubic_matrix fsqrt false 2 = Ok u /\ unitary 5 u /\
  (wf_restr rs -> unmixed (n_orb nb) (bath_turn nb nB u) rs ->
   get_hamiltonian_operator_using_CF fsqrt pi gaunt fint nb nv hp params Cubic = Ok hOp -> get_hamiltonian_operator_using_CF fsqrt pi gaunt fint nb nv hp params Spherical = Ok hOp' ->
   S_Dict.no_small (n_orb nb) hOp -> S_Dict.no_small (n_orb nb) hOp' -> turned_hamiltonians (n_orb nb) (bath_turn nb nB u) rs hOp hOp').
Proof.
  intros SL W HA G1 G2 FI H2 H1 L1 L2 L3 I1 I2 HB HnB HV.
  destruct (CF_spec fsqrt SL nb nv (read_h0_CF_file params) Cubic nB 10 ltac:(discriminate) HB HV) as (A & u & EA & NA & HHA & _ & _ & Eu & Uu & _ & SA).
  destruct (CF_spec fsqrt SL nb nv (read_h0_CF_file params) Spherical nB 10 ltac:(discriminate) HB HV) as (B & u' & EB & NB & HHB & _ & _ & Eu' & _ & _ & SB). assert (u' = u) by congruence. subst u'.
  exists u. split; [auto|]. split; [auto|]. intros Hr Hm E E' S S'.
  destruct (total_CF fint fsqrt pi gaunt nb hp W nv params Cubic nB 10 ltac:(discriminate) HB HV eq_refl HnB) as (A' & XA & _ & _ & IA & _ & TA). rewrite EA in XA. injection XA as <-.
  destruct (total_CF fint fsqrt pi gaunt nb hp W nv params Spherical nB 10 ltac:(discriminate) HB HV eq_refl HnB) as (B' & XB & _ & _ & IB & _ & TB). rewrite EB in XB. injection XB as <-.
  rewrite TA in E. rewrite TB in E'.
  pose proof (bt_unitary nb nB W HB HnB u Uu) as HU. pose proof (bt_kept nb nB W HB HnB u) as HK.
  assert (OH : forall ub (op : sop_t F) x1 x2 x3 x4 x5 x6 x7 x8 x9 x10, cf_spec u ub (nB - 10 =? 10) x1 x2 x3 x4 x5 x6 x7 x8 x9 x10 op -> only_hops op) by (intros ub op x1 x2 x3 x4 x5 x6 x7 x8 x9 x10 S0 p Hp; destruct (cf_hops _ _ _ _ _ _ _ _ _ _ _ _ _ _ S0 p Hp) as (x & y & -> & _); eauto).
  eapply (total_turned nb W fsqrt pi gaunt fint hp n3d G1 G2 FI H2 H1 L1 L2 L3 I1 I2 (bath_turn nb nB u) rs A B); eauto.
  apply turns_h0; auto; [eapply OH; exact SA|eapply OH; exact SB|]. intros i j Hi Hj.
  eapply (cf_turned nb nB W HA HB HnB u A B); eauto; apply assert_hermitian_iff; auto.
Qed.
End P.
Section Q.
Context {F : ofield}.
Lemma CF_basis (fsqrt : F -> F) pi gaunt fint d vals dnV dnC tol n0 rs nB p nv hp n3d params hOp hOp' : sqrt_laws fsqrt -> wf_shells d -> let nb := nbaths_of d in NoDup (angs nb) ->
  (forall l1 l2 l3 m1 m2 m3, gaunt l1 l2 l3 m1 m2 m3 = gaunt l3 l2 l1 m3 m2 m1) ->
  (forall l1 l2 l3 m1 m2 m3, gaunt l1 l2 l3 (- m1) (- m2) (- m3) = gaunt l1 l2 l3 m1 m2 m3) ->
  (forall z, fint (fofZ z) = z) -> dget (hp_n0imps hp) 2 = Some n3d -> dget (hp_n0imps hp) 1 = Some 6 ->
  (5 <= length (hp_Fdd hp))%nat -> (1 <= length (hp_Fpd hp))%nat -> (4 <= length (hp_Gpd hp))%nat -> In 1 (angs nb) -> In 2 (angs nb) ->
  dget d 2 = Some nB -> nB = 10 \/ nB = 20 -> dget nv (KInt 2) = Some 10 -> shell_params vals dnV dnC tol n0 2 p -> p_val p = 10 -> excited_restrictions d vals dnV dnC tol n0 = Ok rs ->
  get_hamiltonian_operator_using_CF fsqrt pi gaunt fint nb nv hp params Cubic = Ok hOp -> get_hamiltonian_operator_using_CF fsqrt pi gaunt fint nb nv hp params Spherical = Ok hOp' ->
  S_Dict.no_small (n_orb nb) hOp -> S_Dict.no_small (n_orb nb) hOp' ->
  exists u, get_spherical_2_cubic_matrix fsqrt false 2 = Ok u /\ unitary 5 u /\ kept_impurity nb (bath_turn nb nB u) /\ turned_hamiltonians (n_orb nb) (bath_turn nb nB u) (Some rs) hOp hOp'.
Proof.
  intros SL Hw nb HA G1 G2 FI H2 H1 L1 L2 L3 I1 I2 HB HnB HV Hp Hv ER E E' S S'.
  assert (W : wf_nbaths nb) by (apply wf_nb; auto).
  assert (HB' : dget nb (KInt 2) = Some nB).
  { apply In_dget; [apply W|]. unfold nb, nbaths_of. apply in_map_iff. exists (2, nB). split; [reflexivity|apply dget_In; auto]. }
  destruct (CF_turned fsqrt pi gaunt fint nb nv hp n3d params nB (Some rs) hOp hOp' SL W HA G1 G2 FI H2 H1 L1 L2 L3 I1 I2 HB' HnB HV) as (u & Eu & Uu & HT).
  exists u. split; [auto|]. split; [auto|]. split; [apply bt_kept; auto|].
  destruct (excited_unmixed d vals dnV dnC tol n0 rs nB p u Hw HB HnB Hp Hv ER) as [X Y]. apply HT; auto.
Qed.
End Q.
