(* For the examples: the crystal-field Hamiltonian without hybridisation and interaction has integer elements. *)
From Coq Require Import Permutation Ring Field String.
From Verif Require Import M_Prelude M_Scalar M_PSR M_State M_Basis M_Expect M_Operators S_Fock S_Ops S_Basis S_Expect S_Operators S_Green S_Symmetry.
From Verif Require Import L_Scalar L_Sum L_Dict L_State L_Ops L_Index L_Cubic L_Operators L_Operators2 L_Operators3 L_Operators4 L_Operators5 L_Operators6 L_Operators9 L_Operators10 L_Shift4 L_Unitary5 X_Ops.
From Verif Require S_Dict.
Local Open Scope Z_scope.

Section X.
Context {F : ofield}.
Add Field Ff : (f_field F).
Add Ring Cring : (@c_ring F).
Definition hp0 : @ham_params F := mkHP [0; 0; 0; 0; 0]%F [0; 0; 0]%F [0; 0; 0]%F [0; 0; 0; 0]%F 0%F 0%F [(1, 6); (2, 8)] 0%F 0%F 0%F 0%F.
(* the energies of the bath orbitals are 0 (eg) and 2 (t2g) *)
Definition cf0 : dict string F :=
  [("e_imp"%string, 1%F); ("e_deltaO_imp"%string, 0%F); ("e_val_eg"%string, 0%F); ("e_val_t2g"%string, (1 + 1)%F); ("v_val_eg"%string, 0%F); ("v_val_t2g"%string, 0%F)].
Definition isint (x : cx F) : Prop := exists z, x = cofZ z.
Lemma int_0 : isint c0. Proof. exists 0. reflexivity. Qed.
Lemma int_add x y : isint x -> isint y -> isint (x + y)%C.
Proof. intros (a & ->) (b & ->). exists (a + b). symmetry. apply cofZ_add. Qed.
Variable fsqrt : F -> F.
Hypothesis HS : sqrt_laws fsqrt.
Variable pi : F.
Variable gaunt : Z -> Z -> Z -> Z -> Z -> Z -> F.
Lemma u0_val l1 l2 l3 l4 (R : list F) p : (forall k, nth k R 0%F = 0%F) -> val (getUop fsqrt pi gaunt l1 l2 l3 l4 R) p = c0.
Proof.
  intros HR. unfold val. destruct (dget _ p) as [v|] eqn:E; [|reflexivity]. exfalso. apply u_elements in E as (m1 & m2 & m3 & m4 & s & sp & _ & _ & _ & _ & _ & _ & N & _). apply N.
  unfold slater. destruct (_ =? _); [|reflexivity]. induction (seq 0 (List.length R)) as [|k l IH]; [reflexivity|]. cbn [fsum]. rewrite IH, HR. ring.
Qed.
Lemma one0 l (o : sop_t F) h p : one_body_op l o h -> (forall x y, h x y = c0) -> val o p = c0.
Proof.
  intros [H1 H2] H0. unfold val. destruct (dget o p) as [v|] eqn:E; [|reflexivity]. assert (K : In p (dkeys o)) by (apply dget_Some_key; eauto). destruct (H1 p K) as (x & y & -> & Hx & Hy).
  pose proof (H2 x y Hx Hy) as X. unfold val in X. rewrite E in X. now rewrite X, H0.
Qed.
Notation ub b := (match b with Spherical => u5 fsqrt | _ => ident 5 end).
Lemma sq x : (0 <= x)%F -> (0 <= fsqrt x)%F /\ (fsqrt x * fsqrt x)%F = x.
Proof. apply HS. Qed.
Lemma rot_imp i j : (i < 5)%nat -> (j < 5)%nat -> isint (rotm (u5 fsqrt) (u5 fsqrt) 1%F 1%F i j).
Proof.
  intros Hi Hj. destruct (u5_unitary fsqrt sq) as (_ & _ & H). exists (if Nat.eqb i j then 1 else 0). transitivity (delta (F := F) i j).
  - rewrite <- (H i j Hi Hj). unfold rotm. apply csum_ext. intros k _. destruct (k <? 2)%nat; change (creal 1%F) with (@c1 F); ring.
  - unfold delta. cbn [eqb EqB_nat]. destruct (Nat.eqb i j); reflexivity.
Qed.
Definition tab (i j : nat) : Z := nth j (nth i [[1; 0; 0; 0; -1]; [0; 2; 0; 0; 0]; [0; 0; 0; 0; 0]; [0; 0; 0; 2; 0]; [-1; 0; 0; 0; 1]] []) 0.
Lemma rot_sph i j : (i < 5)%nat -> (j < 5)%nat -> rotm (u5 fsqrt) (u5 fsqrt) 0%F (1 + 1)%F i j = cofZ (tab i j).
Proof.
  intros Hi Hj. destruct (entries fsqrt sq) as (h & Hh & Hc & Er & Emr & Eir & Emir). unfold u5. rewrite Er, Emr, Eir, Emir.
  pose proof (@cI_sq F) as HI. pose proof (@cI_conj F) as HIc.
  assert (D : creal (1 + 1)%F = (c1 + c1 : cx F)%C) by apply creal_add.
  assert (Z2 : cofZ 2 = (c1 + c1 : cx F)%C) by exact (cofZ_add 1 1).
  destruct i as [|[|[|[|[|i]]]]]; try lia; destruct j as [|[|[|[|[|j]]]]]; try lia;
    unfold rotm, at_m, tab; cbn [seq csum nth Nat.ltb Nat.leb]; rewrite D; change (creal 0%F) with (@c0 F);
    repeat rewrite ?cconj_opp, ?cconj_mul, ?cconj_0, ?cconj_1; rewrite ?HIc, ?Hc, ?cofZ_1, ?cofZ_m1, ?Z2; change (cofZ 0) with (@c0 F);
    first [ring [HI] | (transitivity (h * h + h * h)%C; [ring [HI]|exact Hh]) | (transitivity (- (h * h + h * h))%C; [ring [HI]|rewrite Hh; reflexivity]) | (transitivity ((h * h + h * h) + (h * h + h * h))%C; [ring [HI]|rewrite Hh; reflexivity])].
Qed.
Lemma rot_bath b i j : (i < 5)%nat -> (j < 5)%nat -> isint (rotm (ub b) (ub b) 0%F (1 + 1)%F i j).
Proof.
  intros Hi Hj. destruct b; [rewrite rot_sph by auto; exists (tab i j); reflexivity| |].
  all: exists (if Nat.eqb i j then if Nat.ltb i 2 then 0 else 2 else 0); assert (D : creal (1 + 1)%F = (c1 + c1 : cx F)%C) by apply creal_add; assert (Z2 : cofZ 2 = (c1 + c1 : cx F)%C) by exact (cofZ_add 1 1);
    destruct i as [|[|[|[|[|i]]]]]; try lia; destruct j as [|[|[|[|[|j]]]]]; try lia;
    unfold rotm; cbn [seq csum Nat.ltb Nat.leb Nat.eqb]; rewrite !ident_at by lia; cbn [Nat.eqb]; rewrite D, ?Z2, ?cconj_0, ?cconj_1; change (creal 0%F) with (@c0 F); change (cofZ 0) with (@c0 F); ring.
Qed.
Lemma int_when (b : bool) x : isint x -> isint (when b x).
Proof. destruct b; [auto|intros _; apply int_0]. Qed.
Variable fint : F -> Z.
Hypothesis FI : forall z, fint (fofZ z) = z.
Hypothesis G1 : forall l1 l2 l3 m1 m2 m3, gaunt l1 l2 l3 m1 m2 m3 = gaunt l3 l2 l1 m3 m2 m1.
Hypothesis G2 : forall l1 l2 l3 m1 m2 m3, gaunt l1 l2 l3 (- m1) (- m2) (- m3) = gaunt l1 l2 l3 m1 m2 m3.
Lemma cf0_int b : b <> OtherBasis -> exists hOp, get_hamiltonian_operator_using_CF fsqrt pi gaunt fint (pd_baths 10) [(KInt 2, 10)] hp0 cf0 b = Ok hOp /\ S_Dict.no_small (n_orb (pd_baths 10)) hOp.
Proof.
  intros Hb. assert (W : wf_nbaths (pd_baths 10)) by (apply pd_wf; lia).
  destruct (CF_spec fsqrt HS (pd_baths 10) [(KInt 2, 10)] (read_h0_CF_file cf0) b 10 10 Hb eq_refl eq_refl) as (A & u & EA & NA & HA & _ & _ & Eu & _ & _ & SA).
  rewrite sph2cub_2 in Eu. injection Eu as <-.
  destruct (total_CF fint fsqrt pi gaunt (pd_baths 10) hp0 W [(KInt 2, 10)] cf0 b 10 10 Hb eq_refl eq_refl eq_refl (or_introl eq_refl)) as (A' & XA & _ & _ & IA & _ & TA). rewrite EA in XA. injection XA as <-.
  destruct (total_spec fint FI fsqrt pi gaunt G1 G2 (pd_baths 10) W (or_introl eq_refl) (or_intror (or_introl eq_refl)) hp0 8 eq_refl eq_refl ltac:(cbn; lia) ltac:(cbn; lia) ltac:(cbn; lia) A NA HA IA) as (hOp & E & Wf & _ & K & V).
  exists hOp. split; [rewrite TA; exact E|]. apply int_no_small. intros t s. apply int_elem. apply Forall_forall. intros [q v] Hkv. cbn [snd].
  assert (Hv : v = val hOp q) by (unfold val; rewrite (In_dget hOp q v (proj1 Wf) Hkv); reflexivity).
  destruct (K q (in_map fst _ _ Hkv)) as (p & -> & Cp). change (isint v). rewrite Hv, V by auto.
  assert (R0 : forall l : list F, Forall (fun x => x = 0%F) l -> forall k, nth k l 0%F = 0%F).
  { intros l Hl. induction Hl; intros [|k]; cbn [nth]; auto. }
  assert (L0 : forall e1 e2 : F, e1 = 0%F -> e2 = 0%F -> level_shift e1 e2 p = c0).
  { intros e1 e2 -> ->. unfold level_shift. destruct p as [|[[]] [|[] [|]]]; try reflexivity. destruct (_ && _); [reflexivity|]. destruct (_ && _); reflexivity. }
  assert (Z5 : forall z : Z, (0 * fofZ z = (0 : F))%F) by (intros; ring).
  rewrite (L0 (- (U_pd (hp_Fpd hp0) (hp_Gpd hp0) * fofZ (8 + 1) - hp_ctc hp0))%F), pd_sum.
  2:{ unfold U_pd. cbn [hp_Fpd hp_Gpd hp_ctc hp0 nth]. field. split; apply (fofZ_neq0 fint FI); lia. }
  2:{ unfold U_pd, U_dd. cbn [hp_Fdd hp_Fpd hp_Gpd hp_ctc hp0 nth]. field. repeat split; apply (fofZ_neq0 fint FI); lia. }
  unfold six_spec. rewrite !u0_val by (apply R0; repeat constructor). cbn [hp_hx hp_hy hp_hz hp_xi_2p hp_xi_3d hp0].
  rewrite (one0 _ _ _ p (@fld_matrix F 0%F 0%F 0%F 2)) by (intros x y; unfold hS; change (creal 0%F) with (@c0 F); ring).
  rewrite (one0 _ _ _ p (soc_matrix fsqrt 0%F 1)) by (intros x y; change (creal 0%F) with (@c0 F); ring).
  rewrite (one0 _ _ _ p (soc_matrix fsqrt 0%F 2)) by (intros x y; change (creal 0%F) with (@c0 F); ring).
  repeat (apply int_add; [repeat apply int_add; apply int_0|]).
  unfold val. destruct (dget A p) as [v'|] eqn:Ep; [|apply int_0]. assert (KA : In p (dkeys A)) by (apply dget_Some_key; eauto).
  assert (Ev : v' = val A p) by (unfold val; rewrite Ep; reflexivity). rewrite Ev.
  destruct (cf_hops _ _ _ _ _ _ _ _ _ _ _ _ _ _ SA p KA) as (x & y & -> & Hxy).
  assert (G : forall z, z = x \/ z = y -> exists c s i, (c = cD \/ c = cV) /\ cok (10 - 10 =? 10) c /\ (s = 0 \/ s = 1) /\ (i < 5)%nat /\ z = cz c s i).
  { intros z Hz. destruct (Hxy z Hz) as [(s' & i & -> & Hs & Hi)|(o & s' & i & -> & Ho & Hs & Hi)]; [exists cD, s', i; repeat split; auto; discriminate|]. destruct Ho as [-> |[Hc ->]]; [exists cV, s', i; repeat split; auto; discriminate|discriminate Hc]. }
  destruct (G x (or_introl eq_refl)) as (c & s1 & i & Hc & Hok & Hs & Hi & ->). destruct (G y (or_intror eq_refl)) as (c' & s2 & j & Hc' & Hok' & Hs' & Hj & ->).
  rewrite (cf_uniform _ _ _ _ _ _ _ _ _ _ _ _ _ A SA (proj1 (assert_hermitian_iff A NA) HA)) by auto. cbv zeta. apply int_when.
  assert (E1 : e_imp (read_h0_CF_file cf0) = 1%F) by reflexivity. assert (E2 : e_deltaO_imp (read_h0_CF_file cf0) = 0%F) by reflexivity. rewrite E1, E2.
  assert (E3 : (1 + fofZ 3 / fofZ 5 * 0 = (1 : F))%F) by (field; apply (fofZ_neq0 fint FI); lia). assert (E4 : (1 - fofZ 2 / fofZ 5 * 0 = (1 : F))%F) by (field; apply (fofZ_neq0 fint FI); lia). rewrite E3, E4.
  destruct Hc as [-> | ->], Hc' as [-> | ->]; cbn [dxy fst snd row].
  - apply rot_imp; auto.
  - change (isint (rotm (u5 fsqrt) (ub b) 0%F 0%F i j)). rewrite rotm_0. apply int_0.
  - change (isint (rotm (ub b) (u5 fsqrt) 0%F 0%F i j)). rewrite rotm_0. apply int_0.
  - change (isint (rotm (ub b) (ub b) 0%F (1 + 1)%F i j)). apply rot_bath; auto.
Qed.
End X.
