(* The 2p core level with spin-orbit coupling: the program. *)
From Coq Require Import Permutation Ring Field.
From Verif Require Import M_Prelude M_Scalar M_PSR M_State M_Mpi M_Hamiltonian M_Basis M_Expect M_Operators M_Lanczos M_Average M_Spectra M_Simulate S_Fock S_Ops S_Ham S_Green S_Spectra S_Basis S_Expect S_Operators S_Symmetry S_TimeReversal S_Thermal S_RIXS S_Unitary S_Unitary2 S_Free S_Lines.
From Verif Require Import L_Scalar L_Sum L_Dict L_Ops L_Index L_Expect L_Green L_Operators L_Operators2 L_Operators3 L_Operators4 L_Operators5 L_Operators7 L_Shift2 L_Unitary4 L_Free3 L_Free4 L_Lines.
From Verif Require S_Dict.
Local Open Scope Z_scope.

Section S.
Context {F : ofield}.
Add Field Ff : (f_field F).
Add Field Cf : (@c_field F).
Local Open Scope cx_scope.
Section P.
Variable fint : F -> Z.
Hypothesis fint_ofZ : forall z, fint (fofZ z) = z.
Variable fsqrt : F -> F.
Hypothesis SL : sqrt_laws fsqrt.
Variable pi : F.
Variable gaunt : Z -> Z -> Z -> Z -> Z -> Z -> F.
Hypothesis gaunt_swap : forall l1 l2 l3 m1 m2 m3, gaunt l1 l2 l3 m1 m2 m3 = gaunt l3 l2 l1 m3 m2 m1.
Hypothesis gaunt_neg : forall l1 l2 l3 m1 m2 m3, gaunt l1 l2 l3 (- m1)%Z (- m2)%Z (- m3)%Z = gaunt l1 l2 l3 m1 m2 m3.
Variable nb : nbaths_t.
Hypothesis W : wf_nbaths nb.
Hypothesis HNA : NoDup (angs nb).
Hypothesis Hp1 : In 1%Z (angs nb).
Hypothesis Hd2 : In 2%Z (angs nb).
Variable hp : @ham_params F.
Variable n3d : Z.
Hypothesis Hn3d : dget (hp_n0imps hp) 2%Z = Some n3d.
Hypothesis Hn2p : dget (hp_n0imps hp) 1%Z = Some 6%Z.
Hypothesis HFdd : (5 <= length (hp_Fdd hp))%nat.
Hypothesis HFpd : (1 <= length (hp_Fpd hp))%nat.
Hypothesis HGpd : (4 <= length (hp_Gpd hp))%nat.
Hypothesis HZ : no_interaction hp.
Variables (h0 : sop_t F) (e : F).
Hypothesis Hn : NoDup (dkeys h0).
Hypothesis Hh : assert_hermitian h0 = Ok tt.
Hypothesis Hi : op_in nb h0.
Hypothesis Hc : core_level h0 e.
Notation total := (addOps (h_parts fsqrt pi gaunt hp n3d ++ [h0])).
Notation xi := (hp_xi_2p hp).
Notation E0 := (e + hp_ctc hp)%F.
Lemma shell_of l x y (op : sop_t F) h : one_body_op l op h -> ~ (in_shell l x /\ in_shell l y) -> val op (hop2 x y) = c0.
Proof.
  intros [H _] N. unfold val. destruct (dget op (hop2 x y)) as [v|] eqn:E; [|reflexivity]. assert (K : In (hop2 x y) (dkeys op)) by (apply dget_Some_key; eauto).
  destruct (H _ K) as (x' & y' & E' & H1 & H2). injection E' as <- <-. elim N. auto.
Qed.
Lemma shell_1_2 x : in_shell 1 x -> ~ in_shell 2 x.
Proof. intros (s & m & -> & _) (s' & m' & E & _). discriminate. Qed.
Lemma zero_list (l : list F) k : (forall r, In r l -> r = 0%F) -> nth k l 0%F = 0%F.
Proof. intros H. destruct (nth_in_or_default k l 0%F); auto. Qed.
Lemma core_dc : U_pd (hp_Fpd hp) (hp_Gpd hp) = 0%F.
Proof.
  unfold U_pd. rewrite !zero_list by (intros r Hr; apply HZ; rewrite !in_app_iff; auto). assert (T : forall z, (z <> 0)%Z -> @fofZ F z <> 0%F) by (intros z; apply (fofZ_neq0 fint fint_ofZ)).
  field. split; apply T; lia.
Qed.
Lemma core_val x a : coord_ok nb x -> In a six_orbs -> val total (hop2 x (po a)) = if eqb x (po a) then creal E0 + creal xi * ls2 fsqrt a a else match x with SImp l s m => if (l =? 1)%Z then creal xi * ls2 fsqrt (s, m) a else c0 | _ => c0 end.
Proof.
  intros Cx Ha. assert (Sa : in_shell 1 (po a)) by (apply shell_po; eauto). rewrite addOps_val by (apply Forall_app; split; [apply parts_NoDup|auto]).
  unfold h_parts. cbn [app csum]. rewrite pd_val. unfold six. cbn [csum]. rewrite !(u_none fsqrt pi gaunt) by (intros r Hr; apply HZ; rewrite !in_app_iff; auto).
  rewrite (shell_of 2 x (po a) (gethHfieldop (hp_hx hp) (hp_hy hp) (hp_hz hp) 2) _ (fld_matrix _ _ _ 2)) by (intros [_ X]; revert X; apply shell_1_2; auto).
  rewrite (shell_of 2 x (po a) (getSOCop fsqrt (hp_xi_3d hp) 2) _ (soc_matrix fsqrt _ 2)) by (intros [_ X]; revert X; apply shell_1_2; auto).
  rewrite (Hc x (po a) (or_intror Sa)). rewrite eDC_val.
  2: { destruct (six_bounds a Ha). repeat (apply Forall_cons || apply Forall_nil); cbn [fst]; [|cbn; auto]. destruct x; [apply Cx|exact I]. }
  rewrite core_dc. 
  assert (SO : val (getSOCop fsqrt xi 1) (hop2 x (po a)) = match x with SImp l s m => if (l =? 1)%Z then creal xi * ls2 fsqrt (s, m) a else c0 | _ => c0 end).
  { destruct x as [l s m|k b].
    - destruct (Z.eqb_spec l 1) as [->|N].
      + destruct Cx as (_ & Hs & Hm). rewrite (proj2 (soc_matrix fsqrt xi 1)); [|exists s, m; auto|auto]. unfold po. rewrite (ls_table fsqrt s m (fst a) (snd a)); [reflexivity|apply six_In; [auto|lia]|destruct a; exact Ha].
      + apply (shell_of 1 _ _ _ _ (soc_matrix fsqrt xi 1)). intros [(s' & m' & E & _) _]. congruence.
    - apply (shell_of 1 _ _ _ _ (soc_matrix fsqrt xi 1)). intros [(s' & m' & E & _) _]. congruence. }
  rewrite SO. clear SO. destruct (eqb_spec x (po a)) as [->|N].
  - unfold po at 1 2. cbn [Z.eqb Pos.eqb]. unfold level_shift, hop2, po. cbn [Z.eqb Pos.eqb andb]. rewrite eqb_refl. replace (fst a, snd a) with a by (destruct a; auto). apply cx_ext; cbn [re im cadd creal cmul c0]; ring.
  - assert (LZ : level_shift (- (0 * fofZ (n3d + 1) - hp_ctc hp))%F (- (U_dd (hp_Fdd hp) * fofZ n3d + 0 * fofZ 6 - hp_ctc hp))%F (hop2 x (po a)) = c0).
    { unfold level_shift, hop2. destruct x as [l s m|]; [|reflexivity].
      destruct (eqb_spec [(SImp l s m, "c"%char); (po a, "a"%char)] [(SImp l s m, "c"%char); (SImp l s m, "a"%char)]) as [E|_]; [elim N; symmetry; exact (f_equal (fun q : list (spinorb * ascii) => match q with [_; (y, _)] => y | _ => SImp l s m end) E)|]. rewrite !Bool.andb_false_r. reflexivity. }
    etransitivity; [apply f_equal; apply f_equal; apply f_equal; apply f_equal; apply f_equal2; [exact LZ|reflexivity]|]. ring.
Qed.
Notation n := (n_orb nb).
Definition nx (x : spinorb) : nat := Z.to_nat (coord_index nb x).
Lemma nx_ok x : coord_ok nb x -> Z.of_nat (nx x) = coord_index nb x /\ (nx x < n)%nat.
Proof. intros C. destruct (coord_lt nb W x C) as (i & E & L). unfold nx. rewrite E, Nat2Z.id. auto. Qed.
Lemma nx_inj x y : coord_ok nb x -> coord_ok nb y -> nx x = nx y -> x = y.
Proof. intros Cx Cy E. apply (coord_index_inj nb); auto. rewrite <- (proj1 (nx_ok x Cx)), <- (proj1 (nx_ok y Cy)). congruence. Qed.
Lemma po_ok a : In a six_orbs -> coord_ok nb (po a).
Proof. intros Ha. destruct (six_bounds a Ha) as [H1 H2]. unfold po. cbn. auto. Qed.
Variable hOp : op_t F.
Hypothesis EH : get_hamiltonian_operator fsqrt pi gaunt fint nb hp h0 = Ok hOp.
Lemma hop_is x y : coord_ok nb x -> coord_ok nb y -> hop_elements hOp (nx x) (nx y) = val total (hop2 x y).
Proof.
  intros Cx Cy. destruct (total_ok fint fint_ofZ fsqrt pi gaunt gaunt_swap gaunt_neg nb W Hp1 Hd2 hp n3d Hn3d Hn2p HFdd HFpd HGpd h0 Hn Hh Hi) as (E & _ & _).
  assert (X : hOp = idx_op nb total) by (apply ok_inj; rewrite <- EH; exact E). rewrite X. unfold hop_elements. rewrite (proj1 (nx_ok x Cx)), (proj1 (nx_ok y Cy)).
  refine (idx_val nb total (hop2 x y) W _ _ _); [apply sum_in; auto|apply addOps_NoDup|]. repeat (apply Forall_cons || apply Forall_nil); auto.
Qed.
Lemma kd_po b a : In b six_orbs -> In a six_orbs -> kdelta (nx (po b)) (nx (po a)) = sm2 b a :> cx F.
Proof.
  intros Hb Ha. rewrite same_spec. unfold kdelta. destruct (Nat.eqb_spec (nx (po b)) (nx (po a))) as [E|E]; destruct (eqb_spec (po b) (po a)) as [E'|E']; try reflexivity.
  - elim E'. apply nx_inj; auto using po_ok.
  - elim E. congruence.
Qed.
Lemma core_green z G j : im z <> 0%F -> one_particle_green n (hop_elements hOp) z G -> In j six_orbs ->
  let w := z - creal E0 in let hf := creal xi * creal (1 / fofZ 2)%F in
  G (nx (po j)) (nx (po j)) = (w + hf + creal xi * ls2 fsqrt j j) / ((w - hf) * (w + creal xi)).
Proof.
  intros Hz HG Hj w hf. assert (D1 : w - hf <> c0) by (intros E; apply Hz; apply (f_equal im) in E; unfold w, hf in E; cbn [im re csub cmul creal c0] in E; rewrite <- E; ring).
  assert (D2 : w + creal xi <> c0) by (intros E; apply Hz; apply (f_equal im) in E; unfold w in E; cbn [im re csub cadd creal c0] in E; rewrite <- E; ring).
  assert (D3 : (w - hf) * (w + creal xi) <> c0).
  { intros E. apply D2. transitivity ((w - hf) * (w + creal xi) / (w - hf)); [field; auto|]. rewrite E. field. auto. }
  set (D := (w - hf) * (w + creal xi)) in *.
  set (v := fun a => ((w + hf) * sm2 a j + creal xi * ls2 fsqrt a j) / D). set (x := fun l => csum (fun a => kdelta (nx (po a)) l * v a) six_orbs).
  assert (Xv : forall b, In b six_orbs -> x (nx (po b)) = v b).
  { intros b Hb. unfold x. rewrite (csum_ext _ (fun a => v a * sm2 a b)) by (intros a Ha; rewrite kd_po by auto; ring). apply sm_sum_r. auto. }
  rewrite (column_unique n (hop_elements hOp) z G x (nx (po j)) HG (proj2 (nx_ok _ (po_ok j Hj)))); [|clear Xv|exact (proj2 (nx_ok _ (po_ok j Hj)))].
  - rewrite Xv by auto. unfold v. unfold sm2, same. rewrite !Z.eqb_refl. cbn [andb]. change (creal 1%F) with (@c1 F). field. auto.
  - intros k Hk. destruct (orb_i2c nb W HNA k) as (y & _ & Cy & Ey); [apply in_seq; lia|]. assert (Ek : k = nx y) by (unfold nx; lia). subst k.
    transitivity (csum (fun a => (z * kdelta (nx y) (nx (po a)) - hop_elements hOp (nx y) (nx (po a))) * v a) six_orbs).
    { unfold x. rewrite (csum_ext _ (fun l => csum (fun a => kdelta (nx (po a)) l * ((z * kdelta (nx y) l - hop_elements hOp (nx y) l) * v a)) six_orbs)) by (intros l _; rewrite <- csum_mul_l; apply csum_ext; intros a _; ring).
      rewrite csum_swap. apply csum_ext. intros a Ha. pose proof (proj2 (nx_ok _ (po_ok a Ha))) as La.
      rewrite <- (L_Unitary.csum_delta2 (fun l => (z * kdelta (nx y) l - hop_elements hOp (nx y) l) * v a) n (nx (po a)) La). apply csum_ext. intros l _. unfold kdelta. rewrite (Nat.eqb_sym (nx (po a)) l). reflexivity. }
    assert (Dy : in_shell 1 y \/ ~ in_shell 1 y).
    { destruct y as [l s m|]; [|right; intros (s' & m' & E & _); discriminate]. destruct (Z.eq_dec l 1) as [->|N]; [left; exists s, m; split; [auto|apply Cy]|right; intros (s' & m' & E & _); congruence]. }
    destruct Dy as [Sy|Ny].
    + apply shell_po in Sy as (b & Hb & ->). rewrite (csum_ext _ (fun a => (w * sm2 b a - creal xi * ls2 fsqrt b a) * ((w + hf) * sm2 a j + creal xi * ls2 fsqrt a j) * (c1 / D))).
      * rewrite csum_mul_r. unfold hf. rewrite (block fsqrt SL w xi b j Hb Hj). fold hf. fold D. rewrite kd_po by auto. field. auto.
      * intros a Ha. rewrite hop_is, core_val, kd_po by auto using po_ok. unfold v. rewrite same_spec. unfold w. destruct (eqb_spec (po b) (po a)) as [E|E].
        { assert (b = a) by (unfold po in E; destruct a, b; cbn in E; congruence). subst b. field. auto. }
        { unfold po at 1. cbn [Z.eqb Pos.eqb]. replace (fst b, snd b) with b by (destruct b; auto). field. auto. }
    + assert (NE : forall a, In a six_orbs -> y <> po a) by (intros a Ha ->; apply Ny; apply shell_po; eauto).
      assert (KD : forall a, In a six_orbs -> kdelta (nx y) (nx (po a)) = @c0 F).
      { intros a Ha. unfold kdelta. destruct (Nat.eqb_spec (nx y) (nx (po a))) as [E|]; [|reflexivity]. elim (NE a Ha). apply nx_inj; auto using po_ok. }
      rewrite (KD j Hj). apply csum_zero. intros a Ha. rewrite (KD a Ha), hop_is, core_val by auto using po_ok. destruct (eqb_spec y (po a)) as [E|_]; [elim (NE a Ha); auto|].
      destruct y as [l s m|k' b']; [|ring]. destruct (Z.eqb_spec l 1) as [->|]; [|ring]. elim Ny. exists s, m. split; [auto|apply Cy].
Qed.
End P.
End S.
