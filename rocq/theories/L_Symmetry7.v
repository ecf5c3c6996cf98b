(* Rotations: the statements about the parts of the Hamiltonian and the whole. *)
From Coq Require Import Ring Field.
From Verif Require Import M_Prelude M_Scalar M_PSR M_State M_Basis M_Expect M_Operators S_Fock S_Ops S_Basis S_Expect S_Green S_Operators S_Symmetry.
From Verif Require Import L_Scalar L_Sum L_Dict L_Fock L_State L_Ops L_Index L_Expect L_Expect2 L_Expect3 L_Expect4 L_Expect5 L_ApplyOp L_Lanczos L_Operators L_Operators2 L_Operators3 L_Operators4 L_Operators5 L_Symmetry L_Symmetry2 L_Symmetry3 L_Symmetry4 L_Symmetry5 L_Symmetry6.
Local Open Scope Z_scope.

Section A.
Context {F : ofield}.
Add Field Ff : (f_field F).
Add Ring Cring : (@c_ring F).
Add Field Cf : (@c_field F).
Variable fsqrt : F -> F.
Variable pi : F.
Variable gaunt : Z -> Z -> Z -> Z -> Z -> Z -> F.
Variable nb : nbaths_t.
Hypothesis Hwf : wf_nbaths nb.
Variable O : list spinorb.
Hypothesis HO : NoDup O.
Hypothesis HOk : Forall (coord_ok nb) O.
Variable M : spinorb -> spinorb -> cx F.
Lemma spin_both l a : acts_in O M l (on_spin a) -> acts_in O M l (both zero2 a).
Proof. apply acts_ext. intros x y. unfold both, on_m, zero2. destruct (fst x =? fst y); ring. Qed.
Lemma m_both l b : acts_in O M l (on_m b) -> acts_in O M l (both b zero2).
Proof. apply acts_ext. intros x y. unfold both, on_spin, zero2. destruct (snd x =? snd y); ring. Qed.
Lemma zero_commutes a : spin_commute (@zero2 F) a.
Proof. intros s s' _ _. unfold spin_mul, zero2. ring. Qed.

Lemma coulomb_spin a l1 l2 l3 l4 R : (forall l, In l [l1; l2; l3; l4] -> acts_in O M l (on_spin a)) ->
  commute (n_orb nb) (indexed nb (getUop fsqrt pi gaunt l1 l2 l3 l4 R)) (generator nb O M).
Proof.
  intros H. apply comm_commute; auto using good_U.
  apply (comm_U nb Hwf O HO HOk M fsqrt pi gaunt (fun _ => zero2) a); try (apply spin_both, H; cbn; tauto). apply slater_0.
Qed.
Lemma coulomb_L c l1 l2 l3 l4 R : sqrt_laws fsqrt -> tensor_laws fsqrt (gauntC fsqrt pi gaunt) R l1 l4 -> tensor_laws fsqrt (gauntC fsqrt pi gaunt) R l3 l2 ->
  (forall l, In l [l1; l2; l3; l4] -> acts_in O M l (on_m (ang fsqrt l c))) ->
  commute (n_orb nb) (indexed nb (getUop fsqrt pi gaunt l1 l2 l3 l4 R)) (generator nb O M).
Proof.
  intros Hsq T1 T2 H. apply comm_commute; auto using good_U.
  apply (comm_U nb Hwf O HO HOk M fsqrt pi gaunt (fun l => ang fsqrt l c) zero2); try (apply m_both, H; cbn; tauto). apply slater_L; auto.
Qed.
Lemma SOC_J c xi l : sqrt_laws fsqrt -> acts_in O M l (total_ang fsqrt l c) -> commute (n_orb nb) (indexed nb (getSOCop fsqrt xi l)) (generator nb O M).
Proof. intros Hsq H. apply comm_commute; auto; [exact (good_one _ _ _ (soc_matrix _ _ _))|]. apply (comm_SOC nb Hwf O HO HOk M fsqrt xi l c); auto. Qed.
Lemma field_spins (hx hy hz : F) a l : acts_in O M l (on_spin a) -> spin_commute a (field_spin hx hy hz) ->
  commute (n_orb nb) (indexed nb (gethHfieldop hx hy hz l)) (generator nb O M).
Proof.
  intros H Hc. apply comm_commute; auto; [exact (good_one _ _ _ (fld_matrix _ _ _ _))|]. apply (comm_field nb Hwf O HO HOk M hx hy hz l zero2 a); auto. apply spin_both; auto.
Qed.
Lemma eigen_commute n (A B : op_t F) e v : commute n A B -> (forall t, length t = n -> opv n A v t = (e * v t)%C) ->
  forall t, length t = n -> opv n A (opv n B v) t = (e * opv n B v t)%C.
Proof.
  intros Hc He t Ht. rewrite Hc by auto. rewrite (opv_ext n B _ (fun s => e * v s)%C) by auto.
  unfold opv. rewrite <- csum_mul_l. apply csum_ext. intros s _. ring.
Qed.
(* one-body operators commute if their matrices do *)
Lemma one_body_commute H : (forall x y, In x O -> In y O -> csum (fun w => M x w * H w y)%C O = csum (fun w => H x w * M w y)%C O) ->
  commute (n_orb nb) (generator nb O H) (generator nb O M).
Proof.
  intros HC v t Ht.
  assert (Hc : closed O M O) by (split; auto; split; [apply incl_refl|]; intros x w _ Hw N; contradiction).
  rewrite (opv_ext _ (generator nb O H) _ (L_Symmetry.X nb O M v)) by (intros; apply generator_vec; auto).
  rewrite (opv_ext _ (generator nb O M) _ (L_Symmetry.X nb O H v)) by (intros; apply generator_vec; auto).
  rewrite !generator_vec by auto. symmetry. exact (B2_comm (n_orb nb) nb Hwf eq_refl O HO HOk M O O H Hc Hc HC v t Ht).
Qed.

Variable fint : F -> Z.
Hypothesis fint_law : forall z, fint (fofZ z) = z.
Variable hp : @ham_params F.
Variable n3d : Z.
Hypothesis Hn3d : dget (hp_n0imps hp) 2 = Some n3d.
Hypothesis Hn2p : dget (hp_n0imps hp) 1 = Some 6.
Hypothesis HFdd : (5 <= length (hp_Fdd hp))%nat.
Hypothesis HFpd : (1 <= length (hp_Fpd hp))%nat.
Hypothesis HGpd : (4 <= length (hp_Gpd hp))%nat.
Hypothesis Hp1 : In 1 (angs nb).
Hypothesis Hd2 : In 2 (angs nb).
Lemma total_gen (b : Z -> Z -> Z -> cx F) a (h : sop_t F) hOp' : acts_in O M 1 (both (b 1) a) -> acts_in O M 2 (both (b 2) a) ->
  (forall l1 l2 l3 l4 R, In (l1, l2, l3, l4, R) [(2, 2, 2, 2, hp_Fdd hp); (1, 1, 1, 1, hp_Fpp hp); (1, 2, 2, 1, hp_Fpd hp); (2, 1, 1, 2, hp_Fpd hp);
     (1, 2, 1, 2, hp_Gpd hp); (2, 1, 2, 1, hp_Gpd hp)] ->
     orbital_inv (Us (gauntC fsqrt pi gaunt) R l1 l2 l3 l4) l1 l2 l3 l4 (b l1) (b l2) (b l3) (b l4)) ->
  spin_commute a (field_spin (hp_hx hp) (hp_hy hp) (hp_hz hp)) ->
  comm nb O M (getSOCop fsqrt (hp_xi_2p hp) 1) -> comm nb O M (getSOCop fsqrt (hp_xi_3d hp) 2) ->
  NoDup (dkeys h) -> good_labels h -> op_in nb h -> commute (n_orb nb) (indexed nb h) (generator nb O M) ->
  get_hamiltonian_operator fsqrt pi gaunt fint nb hp h = Ok hOp' -> commute (n_orb nb) hOp' (generator nb O M).
Proof.
  intros H1 H2 HI Hc S1 S2 Hn Hg Hi Hh. apply (comm_total nb Hwf O M fsqrt pi gaunt fint fint_law hp n3d); auto. unfold h_parts.
  constructor; [|constructor; [|constructor; [|constructor; [|constructor; [|constructor]]]]].
  - apply (comm_pd nb Hwf O HO HOk M fsqrt pi gaunt b a); auto.
  - apply (comm_field nb Hwf O HO HOk M _ _ _ 2 (b 2) a); auto.
  - exact S1.
  - exact S2.
  - apply comm_eDC; eauto using acts_closed.
Qed.
Lemma total_spin a (h : sop_t F) hOp' : (forall l, In l [1; 2] -> acts_in O M l (on_spin a)) -> spin_commute a (field_spin (hp_hx hp) (hp_hy hp) (hp_hz hp)) ->
  hp_xi_2p hp = 0%F -> hp_xi_3d hp = 0%F ->
  NoDup (dkeys h) -> good_labels h -> op_in nb h -> commute (n_orb nb) (indexed nb h) (generator nb O M) ->
  get_hamiltonian_operator fsqrt pi gaunt fint nb hp h = Ok hOp' -> commute (n_orb nb) hOp' (generator nb O M).
Proof.
  intros H Hc X1 X2. assert (A1 : acts_in O M 1 (on_spin a)) by (apply H; cbn; auto). assert (A2 : acts_in O M 2 (on_spin a)) by (apply H; cbn; auto).
  apply (total_gen (fun _ => zero2) a); auto using spin_both.
  - intros. apply slater_0.
  - rewrite X1. eapply comm_SOC0; eauto.
  - rewrite X2. eapply comm_SOC0; eauto.
Qed.
Lemma slater_all c : sqrt_laws fsqrt -> tensor_laws fsqrt (gauntC fsqrt pi gaunt) (hp_Fdd hp) 2 2 -> tensor_laws fsqrt (gauntC fsqrt pi gaunt) (hp_Fpp hp) 1 1 ->
  tensor_laws fsqrt (gauntC fsqrt pi gaunt) (hp_Fpd hp) 1 1 -> tensor_laws fsqrt (gauntC fsqrt pi gaunt) (hp_Fpd hp) 2 2 ->
  tensor_laws fsqrt (gauntC fsqrt pi gaunt) (hp_Gpd hp) 1 2 -> tensor_laws fsqrt (gauntC fsqrt pi gaunt) (hp_Gpd hp) 2 1 ->
  forall l1 l2 l3 l4 R, In (l1, l2, l3, l4, R) [(2, 2, 2, 2, hp_Fdd hp); (1, 1, 1, 1, hp_Fpp hp); (1, 2, 2, 1, hp_Fpd hp); (2, 1, 1, 2, hp_Fpd hp);
     (1, 2, 1, 2, hp_Gpd hp); (2, 1, 2, 1, hp_Gpd hp)] ->
  orbital_inv (Us (gauntC fsqrt pi gaunt) R l1 l2 l3 l4) l1 l2 l3 l4 (ang fsqrt l1 c) (ang fsqrt l2 c) (ang fsqrt l3 c) (ang fsqrt l4 c).
Proof.
  intros Hsq T1 T2 T3 T4 T5 T6 l1 l2 l3 l4 R H. cbn [In] in H.
  repeat (destruct H as [H|H]; [injection H as <- <- <- <- <-; apply slater_L; auto|]). contradiction.
Qed.
Lemma total_L c (h : sop_t F) hOp' : sqrt_laws fsqrt -> tensor_laws fsqrt (gauntC fsqrt pi gaunt) (hp_Fdd hp) 2 2 -> tensor_laws fsqrt (gauntC fsqrt pi gaunt) (hp_Fpp hp) 1 1 ->
  tensor_laws fsqrt (gauntC fsqrt pi gaunt) (hp_Fpd hp) 1 1 -> tensor_laws fsqrt (gauntC fsqrt pi gaunt) (hp_Fpd hp) 2 2 ->
  tensor_laws fsqrt (gauntC fsqrt pi gaunt) (hp_Gpd hp) 1 2 -> tensor_laws fsqrt (gauntC fsqrt pi gaunt) (hp_Gpd hp) 2 1 ->
  (forall l, In l [1; 2] -> acts_in O M l (on_m (ang fsqrt l c))) -> hp_xi_2p hp = 0%F -> hp_xi_3d hp = 0%F ->
  NoDup (dkeys h) -> good_labels h -> op_in nb h -> commute (n_orb nb) (indexed nb h) (generator nb O M) ->
  get_hamiltonian_operator fsqrt pi gaunt fint nb hp h = Ok hOp' -> commute (n_orb nb) hOp' (generator nb O M).
Proof.
  intros Hsq T1 T2 T3 T4 T5 T6 H X1 X2.
  assert (A1 : acts_in O M 1 (on_m (ang fsqrt 1 c))) by (apply H; cbn; auto). assert (A2 : acts_in O M 2 (on_m (ang fsqrt 2 c))) by (apply H; cbn; auto).
  apply (total_gen (fun l => ang fsqrt l c) zero2); auto using m_both, zero_commutes.
  - intros. apply slater_all; auto.
  - rewrite X1. eapply comm_SOC0; eauto.
  - rewrite X2. eapply comm_SOC0; eauto.
Qed.
Lemma field_zero a : spin_commute a (@field_spin F 0 0 0).
Proof. intros s s' _ _. unfold spin_mul, field_spin. change (creal 0%F) with (c0 : cx F). ring. Qed.
Lemma total_J c (h : sop_t F) hOp' : sqrt_laws fsqrt -> tensor_laws fsqrt (gauntC fsqrt pi gaunt) (hp_Fdd hp) 2 2 -> tensor_laws fsqrt (gauntC fsqrt pi gaunt) (hp_Fpp hp) 1 1 ->
  tensor_laws fsqrt (gauntC fsqrt pi gaunt) (hp_Fpd hp) 1 1 -> tensor_laws fsqrt (gauntC fsqrt pi gaunt) (hp_Fpd hp) 2 2 ->
  tensor_laws fsqrt (gauntC fsqrt pi gaunt) (hp_Gpd hp) 1 2 -> tensor_laws fsqrt (gauntC fsqrt pi gaunt) (hp_Gpd hp) 2 1 ->
  (forall l, In l [1; 2] -> acts_in O M l (total_ang fsqrt l c)) -> hp_hx hp = 0%F -> hp_hy hp = 0%F -> hp_hz hp = 0%F ->
  NoDup (dkeys h) -> good_labels h -> op_in nb h -> commute (n_orb nb) (indexed nb h) (generator nb O M) ->
  get_hamiltonian_operator fsqrt pi gaunt fint nb hp h = Ok hOp' -> commute (n_orb nb) hOp' (generator nb O M).
Proof.
  intros Hsq T1 T2 T3 T4 T5 T6 H X1 X2 X3.
  assert (A1 : acts_in O M 1 (total_ang fsqrt 1 c)) by (apply H; cbn; auto). assert (A2 : acts_in O M 2 (total_ang fsqrt 2 c)) by (apply H; cbn; auto).
  apply (total_gen (fun l => ang fsqrt l c) (half_spin c)); auto.
  - intros. apply slater_all; auto.
  - rewrite X1, X2, X3. apply field_zero.
  - apply (comm_SOC nb Hwf O HO HOk M fsqrt _ 1 c); auto.
  - apply (comm_SOC nb Hwf O HO HOk M fsqrt _ 2 c); auto.
Qed.
End A.
