(* The dipole operators are vector operators: their commutators with the generators of rotations. *)
From Coq Require Import Permutation Ring Field.
From Verif Require Import M_Prelude M_Scalar M_PSR M_State M_Basis M_Expect M_Operators S_Fock S_Ops S_Ham S_Basis S_Expect S_Green S_Operators S_Symmetry S_TimeReversal S_Dichroism S_Isotropic S_Levels S_Rotation.
From Verif Require Import L_Scalar L_Sum L_Dict L_Fock L_State L_Ops L_Index L_Expect L_Expect2 L_Expect3 L_Expect4 L_Expect5 L_ApplyOp L_Lanczos L_Operators L_Operators2 L_Operators3 L_Operators4 L_Operators5 L_Symmetry L_Symmetry2 L_Symmetry3 L_Symmetry4 L_Symmetry5 L_Symmetry6 L_Symmetry7 L_Dichroism L_Isotropic L_Levels L_Rotation.
Local Open Scope Z_scope.

Section Gen.
Context {F : ofield}.
Add Field Ff : (f_field F).
Add Ring Cring : (@c_ring F).
Add Field Cf : (@c_field F).
Variable nb : nbaths_t.
Hypothesis Hwf : wf_nbaths nb.
Variable O : list spinorb.
Hypothesis HO : NoDup O.
Hypothesis HOk : Forall (coord_ok nb) O.
Notation n := (n_orb nb).
Lemma generator_adjoint (M M' : spinorb -> spinorb -> cx F) : (forall x y, In x O -> In y O -> M' x y = cconj (M y x)) ->
  forall t s, opelem (generator nb O M') t s = cconj (opelem (generator nb O M) s t).
Proof.
  intros H t s. unfold opelem, generator, one_body. rewrite !csum_map, <- csum_conj, !csum_flat_map.
  transitivity (csum (fun x => csum (fun y => M' x y * cofZ (pelem (hop nb x y) t s))%C O) O).
  - apply csum_ext. intros x _. rewrite csum_map. apply csum_ext. intros y _. reflexivity.
  - rewrite csum_swap. apply csum_ext. intros y Hy. rewrite csum_map. apply csum_ext. intros x Hx. cbn [fst snd].
    rewrite H, cconj_mul, cconj_cofZ by auto. do 2 f_equal.
    rewrite <- (pelem_dag (hop nb y x)); [reflexivity|]. unfold hop. apply Forall_cons; [right; reflexivity|]. apply Forall_cons; [left; reflexivity|constructor].
Qed.
Lemma vdot_adjoint (A B : op_t F) : (forall t s, opelem B t s = cconj (opelem A s t)) -> forall u w, vdot n (opv n B u) w = vdot n u (opv n A w).
Proof.
  intros H u w. unfold vdot, opv.
  transitivity (csum (fun t => csum (fun s => cconj (opelem B t s) * cconj (u s) * w t)%C (allcfg n)) (allcfg n)).
  - apply csum_ext. intros t _. rewrite <- csum_conj, <- csum_mul_r. apply csum_ext. intros s _. rewrite cconj_mul. ring.
  - rewrite csum_swap. apply csum_ext. intros s _. rewrite <- csum_mul_l. apply csum_ext. intros t _. rewrite H, cconj_conj. ring.
Qed.
Variable M : spinorb -> spinorb -> cx F.
Notation X := (L_Symmetry.X nb O M).
Notation closed := (closed O M).
Lemma B2_bracket S1 S2 H K : closed S1 -> closed S2 ->
  (forall x y, In x S1 -> In y S2 -> (csum (fun w => M x w * H w y) S1 = csum (fun w => H x w * M w y) S2 + K x y)%C) ->
  forall v s, length s = n -> X (B2 nb S1 S2 H v) s = (B2 nb S1 S2 H (X v) s + B2 nb S1 S2 K v s)%C.
Proof.
  intros C1 C2 HC v s Hs. unfold B2. rewrite X_csum.
  assert (E : forall x, In x S1 -> X (fun s => csum (fun y => H x y * T2 nb x y v s)%C S2) s =
     csum (fun y => H x y * T2 nb x y (X v) s + csum (fun w => M w x * H x y * T2 nb w y v s) S1 - csum (fun w => H x y * M y w * T2 nb x w v s) S2)%C S2).
  { intros x Hx. rewrite X_csum. apply csum_ext. intros y Hy. rewrite X_scale.
    rewrite (X_T2 n nb Hwf eq_refl O HO HOk M) by (eauto using closed_in).
    rewrite (closed_l O HO M S1 x) by auto. rewrite (closed_r O HO M S2 y) by auto.
    transitivity (H x y * T2 nb x y (X v) s + H x y * csum (fun w => M w x * T2 nb w y v s) S1 - H x y * csum (fun w => M y w * T2 nb x w v s) S2)%C; [ring|].
    rewrite <- !csum_mul_l. f_equal; [f_equal|]; apply csum_ext; intros w _; ring. }
  rewrite (csum_ext _ _ S1 E).
  rewrite (csum_ext _ (fun x => csum (fun y => H x y * T2 nb x y (X v) s)%C S2 + csum (fun y => csum (fun w => M w x * H x y * T2 nb w y v s)%C S1) S2
    - csum (fun y => csum (fun w => H x y * M y w * T2 nb x w v s)%C S2) S2)%C S1) by (intros x _; rewrite csum_sub, csum_add; reflexivity).
  rewrite csum_sub, csum_add.
  assert (E1 : csum (fun x => csum (fun y => csum (fun w => M w x * H x y * T2 nb w y v s)%C S1) S2) S1 =
    csum (fun x => csum (fun y => csum (fun w => M x w * H w y)%C S1 * T2 nb x y v s)%C S2) S1).
  { rewrite (mv2 (fun x y w => M w x * H x y * T2 nb w y v s)%C). apply csum_ext. intros w _.
    rewrite csum_swap. apply csum_ext. intros y _. rewrite <- csum_mul_r. reflexivity. }
  assert (E2 : csum (fun x => csum (fun y => csum (fun w => H x y * M y w * T2 nb x w v s)%C S2) S2) S1 =
    csum (fun x => csum (fun y => csum (fun w => H x w * M w y)%C S2 * T2 nb x y v s)%C S2) S1).
  { apply csum_ext. intros x _. rewrite csum_swap. apply csum_ext. intros w _. rewrite <- csum_mul_r. reflexivity. }
  rewrite E1, E2.
  rewrite (csum_ext (fun x => csum (fun y => csum (fun w => M x w * H w y)%C S1 * T2 nb x y v s)%C S2)
     (fun x => csum (fun y => csum (fun w => H x w * M w y)%C S2 * T2 nb x y v s)%C S2 + csum (fun y => K x y * T2 nb x y v s)%C S2)%C S1).
  - rewrite csum_add. ring.
  - intros x Hx. rewrite <- csum_add. apply csum_ext. intros y Hy. rewrite HC by auto. ring.
Qed.
End Gen.

Section Dip.
Context {F : ofield}.
Add Field Ff2 : (f_field F).
Add Ring Cring2 : (@c_ring F).
Add Field Cf2 : (@c_field F).
Variable fsqrt : F -> F.
Variable ck : Z -> Z -> Z -> Z -> Z -> F.
Hypothesis Hsq : sqrt_laws fsqrt.
Hypothesis HT : tensor_law fsqrt ck 1 2 1.
(* [J_c, C_q] = kap c q C_(sh c q) *)
Definition sh (c : component) (q : Z) : Z := match c with Cz => q | Cplus => q + 1 | Cminus => q - 1 end.
Definition kap (c : component) (q : Z) : cx F := match c with Cz => cofZ q | Cplus => creal (up_coef fsqrt 1 q) | Cminus => creal (down_coef fsqrt 1 q) end.
Definition hm (q m m' : Z) : cx F := if m - m' =? q then creal (ck 1 2 m 1 m') else c0.
Lemma hm_c1q q s m s' m' : c1q ck q (SImp 2 s m) (SImp 1 s' m') = if s =? s' then hm q m m' else c0.
Proof. unfold c1q, hm, when. destruct (s =? s'), (m - m' =? q); reflexivity. Qed.
Lemma law_m c q m m' : -2 <= m <= 2 -> -1 <= m' <= 1 ->
  (csum (fun w => ang fsqrt 2 c m w * hm q w m') (mr 2) = csum (fun w => hm q m w * ang fsqrt 1 c w m') (mr 1) + kap c q * hm (sh c q) m m')%C.
Proof.
  intros Hm Hm'. rewrite (ang_row fsqrt Hsq 2 c m (fun w => hm q w m')), (ang_col fsqrt Hsq 1 c m' (fun w => hm q m w)) by auto. destruct (HT m m' Hm Hm') as [Lp Lm]. destruct c; cbn [row col sh kap]; unfold hm.
  - destruct (Z.eqb_spec (m - m') q) as [E|]; [|ring]. replace m with (q + m') at 1 by lia. rewrite cofZ_add. ring.
  - replace (m - 1 - m' =? q) with (m - m' =? q + 1) by (apply eq_true_iff_eq; rewrite !Z.eqb_eq; lia).
    replace (m - (m' + 1) =? q) with (m - m' =? q + 1) by (apply eq_true_iff_eq; rewrite !Z.eqb_eq; lia).
    destruct (Z.eqb_spec (m - m') (q + 1)) as [E|]; [|ring]. replace (m - m' - 1) with q in Lp by lia.
    rewrite <- !creal_mul, <- creal_add. f_equal. rewrite <- Lp. ring.
  - replace (m + 1 - m' =? q) with (m - m' =? q - 1) by (apply eq_true_iff_eq; rewrite !Z.eqb_eq; lia).
    replace (m - (m' - 1) =? q) with (m - m' =? q - 1) by (apply eq_true_iff_eq; rewrite !Z.eqb_eq; lia).
    destruct (Z.eqb_spec (m - m') (q - 1)) as [E|]; [|ring]. replace (m - m' + 1) with q in Lm by lia.
    rewrite !down_up in Lm. replace (m + 1 - 1) with m in Lm by lia.
    rewrite <- !creal_mul, <- creal_add. f_equal. rewrite down_up, <- Lm. ring.
Qed.
Variable nb : nbaths_t.
Hypothesis Hwf : wf_nbaths nb.
Variable O : list spinorb.
Hypothesis HO : NoDup O.
Hypothesis HOk : Forall (coord_ok nb) O.
Notation n := (n_orb nb).
Lemma dip_bracket (M : spinorb -> spinorb -> cx F) c a q : acts_in O M 1 (both (ang fsqrt 1 c) a) -> acts_in O M 2 (both (ang fsqrt 2 c) a) ->
  forall v t, length t = n -> opv n (generator nb O M) (moved nb 1 2 (c1q ck q) v) t =
    (moved nb 1 2 (c1q ck q) (opv n (generator nb O M) v) t + kap c q * moved nb 1 2 (c1q ck (sh c q)) v t)%C.
Proof.
  intros A1 A2 v t Ht.
  assert (Mv : forall (r : spinorb -> spinorb -> cx F) (v : config -> cx F) t, moved nb 1 2 r v t = B2 nb (shell 2) (shell 1) r v t).
  { intros r v' t'. unfold moved, B2. rewrite csum_list_prod. reflexivity. }
  rewrite (generator_vec n nb O M) by auto. rewrite (X_ext nb O M _ (B2 nb (shell 2) (shell 1) (c1q ck q) v)) by (auto; intros s _; apply Mv).
  rewrite (B2_bracket nb Hwf O HO HOk M (shell 2) (shell 1) (c1q ck q) (fun x y => kap c q * c1q ck (sh c q) x y)%C); auto.
  - f_equal.
    + rewrite Mv. unfold B2. apply csum_ext. intros x _. apply csum_ext. intros y _. f_equal. unfold T2. apply (C_ext n); auto. apply A_ext.
      intros s Hs. symmetry. apply (generator_vec n nb O M). auto.
    + rewrite Mv. unfold B2. rewrite <- csum_mul_l. apply csum_ext. intros x _. rewrite <- csum_mul_l. apply csum_ext. intros y _. ring.
  - exact (acts_closed nb O HOk M 2 _ A2).
  - exact (acts_closed nb O HOk M 1 _ A1).
  - intros x y Hx Hy. unfold shell in Hx, Hy. apply in_map_iff in Hx as ([s m] & <- & Hx). apply in_map_iff in Hy as ([s' m'] & <- & Hy).
    unfold shell. rewrite !csum_map.
    rewrite (csum_ext _ (fun w => (on_m (ang fsqrt 2 c) (s, m) w + on_spin a (s, m) w) * (fun w => if fst w =? s' then hm q (snd w) m' else c0) w)%C).
    2:{ intros [s0 m0] H0. rewrite (acts_val O M 2 _ (s, m) (s0, m0) A2) by auto. unfold orb. rewrite hm_c1q. reflexivity. }
    rewrite (csum_ext (fun w => c1q ck q (orb 2 (s, m)) (orb 1 w) * _)%C (fun w => (fun w => if s =? fst w then hm q m (snd w) else c0) w * (on_m (ang fsqrt 1 c) w (s', m') + on_spin a w (s', m')))%C).
    2:{ intros [s0 m0] H0. rewrite (acts_val O M 1 _ (s0, m0) (s', m') A1) by auto. unfold orb. rewrite hm_c1q. reflexivity. }
    apply sites_In in Hx, Hy. destruct Hx as [Hs Hm], Hy as [Hs' Hm']. rewrite sum_row, sum_col by auto. unfold orb. rewrite hm_c1q. cbn [fst snd].
    destruct (Z.eqb_spec s s') as [<-|N].
    + rewrite law_m by auto. destruct Hs as [-> | ->]; cbn [Z.eqb Pos.eqb]; ring.
    + rewrite !csum_zero by (intros; ring). destruct Hs as [-> | ->], Hs' as [-> | ->]; try congruence; cbn [Z.eqb Pos.eqb]; ring.
Qed.
End Dip.
