(* Spectra of time-reversed states. *)
From Coq Require Import Permutation Ring Field.
From Verif Require Import M_Prelude M_Scalar M_PSR M_State M_Basis M_Expect M_Operators S_Fock S_Ops S_Basis S_Expect S_Operators S_NIXS S_Symmetry S_TimeReversal S_Dichroism.
From Verif Require Import L_Scalar L_Sum L_Dict L_Fock L_State L_Ops L_Index L_Expect L_Expect4 L_Cubic L_Operators L_Operators2 L_Operators3 L_Operators4 L_Operators5 L_Operators6 L_Operators7 L_Operators8 L_NIXS L_Operators9 L_Operators10.
From Verif Require L_Ham.
From Verif Require Import L_Symmetry L_Symmetry3 L_Symmetry6 L_TimeReversal L_TimeReversal2 L_TimeReversal3.
Local Open Scope Z_scope.

Section D.
Context {F : ofield}.
Add Field Ff : (f_field F).
Add Ring Cring : (@c_ring F).
Implicit Types u v w : config -> cx F.
Lemma vdot_herm n (A : op_t F) u w : NoDup (dkeys A) -> assert_hermitian A = Ok tt -> vdot n (opv n A u) w = vdot n u (opv n A w).
Proof.
  intros HN HA. unfold vdot, opv.
  transitivity (csum (fun t => csum (fun s => cconj (opelem A t s) * cconj (u s) * w t)%C (allcfg n)) (allcfg n)).
  - apply csum_ext. intros t _. rewrite <- csum_conj, <- csum_mul_r. apply csum_ext. intros s _. rewrite cconj_mul. ring.
  - rewrite csum_swap. apply csum_ext. intros s _. rewrite <- csum_mul_l. apply csum_ext. intros t _. rewrite (herm_opelem A s t HN HA). ring.
Qed.
Lemma vdot_swap n u w : vdot n u w = cconj (vdot n w u).
Proof. unfold vdot. rewrite <- csum_conj. apply csum_ext. intros t _. rewrite cconj_mul, cconj_conj. ring. Qed.
Lemma vdot_ext n u u' w w' : (forall t, length t = n -> u t = u' t) -> (forall t, length t = n -> w t = w' t) -> vdot n u w = vdot n u' w'.
Proof. intros H1 H2. unfold vdot. apply csum_ext. intros t Ht. apply allcfg_In in Ht. rewrite H1, H2; auto. Qed.
Lemma vdot_lin n z u a w : vdot n (fun t => z * u t - a t)%C w = (cconj z * vdot n u w - vdot n a w)%C.
Proof.
  unfold vdot. rewrite <- csum_mul_l. transitivity (csum (fun x => cconj z * (cconj (u x) * w x) + (- c1) * (cconj (a x) * w x))%C (allcfg n)).
  - apply csum_ext. intros t _. rewrite cconj_sub, cconj_mul. ring.
  - rewrite csum_add, !csum_mul_l. ring.
Qed.
Lemma vdot_lin_r n z w a u : vdot n u (fun t => z * w t - a t)%C = (z * vdot n u w - vdot n u a)%C.
Proof. rewrite vdot_swap, vdot_lin, cconj_sub, cconj_mul, cconj_conj, <- !vdot_swap. reflexivity. Qed.

Variable bp bs : bkey -> Z -> Z.
Variable nb : nbaths_t.
Hypothesis Hwf : wf_nbaths nb.
Hypothesis Hang : NoDup (angs nb).
Hypothesis Hpair : pairs bp bs nb.
Notation n := (n_orb nb).
Notation T := (timerev bp bs nb).
Notation rv := (reverse bp).
Notation sg := (reverse_sign bs).

Lemma T_sub z u a t : T (fun s => z * u s - a s)%C t = (cconj z * T u t - T a t)%C.
Proof.
  rewrite (T_ext' bp bs nb _ (fun s => z * u s + (- c1) * a s)%C) by (intros s _; ring). rewrite T_antilinear, T_scale.
  replace (cconj (- c1))%C with (- c1 : cx F)%C; [ring|]. unfold cconj, copp, c1, creal; cbn. f_equal. ring.
Qed.
(* the response of the reversed state to the reversed transition *)
Lemma response_rev (A A' : op_t F) z S S' v g g' : NoDup (dkeys A') -> assert_hermitian A' = Ok tt -> reverses bp bs nb A A' ->
  (forall t, length t = n -> T (S v) t = S' (T v) t) -> response n A z S v g -> response n A' z S' (T v) g' -> g' = g.
Proof.
  intros HN HA HR HS (x & Hx & Hg & _) (y & Hy & Hg' & _). subst g g'.
  (* (z* - A') T x = S' T v *)
  assert (K : forall t, length t = n -> (cconj z * T x t - opv n A' (T x) t)%C = S' (T v) t).
  { intros t Ht. rewrite <- HR, <- T_sub, <- HS by auto. apply T_ext'. exact Hx. }
  rewrite (vdot_ext n (S' (T v)) (fun t => cconj z * T x t - opv n A' (T x) t)%C y y) by (auto; intros; symmetry; auto).
  rewrite vdot_lin, cconj_conj, vdot_herm by auto. rewrite <- vdot_lin_r.
  rewrite (vdot_ext n (T x) (T x) _ (T (S v))); [|reflexivity|intros t Ht; rewrite HS by auto; apply Hy; auto].
  unfold vdot at 1. rewrite (T_antiunitary bp bs nb Hwf Hang Hpair). fold (vdot n x (S v)). symmetry. apply vdot_swap.
Qed.

(* ---- one-particle operators between two shells ---- *)
Lemma one_body_sum (op : op_t F) l l' h v t : In l (angs nb) -> In l' (angs nb) -> is_one_body nb op l l' h -> length t = n ->
  opv n op v t = csum (fun xy => h (fst xy) (snd xy) * pvec (pidx nb (hop2 (fst xy) (snd xy))) v t)%C (list_prod (shell l) (shell l')).
Proof.
  intros Hl Hl' (HN & HK & HV) Ht.
  assert (HG : good_labels op).
  { unfold good_labels. apply Forall_forall. intros [p a] Hi. apply (in_map fst) in Hi. destruct (HK _ Hi) as (x & y & E & _). cbn [fst] in *. subst p.
    apply Forall_cons; [right; reflexivity|]. apply Forall_cons; [left; reflexivity|]. apply Forall_nil. }
  assert (Hok : forall k x, In k (angs nb) -> In x (shell k) -> coord_ok nb x) by (intros k x Hk Hx; apply shell_In in Hx; eapply shell_ok; eauto).
  rewrite (opv_pvec n) by auto.
  etransitivity; [apply (dict_sum_over (fun p => pvec p v t) op (map (fun xy => pidx nb (hop2 (fst xy) (snd xy))) (list_prod (shell l) (shell l')))); auto|].
  3: rewrite csum_map; apply csum_ext; intros [x y] Hi; apply in_prod_iff in Hi as [Hx Hy]; cbn [fst snd]; apply shell_In in Hx, Hy; rewrite HV by auto; reflexivity.
  - apply NoDup_map_on; [|apply NoDup_list_prod; apply shell_NoDup]. intros [x y] [x' y'] H H' E. apply in_prod_iff in H as [Hx Hy]. apply in_prod_iff in H' as [Hx' Hy'].
    cbn [fst snd] in E. apply (pidx_inj nb) in E; auto.
    + apply L_Symmetry3.hop2_inj in E as [-> ->]. reflexivity.
    + apply Forall_cons; [apply (Hok l); auto|apply Forall_cons; [apply (Hok l'); auto|apply Forall_nil]].
    + apply Forall_cons; [apply (Hok l); auto|apply Forall_cons; [apply (Hok l'); auto|apply Forall_nil]].
  - intros p Hp. destruct (HK p Hp) as (x & y & -> & Hx & Hy). apply in_map_iff. exists (x, y). split; auto. apply in_prod; apply shell_In; auto.
Qed.
Lemma rv_shell_perm l l' : In l (angs nb) -> In l' (angs nb) ->
  Permutation (map (fun xy => (rv (fst xy), rv (snd xy))) (list_prod (shell l) (shell l'))) (list_prod (shell l) (shell l')).
Proof.
  intros Hl Hl'. assert (Hok : forall k x, In k (angs nb) -> In x (shell k) -> coord_ok nb x) by (intros k x Hk Hx; apply shell_In in Hx; eapply shell_ok; eauto).
  assert (Hrv : forall k x, In k (angs nb) -> In x (shell k) -> In (rv x) (shell k)) by (intros k x Hk Hx; apply shell_In; apply rv_shell; apply shell_In; auto).
  assert (Hrr : forall k x, In k (angs nb) -> In x (shell k) -> rv (rv x) = x) by (intros k x Hk Hx; apply (rv_rv bp bs nb); eauto).
  apply NoDup_Permutation.
  - apply NoDup_map_on; [|apply NoDup_list_prod; apply shell_NoDup]. intros [x y] [x' y'] H H' E. apply in_prod_iff in H as [Hx Hy]. apply in_prod_iff in H' as [Hx' Hy'].
    cbn [fst snd] in E. injection E as E1 E2. f_equal; [rewrite <- (Hrr l x), <- (Hrr l x') by auto|rewrite <- (Hrr l' y), <- (Hrr l' y') by auto]; congruence.
  - apply NoDup_list_prod; apply shell_NoDup.
  - intros [x y]. split.
    + intros Hi. apply in_map_iff in Hi as ([a b] & E & Hi). apply in_prod_iff in Hi as [Ha Hb]. injection E as <- <-. apply in_prod; cbn [fst snd]; auto.
    + intros Hi. apply in_prod_iff in Hi as [Hx Hy]. apply in_map_iff. exists (rv x, rv y). cbn [fst snd]. rewrite (Hrr l), (Hrr l') by auto. split; [reflexivity|]. apply in_prod; auto.
Qed.
Lemma one_body_rev (op : op_t F) l l' h c v t : In l (angs nb) -> In l' (angs nb) -> is_one_body nb op l l' h ->
  (forall x y, in_shell l x -> in_shell l' y -> (cofZ (sg x * sg y) * cconj (h x y))%C = (c * h (rv x) (rv y))%C) -> length t = n ->
  T (opv n op v) t = (c * opv n op (T v) t)%C.
Proof.
  intros Hl Hl' HB Hh Ht. rewrite (one_body_sum op l l' h) by auto.
  rewrite (T_ext' bp bs nb _ (fun s => csum (fun xy => h (fst xy) (snd xy) * pvec (pidx nb (hop2 (fst xy) (snd xy))) v s)%C (list_prod (shell l) (shell l'))))
    by (intros s Hs; apply one_body_sum; auto).
  rewrite (timerev_T bp bs nb Hwf Hang Hpair) by auto.
  rewrite (Tv_csum n (tau bp nb) (sig bs nb) (fun xy s => h (fst xy) (snd xy) * pvec (pidx nb (hop2 (fst xy) (snd xy))) v s)%C).
  rewrite <- csum_mul_l. rewrite <- (csum_perm (fun xy => c * (h (fst xy) (snd xy) * pvec (pidx nb (hop2 (fst xy) (snd xy))) (T v) t))%C _ _ (rv_shell_perm l l' Hl Hl')), csum_map. apply csum_ext. intros [x y] Hi. apply in_prod_iff in Hi as [Hx Hy]. cbn [fst snd].
  apply shell_In in Hx, Hy. assert (Ox : coord_ok nb x) by (apply (shell_ok nb l); auto). assert (Oy : coord_ok nb y) by (apply (shell_ok nb l'); auto).
  rewrite Tv_scale, (T_pvec bp bs nb Hwf Hang Hpair) by (auto; repeat constructor; auto). rewrite prv_hop2, psg_hop2.
  assert (E : pvec (pidx nb (hop2 (rv x) (rv y))) (Tv n (tau bp nb) (sig bs nb) v) t = pvec (pidx nb (hop2 (rv x) (rv y))) (T v) t).
  { rewrite <- !(pvec_sum n) by (auto; repeat (apply Forall_cons || apply Forall_nil); cbn; auto; (left; reflexivity) || (right; reflexivity)).
    apply csum_ext. intros s Hs. apply allcfg_In in Hs. rewrite (timerev_T bp bs nb Hwf Hang Hpair) by auto. reflexivity. }
  rewrite E. transitivity (cofZ (sg x * sg y) * cconj (h x y) * pvec (pidx nb (hop2 (rv x) (rv y))) (T v) t)%C; [ring|]. rewrite Hh by auto. ring.
Qed.
End D.

Section E.
Context {F : ofield}.
Add Field Ff2 : (f_field F).
Add Ring Cring2 : (@c_ring F).
Implicit Types u v w : config -> cx F.
Lemma cconj_divreal (x : cx F) r : cconj (x / creal r)%C = (cconj x / creal r)%C.
Proof.
  change (cconj (x * cinv (creal r)))%C with (cconj (x * cinv (creal r)))%C. change (cconj (cmul x (cinv (creal r))) = cmul (cconj x) (cinv (creal r))).
  rewrite cconj_mul. f_equal. unfold cconj, cinv, creal. cbn [re im]. f_equal. rewrite !(Field_theory.Fdiv_def (f_field F)). ring.
Qed.
Lemma parity_minus m m' : parity m * parity m' = parity (m - m').
Proof. rewrite <- (parity_opp m'), <- parity_add. f_equal. Qed.

Variable bp bs : bkey -> Z -> Z.
Variable nb : nbaths_t.
Hypothesis Hwf : wf_nbaths nb.
Hypothesis Hang : NoDup (angs nb).
Hypothesis Hpair : pairs bp bs nb.
Notation n := (n_orb nb).
Notation T := (timerev bp bs nb).
Notation rv := (reverse bp).
Notation sg := (reverse_sign bs).
(* one electron *)
Lemma rev_one lab x v t : (lab = lab_a \/ lab = lab_c) -> coord_ok nb x -> length t = n ->
  T (transition n (one_electron nb lab x) v) t = (cofZ (sg x) * transition n (one_electron nb lab (rv x)) (T v) t)%C.
Proof.
  intros Hlab Hx Ht. unfold transition.
  assert (G : forall y : spinorb, good_labels (one_electron (F := F) nb lab y)) by (intros y; apply Forall_cons; [apply Forall_cons; [exact Hlab|apply Forall_nil]|apply Forall_nil]).
  assert (E : forall y u s, length s = n -> opv n (one_electron nb lab y) u s = pvec (pidx nb [(y, lab)]) u s).
  { intros y u s Hs. rewrite (opv_pvec n) by auto. unfold one_electron. cbn [csum fst snd pidx map]. ring. }
  rewrite (T_ext' bp bs nb _ (pvec (pidx nb [(x, lab)]) v)) by auto. rewrite (timerev_T bp bs nb Hwf Hang Hpair) by auto.
  rewrite (T_pvec bp bs nb Hwf Hang Hpair) by (auto; repeat constructor; auto). rewrite E by auto.
  replace (psg bs [(x, lab)]) with (sg x) by (unfold psg; cbn; lia). f_equal. cbn [prv map fst snd].
  assert (HL : forall i : Z, Forall good_label [(i, lab)]) by (intros i; apply Forall_cons; [exact Hlab|apply Forall_nil]).
  cbn [pidx map fst snd]. rewrite <- !(pvec_sum n) by auto.
  apply csum_ext. intros s Hs. apply allcfg_In in Hs. rewrite (timerev_T bp bs nb Hwf Hang Hpair) by auto. reflexivity.
Qed.
(* dipole transitions *)
Variable fsqrt : F -> F.
Variable pi : F.
Variable gaunt : Z -> Z -> Z -> Z -> Z -> Z -> F.
Hypothesis gaunt_neg : forall l1 l2 l3 m1 m2 m3, gaunt l1 l2 l3 (- m1) (- m2) (- m3) = gaunt l1 l2 l3 m1 m2 m3.
Notation ck := (gauntC fsqrt pi gaunt).
Lemma c1q_rev q l l' s s' m m' : (s = 0 \/ s = 1) -> (s' = 0 \/ s' = 1) -> c1q ck q (SImp l (1 - s) (- m)) (SImp l' (1 - s') (- m')) = c1q ck (- q) (SImp l s m) (SImp l' s' m').
Proof.
  intros Hs Hs'. unfold c1q. rewrite (ck_neg fsqrt pi gaunt gaunt_neg). f_equal.
  destruct (Z.eqb_spec (1 - s) (1 - s')), (Z.eqb_spec s s'), (Z.eqb_spec (- m - - m') q), (Z.eqb_spec (m - m') (- q)); lia || reflexivity.
Qed.
Lemma c1q_sign q l l' s s' m m' : (s = 0 \/ s = 1) -> (s' = 0 \/ s' = 1) ->
  (cofZ (sg (SImp l s m) * sg (SImp l' s' m')) * c1q ck q (SImp l s m) (SImp l' s' m') = cofZ (parity q) * c1q ck q (SImp l s m) (SImp l' s' m'))%C.
Proof.
  intros Hs Hs'. unfold c1q. destruct (Z.eqb_spec s s') as [<-|]; [|cbn [andb when]; ring]. destruct (Z.eqb_spec (m - m') q) as [<-|]; [|cbn [andb when]; ring].
  cbn [andb when]. f_equal. f_equal. cbn [reverse_sign]. rewrite <- parity_minus. destruct (s =? 1); lia.
Qed.
Lemma c1q_real q x y : cconj (c1q ck q x y) = c1q ck q x y.
Proof. unfold c1q. destruct x, y; try apply cconj_0. unfold when. destruct (_ && _); [apply cconj_real|apply cconj_0]. Qed.
Lemma cconj_I : cconj (@cI F) = (- cI)%C.
Proof. unfold cconj, cI, copp. cbn [re im]. f_equal. ring. Qed.
Lemma n_dot_r_rev n0 n1 n2 x y l l' : in_shell l x -> in_shell l' y ->
  (cofZ (sg x * sg y) * cconj (n_dot_r fsqrt ck n0 n1 n2 x y))%C = (c1 * n_dot_r fsqrt ck n0 n1 n2 (rv x) (rv y))%C.
Proof.
  intros (s & m & -> & Hs & Hm) (s' & m' & -> & Hs' & Hm'). set (x := SImp l s m). set (y := SImp l' s' m').
  pose proof (c1q_sign (-1) l l' s s' m m' Hs Hs') as E1. pose proof (c1q_sign 0 l l' s s' m m' Hs Hs') as E2. pose proof (c1q_sign 1 l l' s s' m m' Hs Hs') as E3.
  fold x y in E1, E2, E3. change (parity (-1)) with (-1) in E1. change (parity 0) with 1 in E2. change (parity 1) with (-1) in E3. rewrite cofZ_1 in E2. rewrite cofZ_m1 in E1, E3.
  unfold n_dot_r, r_x, r_y, r_z. rewrite !cconj_add, !cconj_mul, !cconj_divreal, !cconj_real, cconj_mul, cconj_sub, cconj_add, cconj_I, !c1q_real.
  assert (R : forall q, c1q ck q (rv x) (rv y) = c1q ck (- q) x y) by (intros q; apply c1q_rev; auto). rewrite !R. change (- (-1)) with 1. change (- (1)) with (-1). change (- 0) with 0.
  set (sgn := cofZ (sg x * sg y)) in *. set (a := c1q ck (-1) x y) in *. set (b := c1q ck 0 x y) in *. set (c := c1q ck 1 x y) in *.
  unfold cdiv. set (r := cinv (creal (fsqrt (fofZ 2)))).
  transitivity (creal n0 * ((sgn * a - sgn * c) * r) + creal n1 * (- cI * (sgn * a + sgn * c) * r) + creal n2 * (sgn * b))%C; [clear; generalize sgn a b c r (creal n0) (creal n1) (creal n2) (@cI F); clear; intros; ring|]. rewrite E1, E2, E3. ring.
Qed.
Lemma rev_dipole l1 l2 n0 n1 n2 rest op v t : dkeys nb = [KInt l1; KInt l2] -> fsqrt (fofZ 2) <> 0%F ->
  getDipoleOperator fsqrt pi gaunt nb (n0 :: n1 :: n2 :: rest) = Ok op -> length t = n -> T (transition n op v) t = transition n op (T v) t.
Proof.
  intros Hk H2 E Ht. destruct (dip_ok fsqrt pi gaunt nb Hwf l1 l2 Hk n0 n1 n2 rest H2) as (op' & E' & HB). rewrite E in E'. injection E' as <-.
  assert (A : In l1 (angs nb) /\ In l2 (angs nb)) by (apply dip_angs; auto).
  unfold transition. rewrite (one_body_rev bp bs nb Hwf Hang Hpair op l2 l1 _ c1 v t (proj2 A) (proj1 A) HB); auto; [ring|]. intros x y Hx Hy. eapply n_dot_r_rev; eauto.
Qed.
(* circular polarisation *)
Lemma rev_two D1 D2 c v t : (forall t, length t = n -> T (transition n D1 v) t = transition n D1 (T v) t) -> (forall t, length t = n -> T (transition n D2 v) t = transition n D2 (T v) t) ->
  length t = n -> T (two_transitions n D1 D2 c v) t = two_transitions n D1 D2 (cconj c) (T v) t.
Proof.
  intros H1 H2 Ht. unfold two_transitions, transition in *. rewrite <- H1, <- H2 by auto.
  rewrite (T_ext' bp bs nb _ (fun s => c * opv n D2 v s + opv n D1 v s)%C) by (intros s _; ring). rewrite T_antilinear. ring.
Qed.
(* inelastic scattering *)
Lemma radial_real j q mesh k : Forall (fun p : F * (cx F * cx F) => cconj (fst (snd p)) = fst (snd p) /\ cconj (snd (snd p)) = snd (snd p)) mesh ->
  cconj (radial_int j q mesh k) = radial_int j q mesh k.
Proof.
  intros H. unfold radial_int, trapezoid. rewrite <- csum_conj. apply csum_ext. intros i Hi.
  assert (R : forall i, cconj (fst (snd (nth i mesh (0%F, (c0, c0))))) = fst (snd (nth i mesh (0%F, (c0, c0)))) /\ cconj (snd (snd (nth i mesh (0%F, (c0, c0))))) = snd (snd (nth i mesh (0%F, (c0, c0))))).
  { intros i'. destruct (Nat.lt_ge_cases i' (length mesh)) as [L|L].
    - rewrite Forall_forall in H. apply H. apply nth_In. exact L.
    - rewrite nth_overflow by exact L. cbn [fst snd]. split; apply cconj_0. }
  assert (D : forall x : cx F, cconj (x / cofZ 2)%C = (cconj x / cofZ 2)%C) by (intros x; apply (cconj_divreal x (fofZ 2))).
  cbv zeta. rewrite cconj_mul, cconj_real, D, cconj_add, !cconj_mul, !cconj_real, !cconj_conj.
  destruct (R i) as [R1 R2]. destruct (R (S i)) as [R3 R4]. rewrite R1, R2, R3, R4. reflexivity.
Qed.
Lemma i_power_conj k : 0 <= k -> cconj (@i_power F k) = (cofZ (parity k) * i_power k)%C.
Proof.
  intros Hk. unfold i_power. rewrite <- (Z2Nat.id k) at 2 by auto. induction (Z.to_nat k) as [|j IH]; [cbn; rewrite cofZ_1, cconj_1; ring|].
  cbn [Nat.iter nat_rect]. change (nat_rect _ ?a ?f j) with (Nat.iter j (fun z : cx F => (cI * z)%C) c1). rewrite cconj_mul, IH, cconj_I, Nat2Z.inj_succ, <- Z.add_1_r, parity_succ.
  replace (- parity (Z.of_nat j)) with (parity (Z.of_nat j) * -1) by lia. rewrite cofZ_mul, cofZ_m1. ring.
Qed.
Lemma plane_wave_rev R Y ks x y l l' : (forall k, In k ks -> 0 <= k) -> (forall k, cconj (R k) = R k) -> (forall k m, Y k (- m) = (cofZ (parity m) * cconj (Y k m))%C) ->
  in_shell l x -> in_shell l' y ->
  (cofZ (sg x * sg y) * cconj (plane_wave fsqrt ck R Y i_power ks x y))%C = (cofZ (parity (l + l')) * plane_wave fsqrt ck R Y i_power ks (rv x) (rv y))%C.
Proof.
  intros Hks HR HY (s & m & -> & Hs & Hm) (s' & m' & -> & Hs' & Hm'). cbn [reverse plane_wave]. unfold when at 1 3.
  destruct (Z.eqb_spec s s') as [<-|Hn].
  - rewrite Z.eqb_refl. replace (sg (SImp l s m) * sg (SImp l' s m')) with (parity (m - m')) by (cbn [reverse_sign]; rewrite <- parity_minus; destruct (s =? 1); lia).
    rewrite <- csum_conj, <- !csum_mul_l. apply csum_ext. intros k Hk. rewrite (ck_neg fsqrt pi gaunt gaunt_neg). unfold when.
    replace (- m - - m') with (- (m - m')) by lia. rewrite Z.abs_opp. destruct (Z.even (l + l' + k)) eqn:Ev; cbn [andb]; [|rewrite cconj_0; ring].
    destruct (Z.abs (m - m') <=? k); [|rewrite cconj_0; ring]. rewrite !cconj_mul, HR, HY, cconj_mul, !cconj_conj, !cconj_real, cconj_cofZ, (i_power_conj k) by auto.
    replace (parity k) with (parity (l + l')); [ring|]. unfold parity. rewrite Z.even_add in Ev. destruct (Z.even (l + l')), (Z.even k); cbn in Ev; congruence.
  - destruct (Z.eqb_spec (1 - s) (1 - s')); [lia|]. rewrite cconj_0. ring.
Qed.
Lemma rev_nixs arccos fsin spherical_jn sph_harm li lj q0 q1 q2 mesh kmin op v t : In li (angs nb) -> In lj (angs nb) -> 0 <= kmin ->
  (forall k m phi theta, sph_harm (- m) k phi theta = (cofZ (parity m) * cconj (sph_harm m k phi theta))%C) ->
  Forall (fun p : F * (cx F * cx F) => cconj (fst (snd p)) = fst (snd p) /\ cconj (snd (snd p)) = snd (snd p)) mesh ->
  getNIXSOperator fsqrt pi gaunt arccos fsin spherical_jn sph_harm nb q0 q1 q2 li lj mesh kmin = Ok op -> length t = n ->
  T (transition n op v) t = (cofZ (parity (li + lj)) * transition n op (T v) t)%C.
Proof.
  intros Hi Hj Hk HY HM E Ht. destruct (nixs_elements fsqrt pi gaunt arccos fsin spherical_jn sph_harm nb Hwf li lj Hi Hj q0 q1 q2 mesh kmin) as (op' & E' & HB).
  rewrite E in E'. injection E' as <-. unfold transition. apply (one_body_rev bp bs nb Hwf Hang Hpair op li lj _ _ v t Hi Hj HB); auto.
  intros x y Hx Hy. apply (plane_wave_rev _ _ _ x y li lj); auto.
  - intros k Hk'. apply zrange2_In in Hk'. lia.
  - intros k. apply radial_real. exact HM.
Qed.
End E.

(* ---- the spectra of the two programs ---- *)
Section F.
Context {F : ofield}.
Add Ring Cring3 : (@c_ring F).
Lemma response_sign n (A : op_t F) z S v g : response n A z (fun u t => (- S u t)%C) v g -> response n A z S v g.
Proof.
  intros (x & Hx & Hg & Hu). exists (fun t => (- x t)%C).
  assert (ON : forall u t, opv n A (fun s => - u s)%C t = (- opv n A u t)%C).
  { intros u t. unfold opv. transitivity (csum (fun s => (- c1) * (opelem A t s * u s))%C (allcfg n)); [apply csum_ext; intros; ring|]. rewrite csum_mul_l. ring. }
  split; [|split].
  - intros t Ht. rewrite ON. transitivity (- (z * x t - opv n A x t))%C; [ring|]. rewrite Hx by auto. ring.
  - rewrite <- Hg. unfold vdot. apply csum_ext. intros t _. rewrite cconj_opp. ring.
  - intros x' Hx' t Ht. rewrite <- (Hu (fun s => - x' s)%C); auto; [ring|]. intros t' Ht'. rewrite ON, <- Hx' by auto. ring.
Qed.
Lemma response_signed n (A : op_t F) z S v g a : (a = 1 \/ a = -1) -> response n A z S v g -> response n A z (fun u t => (cofZ a * S u t)%C) v g.
Proof.
  intros Ha H. assert (E : forall S', (forall t, S v t = S' v t) -> response n A z S' v g).
  { intros S' HS. destruct H as (x & Hx & Hg & Hu). exists x. split; [intros t Ht; rewrite <- HS; auto|]. split.
    - rewrite <- Hg. unfold vdot. apply csum_ext. intros t _. rewrite HS. reflexivity.
    - intros x' Hx'. apply Hu. intros t Ht. rewrite HS. auto. }
  destruct Ha as [-> | ->].
  - apply E. intros t. rewrite cofZ_1. ring.
  - rewrite (L_TimeReversal2.cofZ_m1). apply response_sign. apply E. intros t. ring.
Qed.
End F.

(* with a complex z the response is defined as soon as there is a solution *)
Lemma vdot_self {F : ofield} n (d : config -> cx F) : vdot n d d = creal (fsum (fun t => cabs2 (d t)) (allcfg n)).
Proof. unfold vdot. rewrite <- csum_creal_fsum. apply csum_ext. intros t _. apply cmul_conj. Qed.
Section G.
Context {F : ofield}.
Add Field Ff3 : (f_field F).
Add Ring Cring3 : (@c_ring F).
Lemma vdot_zero n (d : config -> cx F) : vdot n d d = c0 -> forall t, length t = n -> d t = c0.
Proof.
  rewrite vdot_self. intros H t Ht. assert (E : fsum (fun t => cabs2 (d t)) (allcfg n) = 0%F) by (apply (f_equal re) in H; exact H).
  apply cabs2_zero. apply (fsum_zero_inv (fun t => cabs2 (d t)) (allcfg n)); auto; [intros; apply cabs2_nonneg|apply allcfg_In; auto].
Qed.
Lemma injective n (A : op_t F) z d : NoDup (dkeys A) -> assert_hermitian A = Ok tt -> im z <> 0%F ->
  (forall t, length t = n -> z * d t - opv n A d t = c0)%C -> forall t, length t = n -> d t = c0.
Proof.
  intros HN HA Hz Hd. apply vdot_zero.
  assert (E : (z * vdot n d d)%C = vdot n d (opv n A d)).
  { transitivity (vdot n d (fun t => z * d t - opv n A d t)%C + vdot n d (opv n A d))%C; [rewrite vdot_lin_r; ring|].
    rewrite (vdot_ext n d d (fun t => z * d t - opv n A d t)%C (fun _ => c0)) by auto. unfold vdot at 1. rewrite csum_zero by (intros; ring). ring. }
  assert (HS : cconj (vdot n d d) = vdot n d d) by (rewrite <- vdot_swap; reflexivity).
  assert (E' : (cconj z * vdot n d d)%C = vdot n d (opv n A d)).
  { rewrite <- (vdot_herm n A d d HN HA), (vdot_swap n (opv n A d) d), <- E, cconj_mul, HS. reflexivity. }
  assert (X : (vdot n d d * (z - cconj z) = c0)%C).
  { transitivity (z * vdot n d d - cconj z * vdot n d d)%C; [ring|]. rewrite E, E'. ring. }
  apply cmul_integral in X as [X|X]; auto. elim Hz. apply (f_equal im) in X. cbn in X.
  assert (Y : ((1 + 1) * im z = 0)%F) by (rewrite <- X; ring). apply fmul_integral in Y as [Y|Y]; auto. elim (two_nz Y).
Qed.
Lemma response_defined n (A : op_t F) z S v x : NoDup (dkeys A) -> assert_hermitian A = Ok tt -> im z <> 0%F ->
  (forall t, length t = n -> z * x t - opv n A x t = S v t)%C -> response n A z S v (vdot n (S v) x).
Proof.
  intros HN HA Hz Hx. exists x. split; auto. split; auto. intros x' Hx' t Ht.
  assert (E : (x' t - x t)%C = c0); [|transitivity ((x' t - x t) + x t)%C; [ring|rewrite E; ring]].
  apply (injective n A z (fun t => x' t - x t)%C); auto. intros s Hs.
  assert (L : opv n A (fun t => x' t - x t)%C s = (opv n A x' s - opv n A x s)%C).
  { unfold opv. transitivity (csum (fun r => opelem A s r * x' r + (- c1) * (opelem A s r * x r))%C (allcfg n)).
    - apply csum_ext. intros r _. ring.
    - rewrite csum_add, csum_mul_l. ring. }
  transitivity (z * (x' s - x s) - opv n A (fun t : config => x' t - x t) s)%C; [reflexivity|]. rewrite L. transitivity ((z * x' s - opv n A x' s) - (z * x s - opv n A x s))%C; [ring|]. rewrite Hx', Hx by auto. ring.
Qed.
End G.
Lemma addC {F : ofield} (x y : cx F) : (x + y)%C = (y + x)%C.
Proof. destruct (@c_ring F). auto. Qed.
Lemma fmul_0_l {F : ofield} (x : F) : (0 * x)%F = 0%F.
Proof. generalize (f_field F). intros [[] _ _ _]. transitivity (0 * x + (0 * x + - (0 * x)))%F. { rewrite Ropp_def, (Radd_comm _ 0%F), Radd_0_l. auto. } rewrite Radd_assoc, <- Rdistr_l, Radd_0_l. apply Ropp_def. Qed.
Lemma mul1 {F : ofield} (y : cx F) : (c1 * y)%C = y.
Proof. destruct (@c_ring F). auto. Qed.
Lemma reversed_response {F : ofield} bp bs nb : wf_nbaths nb -> NoDup (angs nb) -> pairs bp bs nb -> forall (A A' : op_t F) z S S' v g g',
  NoDup (dkeys A') -> assert_hermitian A' = Ok tt -> reverses bp bs nb A A' -> reversed bp bs nb S S' ->
  response (n_orb nb) A z S v g -> response (n_orb nb) A' z S' (timerev bp bs nb v) g' -> g' = g.
Proof.
  intros Hw Ha Hp A A' z S S' v g g' HN HA HR (a & Ea & HS) Hg Hg'. apply (response_signed _ _ _ _ _ _ a Ea) in Hg'.
  exact (response_rev bp bs nb Hw Ha Hp A A' z S _ v g g' HN HA HR (HS v) Hg Hg').
Qed.
Lemma reversed_one {F : ofield} bp bs nb : wf_nbaths nb -> NoDup (angs nb) -> pairs bp bs nb -> forall lab x, (lab = lab_a \/ lab = lab_c) -> coord_ok nb x ->
  reversed (F := F) bp bs nb (transition (n_orb nb) (one_electron nb lab x)) (transition (n_orb nb) (one_electron nb lab (reverse bp x))).
Proof.
  intros Hw Ha Hp lab x Hl Hx. exists (reverse_sign bs x). split.
  - apply sq1. apply (sg_sq bp bs nb Hp x Hx).
  - intros v t Ht. apply rev_one; auto.
Qed.
Lemma reversed_dipole {F : ofield} bp bs nb : wf_nbaths nb -> NoDup (angs nb) -> pairs bp bs nb -> forall (fsqrt : F -> F) pi gaunt,
  (forall l1 l2 l3 m1 m2 m3, gaunt l1 l2 l3 (- m1) (- m2) (- m3) = gaunt l1 l2 l3 m1 m2 m3) -> fsqrt (fofZ 2) <> 0%F ->
  forall n1 n2 D1 D2 c, getDipoleOperator fsqrt pi gaunt nb n1 = Ok D1 -> getDipoleOperator fsqrt pi gaunt nb n2 = Ok D2 ->
  reversed bp bs nb (two_transitions (n_orb nb) D1 D2 c) (two_transitions (n_orb nb) D1 D2 (cconj c)).
Proof.
  intros Hw Ha Hp fsqrt pi gaunt Hg H2 n1 n2 D1 D2 c E1 E2. exists 1. split; [auto|]. intros v t Ht. rewrite cofZ_1.
  assert (K : forall nn D, getDipoleOperator fsqrt pi gaunt nb nn = Ok D -> forall v t, length t = n_orb nb -> timerev bp bs nb (transition (n_orb nb) D v) t = transition (n_orb nb) D (timerev bp bs nb v) t).
  { intros nn D E v' t' Ht'. destruct nn as [|a [|b [|d rest]]]; try (rewrite dip_short in E by (cbn; lia); discriminate E).
    assert (X : match dkeys nb with [k1; k2] => match k2, k1 with KInt _, KInt _ => True | _, _ => False end | _ => False end).
    { unfold getDipoleOperator in E. change 0 with (Z.of_nat 0) in E at 1. change (py_nth (a :: b :: d :: rest) 1) with (py_nth (a :: b :: d :: rest) (Z.of_nat 1)) in E. change (py_nth (a :: b :: d :: rest) 2) with (py_nth (a :: b :: d :: rest) (Z.of_nat 2)) in E.
      rewrite !(py_nth_ok (a :: b :: d :: rest) _ 0%F) in E by (cbn [length]; lia). cbn [bind] in E. destruct (dkeys nb) as [|k1 [|k2 [|]]]; try discriminate E; destruct k2, k1; try discriminate E; exact I. }
    destruct (dkeys nb) as [|k1 [|k2 [|]]] eqn:Hk; try contradiction. destruct k2 as [l2|], k1 as [l1|]; try contradiction. apply (rev_dipole bp bs nb Hw Ha Hp fsqrt pi gaunt Hg l1 l2 a b d rest); auto. }
  rewrite (rev_two bp bs nb D1 D2 c v t); auto; [|apply (K n1); auto|apply (K n2); auto]. generalize (two_transitions (n_orb nb) D1 D2 (cconj c) (timerev bp bs nb v) t). intros y. symmetry. apply mul1.
Qed.
Lemma reversed_nixs {F : ofield} bp bs nb : wf_nbaths nb -> NoDup (angs nb) -> pairs bp bs nb -> forall (fsqrt : F -> F) pi gaunt,
  (forall l1 l2 l3 m1 m2 m3, gaunt l1 l2 l3 (- m1) (- m2) (- m3) = gaunt l1 l2 l3 m1 m2 m3) ->
  forall arccos fsin spherical_jn sph_harm li lj q0 q1 q2 mesh kmin op, In li (angs nb) -> In lj (angs nb) -> 0 <= kmin ->
  (forall k m phi theta, sph_harm (- m) k phi theta = (cofZ (parity m) * cconj (sph_harm m k phi theta))%C) -> real_functions mesh ->
  getNIXSOperator fsqrt pi gaunt arccos fsin spherical_jn sph_harm nb q0 q1 q2 li lj mesh kmin = Ok op ->
  reversed bp bs nb (transition (n_orb nb) op) (transition (n_orb nb) op).
Proof.
  intros Hw Ha Hp fsqrt pi gaunt Hg arccos fsin sj sh li lj q0 q1 q2 mesh kmin op Hi Hj Hk HY HM E. exists (parity (li + lj)). split; [apply sq1, parity_sq|].
  intros v t Ht. apply (rev_nixs bp bs nb Hw Ha Hp fsqrt pi gaunt Hg arccos fsin sj sh li lj q0 q1 q2 mesh kmin); auto.
Qed.
(* the Hamiltonian *)
Lemma total_herm {F : ofield} (fsqrt : F -> F) pi gaunt fint nb hp h0 hOp : wf_nbaths nb ->
  (forall l1 l2 l3 m1 m2 m3, gaunt l1 l2 l3 m1 m2 m3 = gaunt l3 l2 l1 m3 m2 m1) ->
  (forall l1 l2 l3 m1 m2 m3, gaunt l1 l2 l3 (- m1) (- m2) (- m3) = gaunt l1 l2 l3 m1 m2 m3) -> ham_set fint nb hp ->
  NoDup (dkeys h0) -> assert_hermitian h0 = Ok tt -> op_in nb h0 ->
  get_hamiltonian_operator fsqrt pi gaunt fint nb hp h0 = Ok hOp -> NoDup (dkeys hOp) /\ assert_hermitian hOp = Ok tt.
Proof.
  intros Hw Hs Hg (Hf & (n & H1) & H2 & H3 & H4 & H5 & H6 & H7) C2 C3 C4 E.
  destruct (total_spec fint Hf fsqrt pi gaunt Hs Hg nb Hw H6 H7 hp n H1 H2 H3 H4 H5 h0 C2 C3 C4) as (hOp' & E' & W & A & _). rewrite E in E'. injection E' as <-. split; [apply W|exact A].
Qed.
Lemma dichroism {F : ofield} (fsqrt : F -> F) pi gaunt fint nb hp bp bs h0 h0' hOp hOp' :
  wf_nbaths nb -> NoDup (angs nb) -> pairs bp bs nb ->
  (forall l1 l2 l3 m1 m2 m3, gaunt l1 l2 l3 m1 m2 m3 = gaunt l3 l2 l1 m3 m2 m1) ->
  (forall l1 l2 l3 m1 m2 m3, gaunt l1 l2 l3 (- m1) (- m2) (- m3) = gaunt l1 l2 l3 m1 m2 m3) -> ham_set fint nb hp ->
  NoDup (dkeys h0) -> assert_hermitian h0 = Ok tt -> op_in nb h0 -> NoDup (dkeys h0') -> assert_hermitian h0' = Ok tt -> op_in nb h0' ->
  reverses bp bs nb (indexed nb h0) (indexed nb h0') ->
  get_hamiltonian_operator fsqrt pi gaunt fint nb hp h0 = Ok hOp ->
  get_hamiltonian_operator fsqrt pi gaunt fint nb (opposite_field hp) h0' = Ok hOp' ->
  forall z S S' v g g', reversed bp bs nb S S' -> response (n_orb nb) hOp z S v g -> response (n_orb nb) hOp' z S' (timerev bp bs nb v) g' -> g' = g.
Proof.
  intros Hw Ha Hp Hs Hg Hh A1 A2 A3 B1 B2 B3 HR E E' z S S' v g g' HS Hr Hr'.
  assert (Hh' : ham_set fint nb (opposite_field hp)) by exact Hh.
  destruct (total_herm fsqrt pi gaunt fint nb (opposite_field hp) h0' hOp' Hw Hs Hg Hh' B1 B2 B3 E') as [N A].
  assert (G : good_labels h0) by (apply assert_hermitian_iff in A2 as [X _]; auto). assert (G' : good_labels h0') by (apply assert_hermitian_iff in B2 as [X _]; auto).
  exact (reversed_response bp bs nb Hw Ha Hp hOp hOp' z S S' v g g' N A (total_rev fsqrt pi gaunt fint nb hp bp bs h0 h0' hOp hOp' Hw Ha Hp Hg Hh A1 G A3 B1 G' B3 HR E E') HS Hr Hr').
Qed.
Lemma dichroism_CF {F : ofield} (fsqrt : F -> F) pi gaunt fint nb nv hp params b hOp hOp' :
  (forall x : F, (0 <= x)%F -> (0 <= fsqrt x)%F /\ (fsqrt x * fsqrt x)%F = x) ->
  (forall l1 l2 l3 m1 m2 m3, gaunt l1 l2 l3 m1 m2 m3 = gaunt l3 l2 l1 m3 m2 m1) ->
  (forall l1 l2 l3 m1 m2 m3, gaunt l1 l2 l3 (- m1) (- m2) (- m3) = gaunt l1 l2 l3 m1 m2 m3) -> ham_set fint nb hp -> cf_system nb nv -> b <> OtherBasis ->
  get_hamiltonian_operator_using_CF fsqrt pi gaunt fint nb nv hp params b = Ok hOp ->
  get_hamiltonian_operator_using_CF fsqrt pi gaunt fint nb nv (opposite_field hp) params b = Ok hOp' ->
  forall z S S' v g g', reversed (cf_partner b) (cf_sign b) nb S S' -> response (n_orb nb) hOp z S v g ->
  response (n_orb nb) hOp' z S' (timerev (cf_partner b) (cf_sign b) nb v) g' -> g' = g.
Proof.
  intros Hq Hs Hg Hh Hc Hb E E' z S S' v g g' HS Hr Hr'.
  destruct (total_rev_CF' fsqrt pi gaunt fint nb nv hp params b hOp hOp' Hq Hg Hh Hc Hb E E') as [Hp HR]. destruct Hc as (Hw & Ha & HB & HV & H10).
  assert (X : exists nB, dget nb (KInt 2) = Some nB /\ (nB = 10 \/ nB = 20)) by (destruct HB; eauto). destruct X as (nB & HB' & EB).
  assert (Hh' : ham_set fint nb (opposite_field hp)) by exact Hh.
  destruct (total_CF fint fsqrt pi gaunt nb (opposite_field hp) Hw nv params b nB 10 Hb HB' HV eq_refl EB) as (h0 & C1 & C2 & C3 & C4 & _ & C6). rewrite C6 in E'.
  destruct (total_herm fsqrt pi gaunt fint nb (opposite_field hp) h0 hOp' Hw Hs Hg Hh' C2 C3 C4 E') as [N A].
  exact (reversed_response _ _ nb Hw Ha Hp hOp hOp' z S S' v g g' N A HR HS Hr Hr').
Qed.
Lemma no_dichroism {F : ofield} (fsqrt : F -> F) pi gaunt fint nb nv hp params b hOp :
  (forall x : F, (0 <= x)%F -> (0 <= fsqrt x)%F /\ (fsqrt x * fsqrt x)%F = x) ->
  (forall l1 l2 l3 m1 m2 m3, gaunt l1 l2 l3 m1 m2 m3 = gaunt l3 l2 l1 m3 m2 m1) ->
  (forall l1 l2 l3 m1 m2 m3, gaunt l1 l2 l3 (- m1) (- m2) (- m3) = gaunt l1 l2 l3 m1 m2 m3) -> ham_set fint nb hp -> cf_system nb nv -> b <> OtherBasis ->
  no_field hp -> get_hamiltonian_operator_using_CF fsqrt pi gaunt fint nb nv hp params b = Ok hOp ->
  forall n1 n2 D1 D2, getDipoleOperator fsqrt pi gaunt nb n1 = Ok D1 -> getDipoleOperator fsqrt pi gaunt nb n2 = Ok D2 ->
  forall c z v g1 g2 g1' g2', let w := timerev (cf_partner b) (cf_sign b) nb v in
  response (n_orb nb) hOp z (two_transitions (n_orb nb) D1 D2 c) v g1 -> response (n_orb nb) hOp z (two_transitions (n_orb nb) D1 D2 c) w g2 ->
  response (n_orb nb) hOp z (two_transitions (n_orb nb) D1 D2 (cconj c)) v g1' -> response (n_orb nb) hOp z (two_transitions (n_orb nb) D1 D2 (cconj c)) w g2' ->
  g2' = g1 /\ g2 = g1' /\ (g1 + g2 = g1' + g2')%C.
Proof.
  intros Hq Hs Hg Hh Hc Hb Hn E n1 n2 D1 D2 E1 E2 c z v g1 g2 g1' g2' w R1 R2 R1' R2'.
  assert (E' : get_hamiltonian_operator_using_CF fsqrt pi gaunt fint nb nv (opposite_field hp) params b = Ok hOp) by (rewrite opposite_0; auto).
  assert (Hp : pairs (cf_partner b) (cf_sign b) nb) by (apply cf_pairs; apply Hc).
  assert (H2 : fsqrt (fofZ 2) <> 0%F).
  { intros X. destruct (Hq (fofZ 2)) as [_ Y]; [apply flt_le, L_Ham.fofZ_pos; lia|]. rewrite X in Y. assert (Q : @fofZ F 2 <> 0%F) by (intros C; pose proof (L_Ham.fofZ_pos (F := F) 2 ltac:(lia)) as P2; rewrite C, flt_irrefl in P2; discriminate P2); apply Q. rewrite <- Y. apply fmul_0_l. }
  assert (K : forall c0, reversed (cf_partner b) (cf_sign b) nb (two_transitions (n_orb nb) D1 D2 c0) (two_transitions (n_orb nb) D1 D2 (cconj c0))).
  { intros c'. destruct Hc as (Hw & Ha & _). apply (reversed_dipole _ _ nb Hw Ha Hp fsqrt pi gaunt Hg H2 n1 n2); auto. }
  assert (A : g2' = g1) by exact (dichroism_CF fsqrt pi gaunt fint nb nv hp params b hOp hOp Hq Hs Hg Hh Hc Hb E E' z _ _ v g1 g2' (K c) R1 R2').
  assert (B : g2 = g1').
  { apply (dichroism_CF fsqrt pi gaunt fint nb nv hp params b hOp hOp Hq Hs Hg Hh Hc Hb E E' z _ _ v g1' g2 (K (cconj c)) R1'). rewrite cconj_conj. exact R2. }
  split; auto. split; auto. rewrite A, B. apply addC.
Qed.
