(* Spectra with rotational symmetry: no dependence on the polarisation. *)
From Coq Require Import Permutation Ring Field.
From Verif Require Import M_Prelude M_Scalar M_PSR M_State M_Mpi M_Basis M_Expect M_Operators M_Hamiltonian M_Lanczos M_Average M_Spectra M_Simulate M_Program S_Fock S_Ops S_Ham S_Basis S_Expect S_Green S_Operators S_Symmetry S_TimeReversal S_Dichroism S_Isotropic S_Thermal S_Spectra S_Spectrum S_Spectrum3 S_Levels S_Rotation.
From Verif Require Import L_Scalar L_Sum L_Dict L_Fock L_State L_Ops L_ApplyOp L_Green3 L_Spectra6 L_Program L_Symmetry L_Dichroism L_Isotropic L_Cubic L_SumRule2 L_Program7 L_Program9 L_Levels L_Levels2 L_Rotation L_Rotation2 L_Rotation3.
From Verif Require L_Operators L_Symmetry7 L_Operators2 L_Green4.
Local Open Scope Z_scope.

Section Mat.
Context {F : ofield}.
Add Ring CringM : (@c_ring F).
Lemma commute_matrix n (A B : op_t F) : commute n A B -> commutes n (opelem A) B.
Proof.
  intros H t s Ht Hs. specialize (H (fun w => if list_eq_dec Bool.bool_dec w s then c1 else c0) t Ht).
  assert (E : forall (op : op_t F) w, opv n op (fun w => if list_eq_dec Bool.bool_dec w s then c1 else c0) w = opelem op w s).
  { intros op w. unfold opv. rewrite (csum_single _ (allcfg n) s).
    - destruct (list_eq_dec Bool.bool_dec s s); [ring|congruence].
    - apply allcfg_NoDup.
    - apply allcfg_In. auto.
    - intros y _ Hy. destruct (list_eq_dec Bool.bool_dec y s); [congruence|ring]. }
  unfold opv at 1 3 in H. rewrite (csum_ext _ (fun w => opelem A t w * opelem B w s)%C) in H by (intros w _; rewrite E; auto).
  rewrite H. apply csum_ext. intros w _. rewrite E. auto.
Qed.
End Mat.

Section R.
Context {F : ofield}.
Add Field Ff : (f_field F).
Add Ring Cring : (@c_ring F).
Add Field Cf : (@c_field F).
Variable fsqrt : F -> F.
Variable pi : F.
Variable gaunt : Z -> Z -> Z -> Z -> Z -> Z -> F.
Notation ck := (gauntC fsqrt pi gaunt).
Hypothesis Hsq : sqrt_laws fsqrt.
Hypothesis HT : tensor_law fsqrt ck 1 2 1.
Variable nb : nbaths_t.
Hypothesis Hwf : wf_nbaths nb.
Hypothesis Hk : dkeys nb = [KInt 1; KInt 2].
Notation n := (n_orb nb).
Notation w2 := (creal (fsqrt (fofZ 2))).
Let r2 : fsqrt (fofZ 2) <> 0%F := sqrt2_nz fsqrt Hsq.
(* a polarisation in terms of q = -1, 0, 1 *)
Definition pm (e : list F) : cx F := ((creal (nth 0 e 0%F) + cI * creal (nth 1 e 0%F)) / w2)%C.
Definition pz (e : list F) : cx F := creal (nth 2 e 0%F).
Definition pp (e : list F) : cx F := ((- creal (nth 0 e 0%F) + cI * creal (nth 1 e 0%F)) / w2)%C.
Lemma dip_q e D v t : length e = 3%nat -> getDipoleOperator fsqrt pi gaunt nb e = Ok D -> length t = n ->
  (opv n D v t = pm e * moved nb 1 2 (c1q ck (-1)) v t + pz e * moved nb 1 2 (c1q ck 0) v t + pp e * moved nb 1 2 (c1q ck 1) v t)%C.
Proof.
  intros He E Ht. rewrite (dip_linear fsqrt pi gaunt nb Hwf r2 1 2 e D v t Hk He E Ht). unfold comb.
  pose proof (moved_x fsqrt pi gaunt Hsq nb v t) as X. pose proof (moved_y fsqrt pi gaunt Hsq nb v t) as Y. pose proof (w2_nz fsqrt Hsq) as N.
  change (moved nb 1 2 (r_z ck) v t) with (moved nb 1 2 (c1q ck 0) v t). unfold pm, pz, pp.
  set (a := moved nb 1 2 (r_x fsqrt ck) v t) in *. set (b := moved nb 1 2 (r_y fsqrt ck) v t) in *.
  set (m := moved nb 1 2 (c1q ck (-1)) v t) in *. set (q := moved nb 1 2 (c1q ck 1) v t) in *. set (w := w2) in *.
  assert (Ea : a = ((m - q) / w)%C) by (rewrite <- X; field; auto). assert (Eb : b = (cI * (m + q) / w)%C) by (rewrite <- Y; field; auto).
  rewrite Ea, Eb. field. auto.
Qed.
Lemma two_c_nz : (c1 + c1)%C <> (c0 : cx F).
Proof. intros E. apply (f_equal re) in E. cbn in E. exact (L_Operators.two_nz E). Qed.
Lemma w2_square_div (x y : cx F) : (x / w2 * (y / w2) = x * y / (c1 + c1))%C.
Proof. rewrite <- (w2_sq fsqrt Hsq). pose proof (w2_nz fsqrt Hsq). field. auto. Qed.
Lemma cconj_div (x y : cx F) : y <> c0 -> cconj y = y -> cconj (x / y)%C = (cconj x / y)%C.
Proof.
  intros Hy E. transitivity (cconj (x / y) * y / y)%C; [field; auto|]. f_equal. rewrite <- E at 2. rewrite <- cconj_mul. f_equal. field. auto.
Qed.
Lemma pol_norm e : (cconj (pm e) * pm e + cconj (pz e) * pz e + cconj (pp e) * pp e = creal (length2 e))%C.
Proof.
  unfold pm, pz, pp. rewrite !cconj_div by (apply w2_nz || apply w2_conj; auto). rewrite !w2_square_div, !cconj_add, !cconj_mul, !cconj_opp, !cconj_real, cI_conj.
  unfold length2. rewrite !creal_add, !creal_mul. pose proof two_c_nz as N. generalize (creal (nth 0 e 0%F)) (creal (nth 1 e 0%F)) (creal (nth 2 e 0%F)). intros a b d.
  transitivity ((a * a + - (cI * cI) * (b * b) + (a * a + - (cI * cI) * (b * b))) / (c1 + c1) + d * d)%C; [field; auto|]. rewrite cI_sq. field. auto.
Qed.

Variable O : list spinorb.
Variable M : component -> spinorb -> spinorb -> cx F.
Hypothesis HR : rotation fsqrt nb O M.
Notation G c := (generator nb O (M c)).
Variables (es : list F) (psis : list (psi_t F)).
Hypothesis Hl : length psis = length es.
Hypothesis Hon : orthonormal_states n psis.
Hypothesis HM : forall c, multiplets n es psis (G c).
Notation K := (length es).

Lemma rot_mean rs h (z p : F -> cx F) : wf_restr rs -> (forall c, keeps n rs (G c)) -> (forall c, commutes n h (G c)) ->
  (forall j, (j < K)%nat -> forall u, vsol n (z (nth j es 0%F)) h u (fun _ => c0) -> forall t, length t = n -> u t = c0) ->
  exists T : cx F, forall (am az ap : cx F) Ye g,
  (forall j t, (j < K)%nat -> length t = n -> Ye j t = if okr rs t then am * moved nb 1 2 (c1q ck (-1)) (amp (nth j psis [])) t + az * moved nb 1 2 (c1q ck 0) (amp (nth j psis [])) t + ap * moved nb 1 2 (c1q ck 1) (amp (nth j psis [])) t else c0)%C ->
  (forall j, (j < K)%nat -> gv n (z (nth j es 0%F)) h (Ye j) (g j)) ->
  (csum (fun j => p (nth j es 0%F) * g j) (seq 0 K) = (cconj am * am + cconj az * az + cconj ap * ap) * T)%C.
Proof.
  intros Hr HK Hh Inj. destruct (iso_mean fsqrt ck Hsq HT nb Hwf O M HR rs Hr HK es psis Hl Hon HM h Hh z p Inj) as [T HTT]. exists T.
  intros am az ap Ye g HY Hg. apply (HTT am az ap Ye g); [|exact Hg]. intros j t Hj Ht. rewrite (HY j t Hj Ht). unfold Y, cutr. destruct (okr rs t); ring.
Qed.
Lemma keeps_None c : keeps n None (G c).
Proof. intros t s _ _ _. cbn. tauto. Qed.
Lemma rot_response (A D D' : op_t F) e e' (z p : F -> cx F) g g' : (forall c, commute n A (G c)) -> length e = 3%nat -> length e' = 3%nat -> length2 e = length2 e' ->
  getDipoleOperator fsqrt pi gaunt nb e = Ok D -> getDipoleOperator fsqrt pi gaunt nb e' = Ok D' ->
  (forall i, (i < K)%nat -> response n A (z (nth i es 0%F)) (transition n D) (amp (nth i psis [])) (g i)) ->
  (forall i, (i < K)%nat -> response n A (z (nth i es 0%F)) (transition n D') (amp (nth i psis [])) (g' i)) ->
  (csum (fun i => p (nth i es 0%F) * g i) (seq 0 K) = csum (fun i => p (nth i es 0%F) * g' i) (seq 0 K))%C.
Proof.
  intros HA He He' HE E E' Hg Hg'.
  destruct (rot_mean None (opelem A) z p I keeps_None (fun c => commute_matrix n A _ (HA c))) as [T HTT].
  { intros j Hj. apply (gv_inj n _ _ (opv n D (amp (nth j psis []))) (g j)). exact (Hg j Hj). }
  rewrite (HTT (pm e) (pz e) (pp e) (fun i => opv n D (amp (nth i psis []))) g), (HTT (pm e') (pz e') (pp e') (fun i => opv n D' (amp (nth i psis []))) g'); auto.
  - rewrite !pol_norm, HE. auto.
  - intros j t _ Ht. cbn [okr]. apply (dip_q e' D'); auto.
  - intros j t _ Ht. cbn [okr]. apply (dip_q e D); auto.
Qed.
(* polarisations with complex coefficients *)
Lemma rot_circular (A Dx Dy : op_t F) (z p : F -> cx F) g g' : (forall c, commute n A (G c)) ->
  getDipoleOperator fsqrt pi gaunt nb [1; 0; 0]%F = Ok Dx -> getDipoleOperator fsqrt pi gaunt nb [0; 1; 0]%F = Ok Dy ->
  (forall i, (i < K)%nat -> response n A (z (nth i es 0%F)) (two_transitions n Dx Dy cI) (amp (nth i psis [])) (g i)) ->
  (forall i, (i < K)%nat -> response n A (z (nth i es 0%F)) (two_transitions n Dx Dy (- cI)%C) (amp (nth i psis [])) (g' i)) ->
  (csum (fun i => p (nth i es 0%F) * g i) (seq 0 K) = csum (fun i => p (nth i es 0%F) * g' i) (seq 0 K))%C.
Proof.
  intros HA Ex Ey Hg Hg'.
  destruct (rot_mean None (opelem A) z p I keeps_None (fun c => commute_matrix n A _ (HA c))) as [T HTT].
  { intros j Hj. apply (gv_inj n _ _ (two_transitions n Dx Dy cI (amp (nth j psis []))) (g j)). exact (Hg j Hj). }
  assert (W : forall c v t, length t = n -> (two_transitions n Dx Dy c v t = (pm [1; 0; 0]%F + c * pm [0; 1; 0]%F) * moved nb 1 2 (c1q ck (-1)) v t + c0 * moved nb 1 2 (c1q ck 0) v t + (pp [1; 0; 0]%F + c * pp [0; 1; 0]%F) * moved nb 1 2 (c1q ck 1) v t)%C).
  { intros c v t Ht. unfold two_transitions. rewrite (dip_q [1; 0; 0]%F Dx v t), (dip_q [0; 1; 0]%F Dy v t) by auto. unfold pz. cbn [nth]. change (creal (0%F : F)) with (@c0 F). ring. }
  rewrite (HTT (pm [1; 0; 0]%F + cI * pm [0; 1; 0]%F)%C c0 (pp [1; 0; 0]%F + cI * pp [0; 1; 0]%F)%C (fun i => two_transitions n Dx Dy cI (amp (nth i psis []))) g);
    [|intros j t _ Ht; cbn [okr]; apply W; auto|exact Hg].
  rewrite (HTT (pm [1; 0; 0]%F + (- cI) * pm [0; 1; 0]%F)%C c0 (pp [1; 0; 0]%F + (- cI) * pp [0; 1; 0]%F)%C (fun i => two_transitions n Dx Dy (- cI)%C (amp (nth i psis []))) g');
    [|intros j t _ Ht; cbn [okr]; apply W; auto|exact Hg'].
  f_equal. unfold pm, pp. cbn [nth]. change (creal (0%F : F)) with (@c0 F). change (creal (1%F : F)) with (@c1 F). pose proof (w2_nz fsqrt Hsq) as N. pose proof (w2_conj fsqrt) as C. set (w := w2) in *.
  rewrite !cconj_add, !cconj_mul, !cconj_div by auto. rewrite !cconj_add, !cconj_mul, !cconj_opp, cI_conj, cconj_1, cconj_0.
  assert (I2 : (cI * cI = - c1 :> cx F)%C) by apply cI_sq. 
  transitivity (((c1 + cI * cI) * (c1 + cI * cI) + (cI * cI - c1) * (cI * cI - c1)) / (w * w))%C; [field; auto|]. rewrite I2. 
  transitivity (((c1 - cI * cI) * (c1 - cI * cI) + (- (cI * cI) - c1) * (- (cI * cI) - c1)) / (w * w))%C; [rewrite I2|]; field; auto.
Qed.
Lemma rot_green rs swm h (z p : F -> cx F) e e' D D' g g' : (swm <= 0)%F -> Forall (valid_psi n) psis -> wf_restr rs -> (forall c, keeps n rs (G c)) -> (forall c, commutes n h (G c)) ->
  length e = 3%nat -> length e' = 3%nat -> length2 e = length2 e' -> getDipoleOperator fsqrt pi gaunt nb e = Ok D -> getDipoleOperator fsqrt pi gaunt nb e' = Ok D' ->
  (forall i, (i < K)%nat -> exists psiR, applyOp (Z.of_nat n) D (nth i psis []) swm rs None = (None, Ok psiR) /\ fock_green n (z (nth i es 0%F)) h psiR (g i)) ->
  (forall i, (i < K)%nat -> exists psiR, applyOp (Z.of_nat n) D' (nth i psis []) swm rs None = (None, Ok psiR) /\ fock_green n (z (nth i es 0%F)) h psiR (g' i)) ->
  (csum (fun i => p (nth i es 0%F) * g i) (seq 0 K) = csum (fun i => p (nth i es 0%F) * g' i) (seq 0 K))%C.
Proof.
  intros Hs Hv Hr HK Hh He He' HE E E' H H'.
  apply (choose _ []) in H as [Y HY]. apply (choose _ []) in H' as [Y' HY'].
  destruct (rot_mean rs h z p Hr HK Hh) as [T HTT].
  { intros j Hj. apply (gv_inj n _ _ (amp (Y j)) (g j)). exact (proj2 (HY j Hj)). }
  assert (W : forall e D Z, length e = 3%nat -> getDipoleOperator fsqrt pi gaunt nb e = Ok D -> (forall i, (i < K)%nat -> applyOp (Z.of_nat n) D (nth i psis []) swm rs None = (None, Ok (Z i))) ->
    forall j t, (j < K)%nat -> length t = n -> amp (Z j) t = if okr rs t then (pm e * moved nb 1 2 (c1q ck (-1)) (amp (nth j psis [])) t + pz e * moved nb 1 2 (c1q ck 0) (amp (nth j psis [])) t + pp e * moved nb 1 2 (c1q ck 1) (amp (nth j psis [])) t)%C else c0).
  { intros e0 D0 Z0 He0 E0 HZ j t Hj Ht. assert (Hp : valid_psi n (nth j psis [])) by (rewrite Forall_forall in Hv; apply Hv, nth_In; lia).
    destruct (applyOp_amp n D0 (nth j psis []) swm rs (dip_wf fsqrt pi gaunt nb Hwf r2 e0 D0 He0 E0) Hp) as (q & Eq & _ & _ & HA). rewrite (HZ j Hj) in Eq. injection Eq as <-. rewrite HA, cut_nonpos by auto.
    destruct (okr rs t); auto. change (op_vec n D0 (nth j psis []) t) with (opv n D0 (amp (nth j psis [])) t). apply dip_q; auto. }
  rewrite (HTT (pm e) (pz e) (pp e) (fun i => amp (Y i)) g), (HTT (pm e') (pz e') (pp e') (fun i => amp (Y' i)) g').
  - rewrite !pol_norm, HE. auto.
  - apply (W e' D'); auto. intros i Hi. apply (HY' i Hi).
  - intros j Hj. exact (proj2 (HY' j Hj)).
  - apply (W e D); auto. intros i Hi. apply (HY i Hi).
  - intros j Hj. exact (proj2 (HY j Hj)).
Qed.
End R.

Section Lev.
Context {F : ofield}.
Add Ring Cring3 : (@c_ring F).
(* whole levels are closed multiplets *)
Lemma whole_multiplets n (A B : op_t F) es psis : whole_levels n A es psis -> commute n A B -> multiplets n es psis B.
Proof.
  intros (L & O & E & S) HC i Hi. apply S; auto. intros t Ht. rewrite (HC (amp (nth i psis [])) t Ht).
  rewrite (opv_ext n B (opv n A (amp (nth i psis []))) (fun s => creal (nth i es 0%F) * amp (nth i psis []) s)%C) by (intros s Hs; apply E; auto).
  unfold opv. rewrite <- csum_mul_l. apply csum_ext. intros s _. ring.
Qed.
End Lev.

Section Cols.
Context {F : ofield}.
Variables fsqrt fexp : F -> F.
Variable pi : F.
Variable gaunt : Z -> Z -> Z -> Z -> Z -> Z -> F.
Hypothesis HS : sqrt_laws fsqrt.
Hypothesis HE : exp_laws fexp.
Lemma dips_nth nb epsilons tOps : getDipoleOperators fsqrt pi gaunt nb epsilons = Ok tOps -> length tOps = length epsilons /\
  forall a, (a < length epsilons)%nat -> getDipoleOperator fsqrt pi gaunt nb (nth a epsilons []) = Ok (nth a tOps []).
Proof.
  intros E. destruct (L_Spectra6.map_res_nth _ _ _ E) as [L H]. split; auto. intros a Ha. destruct (H a (nth a epsilons [])) as (D & ED & EN); [apply nth_error_nth'; auto|].
  rewrite ED. f_equal. symmetry. apply nth_error_nth. auto.
Qed.
Lemma rot_absorption nb O (M : component -> spinorb -> spinorb -> cx F) (k_B T : F) fuel (op : op_t F) rs ks swm (es : list F) psis ord R w d epsilons tOps cols rest :
  tensor_law fsqrt (gauntC fsqrt pi gaunt) 1 2 1 -> wf_nbaths nb -> dkeys nb = [KInt 1; KInt 2] -> rotation fsqrt nb O M ->
  wf_op (n_orb nb) op -> assert_hermitian op = Ok tt -> wf_restr rs -> (2 ^ n_orb nb < fuel)%nat -> Z.of_nat (2 ^ n_orb nb) <= ks -> (swm <= 0)%F -> (k_B * T)%F <> 0%F ->
  (forall c, keeps (n_orb nb) rs (generator nb O (M c))) -> (forall h c, restricted_op (n_orb nb) op rs h -> commutes (n_orb nb) h (generator nb O (M c))) ->
  Forall (valid_psi (n_orb nb)) psis -> length psis = length es -> orthonormal_states (n_orb nb) psis -> (forall c, multiplets (n_orb nb) es psis (generator nb O (M c))) ->
  (forall t i q l, Permutation (ord t i q l) l) -> (1 <= R)%nat -> d <> 0%F -> Forall (fun e => length e = 3%nat) epsilons -> getDipoleOperators fsqrt pi gaunt nb epsilons = Ok tOps ->
  absorption fsqrt fexp k_B fuel (Z.of_nat (n_orb nb)) op rs ks swm ord R psis es T w d tOps = Ok cols :: rest ->
  forall a b, (a < length epsilons)%nat -> (b < length epsilons)%nat -> length2 (nth a epsilons []) = length2 (nth b epsilons []) -> nth (S (S a)) cols [] = nth (S (S b)) cols [].
Proof.
  intros HT Hwf Hk HR Hop HA Hr Hf Hks Hs HkT HK Hh Hv Hl Hon HM Ho HR1 Hd Hl3 ED E a b Ha Hb Hab. destruct (dips_nth nb epsilons tOps ED) as [LT HN].
  assert (Ht : Forall (wf_op (n_orb nb)) tOps).
  { apply Forall_forall. intros D HD. apply (In_nth _ _ []) in HD as (i & Hi & <-). assert (Hi' : (i < length epsilons)%nat) by (rewrite <- LT; exact Hi). apply (dip_wf fsqrt pi gaunt nb Hwf (sqrt2_nz fsqrt HS) (nth i epsilons [])); auto.
    rewrite Forall_forall in Hl3. apply Hl3, nth_In. auto. }
  unfold absorption in E. apply head_bind in E as (g & l & E & C).
  apply (columns_mean fexp HE) in C; [|auto|eapply (spec_len fsqrt (n_orb nb) fuel op rs ks swm es); eauto].
  destruct C as (to & pa & -> & L1 & L2 & P & _). cbn [nth]. rewrite LT in *.
  destruct (P a Ha) as [A1 A2], (P b Hb) as [B1 B2]. apply (nth_ext _ _ 0%F 0%F); [congruence|]. intros k Hkk. rewrite A1 in Hkk. rewrite A2, B2 by auto. rewrite !mean_im.
  destruct (L_Green4.restricted_op_exists (n_orb nb) op rs) as [h Hhh]. do 2 f_equal.
  apply (rot_green fsqrt pi gaunt HS HT nb Hwf Hk O M HR es psis Hl Hon HM rs swm h (fun e => mkC (nth k w 0 + e)%F d) (fun e => creal (probability fexp (k_B * T) es e)) (nth a epsilons []) (nth b epsilons []) (nth a tOps []) (nth b tOps [])); auto.
  - rewrite Forall_forall in Hl3. apply Hl3, nth_In. auto.
  - rewrite Forall_forall in Hl3. apply Hl3, nth_In. auto.
  - intros i Hi. apply (spec_green fsqrt HS (n_orb nb) fuel op rs ks swm Hop HA Hr Hf Hks Hs es R R HR1 HR1 w d tOps ord R psis g l h Ho HR1 Hd Ht Hv Hl Hhh E a k); auto. lia.
  - intros i Hi. apply (spec_green fsqrt HS (n_orb nb) fuel op rs ks swm Hop HA Hr Hf Hks Hs es R R HR1 HR1 w d tOps ord R psis g l h Ho HR1 Hd Ht Hv Hl Hhh E b k); auto. lia.
Qed.
End Cols.
