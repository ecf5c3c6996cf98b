(* Lemmas: the RIXS map is a quadratic form of the incoming polarisation. *)
From Coq Require Import Permutation Ring Field.
From Verif Require Import M_Prelude M_Scalar M_PSR M_State M_Mpi M_Hamiltonian M_Lanczos M_Spectra M_RIXS M_Basis M_Expect M_Operators S_Fock S_Ops S_Basis S_Expect S_Ham S_Green S_Spectra S_RIXS S_Operators S_Symmetry S_TimeReversal S_Dichroism S_Isotropic S_Tensor.
From Verif Require Import L_Scalar L_Sum L_Dict L_Fock L_State L_Ops L_Index L_Expect L_ApplyOp L_FockP L_Operators7 L_Green L_Green3 L_Green4 L_RIXS L_RIXS4 L_Isotropic L_Tensor.

Section R.
Context {F : ofield}.
Add Ring Cring : (@c_ring F).
Local Open Scope cx_scope.
Lemma image_comb n op rs a b c (p p0 p1 p2 u u0 u1 u2 : psi_t F) : wf_restr rs -> (forall t, length t = n -> amp p t = comb a b c (amp p0) (amp p1) (amp p2) t) ->
  op_image n op rs p u -> op_image n op rs p0 u0 -> op_image n op rs p1 u1 -> op_image n op rs p2 u2 -> forall t, length t = n -> amp u t = comb a b c (amp u0) (amp u1) (amp u2) t.
Proof.
  intros Hr Hp I I0 I1 I2 t Ht. unfold comb. destruct (okr rs t) eqn:Eo.
  - apply okr_allowed in Eo; [|exact Hr]. rewrite (proj1 (I t Ht) Eo), (proj1 (I0 t Ht) Eo), (proj1 (I1 t Ht) Eo), (proj1 (I2 t Ht) Eo). rewrite <- !csum_mul_l, <- !csum_add. apply csum_ext. intros s Hs. apply allcfg_In in Hs. rewrite Hp by auto. unfold comb. ring.
  - assert (N : ~ allowed_opt rs t) by (rewrite <- okr_allowed by exact Hr; congruence). rewrite (proj2 (I t Ht) N), (proj2 (I0 t Ht) N), (proj2 (I1 t Ht) N), (proj2 (I2 t Ht) N). ring.
Qed.
Lemma sol_unique n op rs (h : config -> config -> cx F) z x y (p q : psi_t F) : wf_op n op -> assert_hermitian op = Ok tt -> restricted_op n op rs h -> im z <> 0%F ->
  fock_solves n z h x p -> fock_solves n z h y q -> (forall t, length t = n -> amp p t = amp q t) -> forall t, length t = n -> x t = y t.
Proof.
  intros Hw HH HR Hz A B E. 
  assert (HD : fock_solves n z h (fun t => x t - y t) []).
  { intros t Lt. change (amp [] t) with (@c0 F). rewrite (csum_ext _ (fun s => h t s * x s - h t s * y s)) by (intros; ring). rewrite csum_sub.
    pose proof (A t Lt) as X1. pose proof (B t Lt) as X2. rewrite E in X1 by auto.
    transitivity ((z * x t - csum (fun s => h t s * x s) (allcfg n)) - (z * y t - csum (fun s => h t s * y s) (allcfg n))); [ring|]. rewrite X1, X2. ring. }
  assert (HZ : fock_solves n z h (fun _ => c0) []) by (intros t Lt; rewrite csum_zero by (intros; ring); change (amp [] t) with (@c0 F); ring).
  intros t Lt. pose proof (fock_unique n op rs Hw HH [] (fun c _ (H : In (key c) []) => match H with end) h HR z Hz _ _ HD HZ t Lt) as E0. cbv beta in E0.
  transitivity ((x t - y t) + y t); [ring|]. rewrite E0. ring.
Qed.
Variable fsqrt : F -> F.
Variable pi : F.
Variable gaunt : Z -> Z -> Z -> Z -> Z -> Z -> F.
Variable nb : nbaths_t.
Hypothesis Hw : wf_nbaths nb.
Hypothesis H2 : fsqrt (fofZ 2) <> 0%F.
Notation n := (n_orb nb).
Notation ck := (gauntC fsqrt pi gaunt).
Lemma in_comb l1 l2 rs psi e De Dx Dy Dz p px py pz : wf_restr rs -> dkeys nb = [KInt l1; KInt l2] -> length e = 3%nat -> getDipoleOperator fsqrt pi gaunt nb e = Ok De ->
  getDipoleOperator fsqrt pi gaunt nb [1; 0; 0]%F = Ok Dx -> getDipoleOperator fsqrt pi gaunt nb [0; 1; 0]%F = Ok Dy -> getDipoleOperator fsqrt pi gaunt nb [0; 0; 1]%F = Ok Dz ->
  op_image n De rs psi p -> op_image n Dx rs psi px -> op_image n Dy rs psi py -> op_image n Dz rs psi pz ->
  forall t, length t = n -> amp p t = comb (nth 0 e 0%F) (nth 1 e 0%F) (nth 2 e 0%F) (amp px) (amp py) (amp pz) t.
Proof.
  intros Hr Hk He Ee Ex Ey Ez I Ix Iy Iz t Ht. unfold comb at 1. destruct (okr rs t) eqn:Eo.
  - apply okr_allowed in Eo; [|exact Hr]. rewrite (proj1 (I t Ht) Eo), (proj1 (Ix t Ht) Eo), (proj1 (Iy t Ht) Eo), (proj1 (Iz t Ht) Eo).
    change (opv n De (amp psi) t = creal (nth 0 e 0%F) * opv n Dx (amp psi) t + creal (nth 1 e 0%F) * opv n Dy (amp psi) t + creal (nth 2 e 0%F) * opv n Dz (amp psi) t).
    rewrite (dip_linear fsqrt pi gaunt nb Hw H2 l1 l2 e De (amp psi) t Hk He Ee Ht), (dip_linear fsqrt pi gaunt nb Hw H2 l1 l2 [1; 0; 0]%F Dx (amp psi) t Hk eq_refl Ex Ht), (dip_linear fsqrt pi gaunt nb Hw H2 l1 l2 [0; 1; 0]%F Dy (amp psi) t Hk eq_refl Ey Ht), (dip_linear fsqrt pi gaunt nb Hw H2 l1 l2 [0; 0; 1]%F Dz (amp psi) t Hk eq_refl Ez Ht).
    unfold comb. cbn [nth]. change (creal (1%F : F)) with (@c1 F). change (creal (0%F : F)) with (@c0 F). ring.
  - assert (N : ~ allowed_opt rs t) by (rewrite <- okr_allowed by exact Hr; congruence). rewrite (proj2 (I t Ht) N), (proj2 (Ix t Ht) N), (proj2 (Iy t Ht) N), (proj2 (Iz t Ht) N). ring.
Qed.
Lemma kh_quad op rs h tOut psi z1 z2 f D6 Df s g t : wf_op n op -> assert_hermitian op = Ok tt -> wf_restr rs -> restricted_op n op rs h -> im z1 <> 0%F -> Forall (fun v => length v = 3%nat) f -> (t < length f)%nat ->
  getDipoleOperators fsqrt pi gaunt nb six_pols = Ok D6 -> getDipoleOperators fsqrt pi gaunt nb f = Ok Df ->
  (forall j, (j < 6)%nat -> kramers_heisenberg n rs h (nth j D6 []) tOut psi z1 z2 (s j)) -> kramers_heisenberg n rs h (nth t Df []) tOut psi z1 z2 g -> g = cquad (nth t f []) s.
Proof.
  intros Hop HA Hr Hh Hz Lf Ht E6 Ef H G. destruct (pol_ops fsqrt pi gaunt nb Hw H2 _ _ six_len E6) as (_ & _ & T6). destruct (pol_ops fsqrt pi gaunt nb Hw H2 _ _ Lf Ef) as (_ & _ & Tf).
  assert (N6 : forall j, (j < 6)%nat -> length (nth j (@six_pols F) []) = 3%nat /\ getDipoleOperator fsqrt pi gaunt nb (nth j six_pols []) = Ok (nth j D6 [])) by (intros j Hj; apply T6; exact Hj).
  destruct (N6 0%nat ltac:(lia)) as [L0 E0]. destruct (dip_keys_of fsqrt pi gaunt nb _ _ L0 E0) as (l1 & l2 & Hk).
  pose proof (proj2 (N6 1%nat ltac:(lia))) as E1. pose proof (proj2 (N6 2%nat ltac:(lia))) as E2. cbn [nth six_pols] in E0, E1, E2.
  destruct (H 0%nat ltac:(lia)) as (x1 & x2 & x3 & Ax & Bx & Cx & _). destruct (H 1%nat ltac:(lia)) as (y1 & y2 & y3 & Ay & By & Cy & _). destruct (H 2%nat ltac:(lia)) as (w1 & w2 & w3 & Aw & Bw & Cw & _).
  assert (K : forall e D g, length e = 3%nat -> getDipoleOperator fsqrt pi gaunt nb e = Ok D -> kramers_heisenberg n rs h D tOut psi z1 z2 g ->
    exists u : psi_t F, (forall c, length c = n -> amp u c = comb (nth 0 e 0%F) (nth 1 e 0%F) (nth 2 e 0%F) (amp x3) (amp y3) (amp w3) c) /\ fock_green n z2 h u g).
  { intros e D g' He ED (p1 & p2 & p3 & Ap & Bp & Cp & Gp). exists p3. split; [|exact Gp].
    pose proof (in_comb l1 l2 rs psi e D (nth 0 D6 []) (nth 1 D6 []) (nth 2 D6 []) p1 x1 y1 w1 Hr Hk He ED E0 E1 E2 Ap Ax Ay Aw) as P1.
    assert (P2 : forall c, length c = n -> amp p2 c = comb (nth 0 e 0%F) (nth 1 e 0%F) (nth 2 e 0%F) (amp x2) (amp y2) (amp w2) c).
    { assert (V : forall c, length c = n -> z1 * comb (nth 0 e 0%F) (nth 1 e 0%F) (nth 2 e 0%F) (amp x2) (amp y2) (amp w2) c - csum (fun s => h c s * comb (nth 0 e 0%F) (nth 1 e 0%F) (nth 2 e 0%F) (amp x2) (amp y2) (amp w2) s) (allcfg n) = amp p1 c).
      { intros c Hc. rewrite (P1 c Hc). exact (vsol_comb n z1 h _ _ _ _ _ _ _ _ _ Bx By Bw c Hc). }
      exact (sol_unique n op rs h z1 (amp p2) _ p1 p1 Hop HA Hh Hz Bp V (fun c _ => eq_refl)). }
    exact (image_comb n tOut rs _ _ _ p2 x2 y2 w2 p3 x3 y3 w3 Hr P2 Cp Cx Cy Cw). }
  destruct (Tf t Ht) as [Lt Et]. destruct (K _ _ _ Lt Et G) as (u & Pu & Gu).
  assert (U : exists us : nat -> psi_t F, forall j, (j < 6)%nat -> (forall c, length c = n -> amp (us j) c = comb (nth 0 (nth j six_pols []) 0%F) (nth 1 (nth j six_pols []) 0%F) (nth 2 (nth j six_pols []) 0%F) (amp x3) (amp y3) (amp w3) c) /\ fock_green n z2 h (us j) (s j)).
  { assert (M : forall j, (j < 6)%nat -> exists u : psi_t F, (forall c, length c = n -> amp u c = comb (nth 0 (nth j six_pols []) 0%F) (nth 1 (nth j six_pols []) 0%F) (nth 2 (nth j six_pols []) 0%F) (amp x3) (amp y3) (amp w3) c) /\ fock_green n z2 h u (s j)) by (intros j Hj; destruct (N6 j Hj) as [Lj Ej]; exact (K _ _ _ Lj Ej (H j Hj))).
    destruct (M 0%nat ltac:(lia)) as [u0 U0]. destruct (M 1%nat ltac:(lia)) as [u1 U1]. destruct (M 2%nat ltac:(lia)) as [u2 U2]. destruct (M 3%nat ltac:(lia)) as [u3 U3]. destruct (M 4%nat ltac:(lia)) as [u4 U4]. destruct (M 5%nat ltac:(lia)) as [u5 U5].
    exists (fun j => nth j [u0; u1; u2; u3; u4; u5] []). intros j Hj. destruct j as [|[|[|[|[|[|]]]]]]; [exact U0|exact U1|exact U2|exact U3|exact U4|exact U5|lia]. }
  destruct U as [us Hu].
  apply (quad_core n z2 h (amp x3) (amp y3) (amp w3) (nth t f []) (amp u) g (fun j => amp (us j)) s); [exact Pu|exact Gu|]. intros j Hj. split; [exact (proj1 (Hu j Hj))|exact (proj2 (Hu j Hj))].
Qed.
End R.
Local Open Scope Z_scope.
Lemma rixs_quad {F : ofield} (fsqrt : F -> F) pi gaunt nb bicgstab op rs fuel wIns wLoss delta1 delta2 ks swm psis es op0 f D6 Df :
  wf_nbaths nb -> sqrt_laws fsqrt -> exact_solver bicgstab -> wf_op (n_orb nb) op -> wf_op (n_orb nb) op0 -> assert_hermitian op = Ok tt -> wf_restr rs -> Forall (valid_psi (n_orb nb)) psis ->
  (2 ^ n_orb nb < fuel)%nat -> delta1 <> 0%F -> delta2 <> 0%F -> Z.of_nat (2 ^ n_orb nb) <= ks -> (swm <= 0)%F -> Forall (fun v => length v = 3%nat) f ->
  getDipoleOperators fsqrt pi gaunt nb six_pols = Ok D6 -> getDipoleOperators fsqrt pi gaunt nb f = Ok Df ->
  forall ops ops' (ord ord' : nat -> nat -> nat -> set_order) hg hg' pm pm' r r' gs gs', (forall t i q l, Permutation (ord t i q l) l) -> (forall t i q l, Permutation (ord' t i q l) l) ->
  Forall (hdict_exact (n_orb nb) op rs) hg -> hg <> [] -> Forall (hdict_exact (n_orb nb) op rs) hg' -> hg' <> [] ->
  pm <> ROther -> (pm = RHBuild -> r = 0%nat /\ NoDup (flat_map dkeys hg)) -> pm' <> ROther -> (pm' = RHBuild -> r' = 0%nat /\ NoDup (flat_map dkeys hg')) ->
  nth_error (getRIXSmap fsqrt bicgstab fuel (Z.of_nat (n_orb nb)) op wIns wLoss delta1 delta2 rs ks swm D6 (op0 :: ops) psis es ord hg pm) r = Some (Ok gs) ->
  nth_error (getRIXSmap fsqrt bicgstab fuel (Z.of_nat (n_orb nb)) op wIns wLoss delta1 delta2 rs ks swm Df (op0 :: ops') psis es ord' hg' pm') r' = Some (Ok gs') ->
  forall iE t tOut iw k, (iE < length psis)%nat -> (iE < length es)%nat -> (t < length f)%nat -> (tOut < S (length ops))%nat -> (tOut < S (length ops'))%nat -> (iw < length wIns)%nat -> (k < length wLoss)%nat ->
  nth k (gs' iE t tOut iw) c0 = cquad (nth t f []) (fun j => nth k (gs iE j tOut iw) c0).
Proof.
  intros Hw Hq Hsol Hop Hop0 HA Hr Hv Hf Hd1 Hd2 Hks Hs Lf E6 Ef ops ops' ord ord' hg hg' pm pm' r r' gs gs' Ho Ho' Hg Hne Hg' Hne' Hpm Hb Hpm' Hb' G G' iE t tOut iw k Hi Hi' Ht Hto Hto' Hiw Hk.
  pose proof (sqrt2_nz fsqrt Hq) as H2. destruct (pol_ops fsqrt pi gaunt nb Hw H2 _ _ six_len E6) as (L6 & W6 & _). destruct (pol_ops fsqrt pi gaunt nb Hw H2 _ _ Lf Ef) as (LD & Wf & _). change (length (@six_pols F)) with 6%nat in L6.
  destruct (restricted_op_exists (n_orb nb) op rs) as [h Hh].
  destruct (nth_error psis iE) as [psi|] eqn:Ep; [|apply nth_error_None in Ep; lia]. destruct (nth_error es iE) as [en|] eqn:En; [|apply nth_error_None in En; lia]. destruct (nth_error wIns iw) as [wIn|] eqn:Ew; [|apply nth_error_None in Ew; lia].
  apply (kh_quad fsqrt pi gaunt nb Hw H2 op rs h op0 psi (mkC (wIn + en)%F delta1) (mkC (nth k wLoss 0 + en)%F delta2) f D6 Df); auto.
  - intros j Hj. assert (Lj : (j < length D6)%nat) by (rewrite L6; exact Hj).
    exact (proj2 (rixs_exact fsqrt bicgstab (n_orb nb) op rs h fuel wIns wLoss delta1 delta2 ks swm D6 psis es op0 Hq Hsol (conj Hop (conj Hr (conj (Forall_cons _ Hop0 W6) Hv))) HA Hh Hf Hd1 Hd2 Hks Hs ops ord hg pm r gs Ho Hg Hne Hpm Hb G j iE (nth j D6 []) psi en iw wIn tOut (nth_error_nth' D6 [] Lj) Ep En Ew Hto) k Hk).
  - assert (Lt : (t < length Df)%nat) by (rewrite LD; exact Ht).
    exact (proj2 (rixs_exact fsqrt bicgstab (n_orb nb) op rs h fuel wIns wLoss delta1 delta2 ks swm Df psis es op0 Hq Hsol (conj Hop (conj Hr (conj (Forall_cons _ Hop0 Wf) Hv))) HA Hh Hf Hd1 Hd2 Hks Hs ops' ord' hg' pm' r' gs' Ho' Hg' Hne' Hpm' Hb' G' t iE (nth t Df []) psi en iw wIn tOut (nth_error_nth' Df [] Lt) Ep En Ew Hto') k Hk).
Qed.
