(* With rotational symmetry, the mean over closed multiplets is the same for all polarisations. *)
From Coq Require Import Permutation Ring Field.
From Verif Require Import M_Prelude M_Scalar M_PSR M_State M_Basis M_Expect M_Operators S_Fock S_Ops S_Ham S_Basis S_Expect S_Green S_Operators S_Symmetry S_TimeReversal S_Dichroism S_Isotropic S_Levels S_Rotation.
From Verif Require Import L_Scalar L_Sum L_Dict L_Fock L_State L_Ops L_Index L_Expect L_Expect2 L_Expect3 L_Expect4 L_Expect5 L_ApplyOp L_Lanczos L_Operators L_Operators2 L_Operators3 L_Operators4 L_Operators5 L_Symmetry L_Symmetry2 L_Symmetry3 L_Symmetry4 L_Symmetry5 L_Symmetry6 L_Symmetry7 L_Dichroism L_Isotropic L_SumRule2 L_Levels L_Rotation L_Rotation2.
From Verif Require L_Operators7 L_Lanczos2 L_Ham.
Local Open Scope Z_scope.

Section Mean.
Context {F : ofield}.
Add Field Ff : (f_field F).
Add Ring Cring : (@c_ring F).
Add Field Cf : (@c_field F).
Variable fsqrt : F -> F.
Variable ck : Z -> Z -> Z -> Z -> Z -> F.
Hypothesis Hsq : sqrt_laws fsqrt.
Hypothesis HT : tensor_law fsqrt ck 1 2 1.
Variable nb : nbaths_t.
Hypothesis Hwf : wf_nbaths nb.
Variable O : list spinorb.
Variable M : component -> spinorb -> spinorb -> cx F.
Hypothesis HR : rotation fsqrt nb O M.
Notation n := (n_orb nb).
Notation G c := (generator nb O (M c)).
Definition cc (c : component) := match c with Cz => Cz | Cplus => Cminus | Cminus => Cplus end.
Lemma G_adjoint c u w : vdot n (opv n (G (cc c)) u) w = vdot n u (opv n (G c) w).
Proof.
  destruct HR as (HO & HOk & HH & _). apply vdot_adjoint. intros t s. apply generator_adjoint. intros x y Hx Hy. destruct c; cbn [cc].
  - apply HH; auto.
  - apply HH; auto.
  - destruct (HH y x Hy Hx) as [_ ->]. now rewrite cconj_conj.
Qed.
Lemma rot_bracket c q v t : length t = n -> opv n (G c) (moved nb 1 2 (c1q ck q) v) t =
  (moved nb 1 2 (c1q ck q) (opv n (G c) v) t + kap fsqrt c q * moved nb 1 2 (c1q ck (sh c q)) v t)%C.
Proof.
  intros Ht. destruct HR as (HO & HOk & _ & [HJ|HL]).
  - apply (dip_bracket fsqrt ck Hsq HT nb Hwf O HO HOk (M c) c (half_spin c) q); auto; apply HJ; cbn; auto.
  - apply (dip_bracket fsqrt ck Hsq HT nb Hwf O HO HOk (M c) c zero2 q); auto; apply m_both, HL; cbn; auto.
Qed.
(* moved is linear *)
Definition Dop (r : spinorb -> spinorb -> cx F) : op_t F := map (fun xy => (pidx nb (hop2 (fst xy) (snd xy)), r (fst xy) (snd xy))) (list_prod (shell 2) (shell 1)).
Lemma moved_opv r v t : length t = n -> moved nb 1 2 r v t = opv n (Dop r) v t.
Proof.
  intros Ht. rewrite opv_pvec; [| |exact Ht].
  - unfold Dop. symmetry. etransitivity; [apply csum_map|]. reflexivity.
  - unfold good_labels, Dop. apply Forall_map. apply Forall_forall. intros [x y] _. cbn [fst snd]. unfold hop2, pidx. cbn [map].
    apply Forall_cons; [right; reflexivity|]. apply Forall_cons; [left; reflexivity|constructor].
Qed.
Variable rs : option restrictions_t.
Hypothesis Hrs : wf_restr rs.
Hypothesis HK : forall c, keeps n rs (G c).
Definition cutr (v : config -> cx F) (t : config) : cx F := if okr rs t then v t else c0.
Lemma cutr_G c v t : length t = n -> opv n (G c) (cutr v) t = cutr (opv n (G c) v) t.
Proof.
  intros Ht. unfold cutr at 2. unfold opv.
  assert (E : forall s, In s (allcfg n) -> (opelem (G c) t s * cutr v s = if okr rs t then opelem (G c) t s * v s else c0)%C).
  { intros s Hs. apply allcfg_In in Hs. unfold cutr. destruct (ceqb_spec (opelem (G c) t s) c0) as [E|N]; [rewrite E; destruct (okr rs s), (okr rs t); ring|].
    pose proof (HK c t s Ht Hs N) as W. rewrite <- !okr_allowed in W by auto. destruct (okr rs s), (okr rs t); try ring; exfalso; [destruct W as [_ W]|destruct W as [W _]]; discriminate (W eq_refl). }
  rewrite (csum_ext _ _ _ E). destruct (okr rs t); auto. apply csum_zero. auto.
Qed.
Variables (es : list F) (psis : list (psi_t F)).
Hypothesis Hl : length psis = length es.
Hypothesis Hon : orthonormal_states n psis.
Hypothesis HM : forall c, multiplets n es psis (G c).
Notation K := (length es).
Notation lev := (fun i => nth i es 0%F).
Notation V j := (amp (nth j psis [])).
Lemma level_matrix c : exists m : nat -> nat -> cx F,
  (forall j i, (j < K)%nat -> (i < K)%nat -> lev i <> lev j -> m j i = c0) /\
  (forall j t, (j < K)%nat -> length t = n -> opv n (G c) (V j) t = lin K (m j) (fun i => V i) t) /\
  (forall j i, (j < K)%nat -> (i < K)%nat -> m j i = vdot n (V i) (opv n (G c) (V j))).
Proof.
  destruct (choose (fun j a => (forall i, (i < K)%nat -> lev i <> lev j -> a i = c0) /\ forall t, length t = n -> opv n (G c) (V j) t = lin K a (fun i => V i) t) (fun _ => c0) K) as [m Hm].
  { intros j Hj. destruct (HM c j Hj) as (a & A1 & A2). rewrite Hl in *. exists a. auto. }
  exists m. split; [intros; apply Hm; auto|]. split; [intros; apply Hm; auto|]. intros j i Hj Hi.
  rewrite (vdot_ext n _ (V i) _ (lin K (m j) (fun i => V i))) by (auto; apply Hm; auto). rewrite vdot_sum_r.
  rewrite (csum_ext _ (fun k => m j k * (if Nat.eqb k i then c1 else c0))%C).
  - symmetry. exact (L_Lanczos2.csum_mul_delta (fun _ => c0) (m j) i K Hi).
  - intros k Hk. apply in_seq in Hk. rewrite Hon by lia. now rewrite Nat.eqb_sym.
Qed.
Definition Y (q : Z) (j : nat) : config -> cx F := cutr (moved nb 1 2 (c1q ck q) (V j)).
Lemma rot_Y c q (m : nat -> cx F) j t : length t = n -> (forall t, length t = n -> opv n (G c) (V j) t = lin K m (fun i => V i) t) ->
  opv n (G c) (Y q j) t = (kap fsqrt c q * Y (sh c q) j t + lin K m (Y q) t)%C.
Proof.
  intros Ht Hm. unfold Y at 1. rewrite cutr_G by auto. unfold cutr. unfold lin. unfold Y, cutr. destruct (okr rs t).
  - rewrite rot_bracket by auto. rewrite (moved_opv _ (opv n (G c) (V j)) t) by auto.
    rewrite (opv_ext n (Dop (c1q ck q)) (opv n (G c) (V j)) (lin K m (fun i => V i)) t) by (intros; apply Hm; auto).
    unfold opv at 1. rewrite (lin_map n K (opelem (Dop (c1q ck q)))). unfold lin.
    rewrite (csum_ext _ (fun i => m i * moved nb 1 2 (c1q ck q) (V i) t)%C); [ring|]. intros i _. f_equal. symmetry. apply moved_opv. auto.
  - rewrite csum_zero by (intros; ring). ring.
Qed.
Variable h : config -> config -> cx F.
Hypothesis Hh : forall c, commutes n h (G c).
Variables z p : F -> cx F.
Hypothesis Inj : forall j, (j < K)%nat -> forall u, vsol n (z (lev j)) h u (fun _ => c0) -> forall t, length t = n -> u t = c0.
Lemma vdot_scale_l c (u w : config -> cx F) : vdot n (fun t => c * u t)%C w = (cconj c * vdot n u w)%C.
Proof. unfold vdot. rewrite <- csum_mul_l. apply csum_ext. intros t _. rewrite cconj_mul. ring. Qed.
Lemma vdot_scale_r c (u w : config -> cx F) : vdot n u (fun t => c * w t)%C = (c * vdot n u w)%C.
Proof. unfold vdot. rewrite <- csum_mul_l. apply csum_ext. intros t _. ring. Qed.
Lemma kap_conj c q : cconj (kap fsqrt c q) = kap fsqrt c q.
Proof. destruct c; cbn [kap]; apply cconj_real. Qed.
Definition TT q (X : nat -> config -> cx F) : cx F := csum (fun j => p (lev j) * vdot n (Y q j) (X j))%C (seq 0 K).
Lemma TT_rot c q q' X XE : (forall j, (j < K)%nat -> vsol n (z (lev j)) h (X j) (Y q' j)) -> (forall j, (j < K)%nat -> vsol n (z (lev j)) h (XE j) (Y (sh c q') j)) ->
  (kap fsqrt (cc c) q * TT (sh (cc c) q) X = kap fsqrt c q' * TT q XE)%C.
Proof.
  intros HX HXE. destruct (level_matrix c) as (m & L1 & L2 & L3). destruct (level_matrix (cc c)) as (m' & L1' & L2' & L3').
  assert (A : forall j i, (j < K)%nat -> (i < K)%nat -> m' j i = cconj (m i j)).
  { intros j i Hj Hi. rewrite L3, L3' by auto. rewrite vdot_swap, G_adjoint. auto. }
  pose proof (trace_rotation n K lev z p h (G c) (G (cc c)) m (Y q) (fun j t => kap fsqrt (cc c) q * Y (sh (cc c) q) j t)%C (Y q') (fun j t => kap fsqrt c q' * Y (sh c q') j t)%C X (fun j t => kap fsqrt c q' * XE j t)%C
    (G_adjoint c) (Hh c) L1) as T. unfold TT. rewrite <- !csum_mul_l.
  rewrite (csum_ext _ (fun j => p (lev j) * vdot n (fun t => kap fsqrt (cc c) q * Y (sh (cc c) q) j t) (X j))%C) by (intros j _; rewrite vdot_scale_l, kap_conj; ring).
  rewrite (csum_ext (fun j => kap fsqrt c q' * _)%C (fun j => p (lev j) * vdot n (Y q j) (fun t => kap fsqrt c q' * XE j t))%C) by (intros j _; rewrite vdot_scale_r; ring).
  apply T; auto.
  - intros j t Hj Ht. apply rot_Y; auto.
  - intros j t Hj Ht. rewrite (rot_Y (cc c) q (m' j)) by auto. f_equal. unfold lin. apply csum_ext. intros i Hi. apply in_seq in Hi. rewrite A by lia. auto.
  - intros j Hj t Ht. rewrite <- (HXE j Hj t Ht). rewrite (csum_ext _ (fun s => kap fsqrt c q' * (h t s * XE j s))%C) by (intros; ring). rewrite csum_mul_l. ring.
Qed.
Lemma kap_nz : creal (up_coef fsqrt 1 0) <> (c0 : cx F) /\ creal (up_coef fsqrt 1 (-1)) <> (c0 : cx F) .
Proof.
  assert (E : up_coef fsqrt 1 0 <> 0%F); [|split; apply L_Operators7.creal_neq0; auto]. intros E. pose proof (up_sq fsqrt Hsq 1 0 ltac:(lia)) as S.
  rewrite E in S. change (fofZ (1 * (1 + 1) - 0 * (0 + 1))) with (@fofZ F 2) in S. apply (two_nz (F := F)). rewrite <- fofZ_2, <- S. ring.
Qed.
Lemma iso_mean : exists T : cx F, forall (am az ap : cx F) Ye g, 
  (forall j t, (j < K)%nat -> length t = n -> Ye j t = am * Y (-1) j t + az * Y 0 j t + ap * Y 1 j t)%C ->
  (forall j, (j < K)%nat -> gv n (z (lev j)) h (Ye j) (g j)) ->
  (csum (fun j => p (lev j) * g j) (seq 0 K) = (cconj am * am + cconj az * az + cconj ap * ap) * T)%C.
Proof.
  assert (Ex : forall q, exists X, forall j, (j < K)%nat -> vsol n (z (lev j)) h (X j) (Y q j)).
  { intros q. apply (choose (fun j x => vsol n (z (nth j es 0%F)) h x (Y q j)) (fun _ => c0)). intros j Hj. apply solvable. apply Inj. auto. }
  destruct (Ex (-1)) as [Xm Hm], (Ex 0) as [Xz Hz], (Ex 1) as [Xp Hp]. exists (TT 0 Xz).
  destruct kap_nz as [N0 N1].
  assert (nz : forall (k x y : cx F), k <> c0 -> (k * x = k * y)%C -> x = y).
  { intros k x y Hk E. transitivity (k * x / k)%C; [field; auto|]. rewrite E. field. auto. }
  (* diagonal *)
  assert (D1 : TT 1 Xp = TT 0 Xz).
  { pose proof (TT_rot Cplus 1 0 Xz Xp Hz Hp) as E. cbn [cc kap sh] in E. rewrite down_up in E. symmetry. exact (nz _ _ _ N0 E). }
  assert (D2 : TT (-1) Xm = TT 0 Xz).
  { pose proof (TT_rot Cplus 0 (-1) Xm Xz Hm Hz) as E. cbn [cc kap sh] in E. rewrite down_up in E. exact (nz _ _ _ N1 E). }
  (* off the diagonal *)
  assert (Of : forall q q' X, (q' - q = 1 \/ q' - q = -1 \/ q' - q = 2 \/ q' - q = -2) -> (forall j, (j < K)%nat -> vsol n (z (lev j)) h (X j) (Y q' j)) -> TT q X = c0).
  { intros q q' X Hq HX. pose proof (TT_rot Cz q q' X X HX HX) as E. cbn [cc kap sh] in E.
    assert (E0 : (cofZ (q' - q) * TT q X = c0)%C) by (unfold Z.sub; rewrite cofZ_add, cofZ_opp; transitivity (cofZ q' * TT q X - cofZ q * TT q X)%C; [ring|]; rewrite E; ring).
    apply (nz (cofZ (q' - q))); [|rewrite E0; ring]. intros C. apply (f_equal re) in C. cbn in C. revert C. 
    assert (P : forall k, 0 < k -> @fofZ F k <> 0%F) by (intros k Hk C; pose proof (L_Ham.fofZ_pos (F := F) k Hk) as W; rewrite C, flt_irrefl in W; discriminate W).
    assert (Q : forall k, 0 < k -> @fofZ F (- k) <> 0%F) by (intros k Hk C; apply (P k Hk); rewrite fofZ_opp in C; transitivity (- - @fofZ F k)%F; [ring|]; rewrite C; ring).
    destruct Hq as [-> | [-> | [-> | ->]]]; [apply P|apply (Q 1)|apply P|apply (Q 2)]; lia. }
  intros am az ap Ye g HY Hg.
  set (Xe := fun j t => (am * Xm j t + az * Xz j t + ap * Xp j t)%C).
  assert (E : forall j, (j < K)%nat -> g j = vdot n (fun t => am * Y (-1) j t + az * Y 0 j t + ap * Y 1 j t)%C (Xe j)).
  { intros j Hj. destruct (Hg j Hj) as (x & _ & <- & U). apply vdot_ext; [auto|]. intros t Ht. symmetry. apply U; auto. intros s Hs. rewrite HY by auto.
    rewrite <- (Hm j Hj s Hs), <- (Hz j Hj s Hs), <- (Hp j Hj s Hs). unfold Xe.
    rewrite (csum_ext _ (fun w => am * (h s w * Xm j w) + az * (h s w * Xz j w) + ap * (h s w * Xp j w))%C) by (intros; ring). rewrite !csum_add, !csum_mul_l. ring. }
  rewrite (csum_ext _ (fun j => cconj am * am * (p (lev j) * vdot n (Y (-1) j) (Xm j)) + cconj am * az * (p (lev j) * vdot n (Y (-1) j) (Xz j)) + cconj am * ap * (p (lev j) * vdot n (Y (-1) j) (Xp j))
    + (cconj az * am * (p (lev j) * vdot n (Y 0 j) (Xm j)) + cconj az * az * (p (lev j) * vdot n (Y 0 j) (Xz j)) + cconj az * ap * (p (lev j) * vdot n (Y 0 j) (Xp j)))
    + (cconj ap * am * (p (lev j) * vdot n (Y 1 j) (Xm j)) + cconj ap * az * (p (lev j) * vdot n (Y 1 j) (Xz j)) + cconj ap * ap * (p (lev j) * vdot n (Y 1 j) (Xp j))))%C).
  - rewrite !csum_add, !csum_mul_l. change (csum (fun x => p (nth x es 0%F) * vdot n (Y (-1) x) (Xm x))%C (seq 0 K)) with (TT (-1) Xm). change (csum (fun x => p (nth x es 0%F) * vdot n (Y (-1) x) (Xz x))%C (seq 0 K)) with (TT (-1) Xz). change (csum (fun x => p (nth x es 0%F) * vdot n (Y (-1) x) (Xp x))%C (seq 0 K)) with (TT (-1) Xp). change (csum (fun x => p (nth x es 0%F) * vdot n (Y (0) x) (Xm x))%C (seq 0 K)) with (TT (0) Xm). change (csum (fun x => p (nth x es 0%F) * vdot n (Y (0) x) (Xz x))%C (seq 0 K)) with (TT (0) Xz). change (csum (fun x => p (nth x es 0%F) * vdot n (Y (0) x) (Xp x))%C (seq 0 K)) with (TT (0) Xp). change (csum (fun x => p (nth x es 0%F) * vdot n (Y (1) x) (Xm x))%C (seq 0 K)) with (TT (1) Xm). change (csum (fun x => p (nth x es 0%F) * vdot n (Y (1) x) (Xz x))%C (seq 0 K)) with (TT (1) Xz). change (csum (fun x => p (nth x es 0%F) * vdot n (Y (1) x) (Xp x))%C (seq 0 K)) with (TT (1) Xp). 
    rewrite D1, D2, (Of (-1) 0 Xz), (Of (-1) 1 Xp), (Of 0 (-1) Xm), (Of 0 1 Xp), (Of 1 (-1) Xm), (Of 1 0 Xz) by (auto; lia). ring.
  - intros j Hj. apply in_seq in Hj. rewrite E by lia. unfold Xe. rewrite !vdot_add_l, !vdot_add_r, !vdot_scale_l, !vdot_scale_r. ring.
Qed.
End Mean.
