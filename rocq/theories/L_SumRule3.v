(* Sum rules of x-ray absorption: the states that the program computes. *)
From Coq Require Import Ring Field.
From Verif Require Import M_Prelude M_Scalar M_PSR M_State M_Basis M_Expect M_Operators S_Fock S_Ops S_Basis S_Expect S_Green S_Operators S_Symmetry S_TimeReversal S_Dichroism S_Isotropic S_Sector S_SumRule.
From Verif Require Import L_Scalar L_Sum L_Dict L_Fock L_State L_ApplyOp L_Ops L_Index L_Expect L_Expect7 L_Green5 L_Dichroism L_Isotropic L_SumRule L_SumRule2.
Local Open Scope Z_scope.

Section R.
Context {F : ofield}.
Add Field Ff : (f_field F).
Add Ring Cring : (@c_ring F).
Lemma sector_full nb N (v : config -> cx F) : sector nb N 6 v -> full_shell nb 1 v.
Proof. intros H t Ht E. apply (H t Ht E). Qed.
Lemma norm2_vdot n (psi : psi_t F) : valid_psi n psi -> creal (norm2 psi) = vdot n (amp psi) (amp psi).
Proof. intros H. rewrite norm2_inner by apply H. apply (vip_inner n); auto. Qed.
Lemma int_keys_pd nb l1 l2 : dkeys nb = [KInt l1; KInt l2] -> int_keys nb.
Proof. intros E. apply Forall_forall. intros kn Hi. apply (in_map fst) in Hi. change (In (fst kn) (dkeys nb)) in Hi. rewrite E in Hi. destruct Hi as [<-|[<-|[]]]; eauto. Qed.
Variable fsqrt : F -> F.
Variable pi : F.
Variable gaunt : Z -> Z -> Z -> Z -> Z -> Z -> F.
Notation ck := (gauntC fsqrt pi gaunt).
Hypothesis Hsq : sqrt_laws fsqrt.
Hypothesis HT : tensor_law fsqrt ck 1 2 1.
Variable nb : nbaths_t.
Hypothesis Hw : wf_nbaths nb.
Hypothesis Hk : dkeys nb = [KInt 1; KInt 2].
Notation n := (n_orb nb).
Notation A := (ck 1 2 2 1 1).
Variable swm : F.
Hypothesis Hs : (swm <= 0)%F.
Variable rs : option restrictions_t.
Hypothesis Hr : wf_restr rs.
Variable psi : psi_t F.
Hypothesis Hp : valid_psi n psi.
Hypothesis Hv : full_shell nb 1 (amp psi).
Let Hsh : has_shell nb 2.
Proof. split; auto. split; [exact (int_keys_pd nb 1 2 Hk)|unfold angs; rewrite Hk; cbn; auto]. Qed.
Let r2 : fsqrt (fofZ 2) <> 0%F := sqrt2_nz fsqrt Hsq.
Lemma image D : wf_op n D -> unrestricted n rs D psi ->
  exists p, applyOp (Z.of_nat n) D psi swm rs None = (None, Ok p) /\ valid_psi n p /\ forall t, length t = n -> amp p t = transition n D (amp psi) t.
Proof.
  intros HD HR. destruct (applyOp_amp n D psi swm rs HD Hp) as (p & E & Hv' & _ & HA). exists p. split; auto. split; auto.
  intros t Ht. rewrite HA, cut_nonpos by auto. change (op_vec n D psi t) with (opv n D (amp psi) t). unfold transition. destruct (okr rs t) eqn:O; [reflexivity|].
  destruct (ceqb_spec (opv n D (amp psi) t) c0) as [->|N]; [reflexivity|]. apply (okr_allowed rs t Hr) in HR; auto. congruence.
Qed.
Lemma states_iso e De : triad e -> getDipoleOperators fsqrt pi gaunt nb e = Ok De -> (forall i, (i < 3)%nat -> unrestricted n rs (nth i De []) psi) ->
  exists p Nd, (forall i, (i < 3)%nat -> applyOp (Z.of_nat n) (nth i De []) psi swm rs None = (None, Ok (p i))) /\ getTraceDensityMatrix nb psi 2 = Ok Nd /\
    (norm2 (p 0%nat) + norm2 (p 1%nat) + norm2 (p 2%nat) = A * A * (fofZ 10 * norm2 psi - Nd))%F.
Proof.
  intros He Ee HR. destruct (triad_ops fsqrt pi gaunt nb Hw r2 e De He Ee) as (L & W & _).
  assert (W' : forall i, (i < 3)%nat -> wf_op n (nth i De [])) by (intros i Hi; rewrite Forall_forall in W; apply W, nth_In; lia).
  destruct (image _ (W' 0%nat ltac:(lia)) (HR 0%nat ltac:(lia))) as (p0 & E0 & V0 & A0). destruct (image _ (W' 1%nat ltac:(lia)) (HR 1%nat ltac:(lia))) as (p1 & E1 & V1 & A1).
  destruct (image _ (W' 2%nat ltac:(lia)) (HR 2%nat ltac:(lia))) as (p2 & E2 & V2 & A2).
  destruct (trace_agree nb psi 2 Hsh Hp) as (Nd & EN & HN & _).
  exists (fun i => nth i [p0; p1; p2] []), Nd. split; [|split; [exact EN|]].
  - intros i Hi. destruct i as [|[|[|]]]; cbn [nth]; auto; lia.
  - cbn [nth]. apply creal_inj. rewrite !creal_add, !creal_mul, creal_sub, creal_mul. rewrite !(norm2_vdot n) by auto. rewrite HN.
    rewrite (vdot_ext n (amp p0) (transition n (nth 0 De []) (amp psi)) (amp p0) (transition n (nth 0 De []) (amp psi))) by auto.
    rewrite (vdot_ext n (amp p1) (transition n (nth 1 De []) (amp psi)) (amp p1) (transition n (nth 1 De []) (amp psi))) by auto.
    rewrite (vdot_ext n (amp p2) (transition n (nth 2 De []) (amp psi)) (amp p2) (transition n (nth 2 De []) (amp psi))) by auto.
    pose proof (rule_iso fsqrt pi gaunt Hsq HT nb Hw Hk (amp psi) Hv e De He Ee) as K. unfold weight in K. rewrite K, creal_mul. reflexivity.
Qed.
Lemma states_dichroism Dx Dy : getDipoleOperator fsqrt pi gaunt nb [1; 0; 0]%F = Ok Dx -> getDipoleOperator fsqrt pi gaunt nb [0; 1; 0]%F = Ok Dy ->
  unrestricted n rs Dx psi -> unrestricted n rs Dy psi ->
  exists px py Lz, applyOp (Z.of_nat n) Dx psi swm rs None = (None, Ok px) /\ applyOp (Z.of_nat n) Dy psi swm rs None = (None, Ok py) /\ getLz3d nb psi = Ok Lz /\
    (norm2 (add px py cI) - norm2 (add px py (- cI)%C) = - (A * A * Lz))%F.
Proof.
  intros Ex Ey Rx Ry. destruct (image Dx (dip_wf fsqrt pi gaunt nb Hw r2 [1; 0; 0]%F Dx eq_refl Ex) Rx) as (px & E0 & V0 & A0). destruct (image Dy (dip_wf fsqrt pi gaunt nb Hw r2 [0; 1; 0]%F Dy eq_refl Ey) Ry) as (py & E1 & V1 & A1).
  destruct (Lz_agree nb psi Hsh Hp) as (Lz & psi' & EL & _ & [V' HL] & HI). exists px, py, Lz. split; auto. split; auto. split; auto.
  apply creal_inj. rewrite creal_sub, L_Operators7.creal_opp, !creal_mul, <- HI. rewrite !(norm2_vdot n) by (apply valid_add; auto).
  assert (S : forall c, vdot n (amp (add px py c)) (amp (add px py c)) = weight n (two_transitions n Dx Dy c) (amp psi)).
  { intros c. apply vdot_ext; intros t Ht; unfold two_transitions; rewrite (amp_add n px py c t V1), A0, A1 by auto; reflexivity. }
  rewrite !S, (rule_dichroism fsqrt pi gaunt Hsq HT nb Hw Hk (amp psi) Hv Dx Dy Ex Ey). f_equal. rewrite creal_mul. f_equal. unfold mean.
  rewrite (vip_inner n) by auto. symmetry. apply vdot_ext; auto.
Qed.
End R.
