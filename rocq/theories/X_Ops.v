(* Helpers for the examples of the operator properties. *)
From Coq Require Import QArith Qcanon.
From Verif Require Import M_Prelude M_Scalar M_PSR M_State M_Basis M_Expect M_Operators S_Basis L_Scalar L_Expect6 X_Util.
Local Open Scope Z_scope.

(* int() on rationals: truncation *)
Definition qint (x : QcF) : Z := Z.quot (Qnum (this x)) (Zpos (Qden (this x))).
Lemma qofZ_succ z : Q2Qc (inject_Z (z + 1)) = (Q2Qc (inject_Z z) + 1)%Qc.
Proof.
  apply Qc_is_canon. unfold Qcplus. cbn [this Q2Qc]. rewrite !Qred_correct. rewrite inject_Z_plus. reflexivity.
Qed.
Lemma qofZ z : @fofZ QcF z = Q2Qc (inject_Z z).
Proof.
  induction z using Z.peano_ind.
  - apply Qc_is_canon. reflexivity.
  - unfold Z.succ. rewrite qofZ_succ, fofZ_add, IHz. reflexivity.
  - replace (Z.pred z) with (z + - (1)) by lia. rewrite fofZ_add, fofZ_opp, IHz.
    pose proof (qofZ_succ (z + - (1))) as E. replace (z + - (1) + 1) with z in E by lia. rewrite E.
    change ((Q2Qc (inject_Z (z + - (1))) + 1 + - (1))%Qc = Q2Qc (inject_Z (z + - (1)))). ring.
Qed.
Lemma qint_ofZ z : qint (fofZ z) = z.
Proof.
  rewrite qofZ. unfold qint. cbn [this Q2Qc]. unfold inject_Z. rewrite Qred_identity by (apply Z.gcd_1_r).
  cbn [Qnum Qden]. apply Z.quot_1_r.
Qed.
(* coefficients with the two symmetries of the Gaunt coefficients *)
Definition toy_gaunt {F : ofield} (l1 l2 l3 m1 m2 m3 : Z) : F :=
  if m1 + m2 + m3 =? 0 then fofZ (1 + l2 + m2 * m2) else 0%F.
Lemma toy_swap {F : ofield} l1 l2 l3 m1 m2 m3 : @toy_gaunt F l1 l2 l3 m1 m2 m3 = toy_gaunt l3 l2 l1 m3 m2 m1.
Proof. unfold toy_gaunt. replace (m3 + m2 + m1) with (m1 + m2 + m3) by lia. reflexivity. Qed.
Lemma toy_neg {F : ofield} l1 l2 l3 m1 m2 m3 : @toy_gaunt F l1 l2 l3 (- m1) (- m2) (- m3) = toy_gaunt l1 l2 l3 m1 m2 m3.
Proof.
  unfold toy_gaunt. replace (- m2 * - m2) with (m2 * m2) by lia. replace (- m1 + - m2 + - m3 =? 0) with (m1 + m2 + m3 =? 0); auto.
  destruct (Z.eqb_spec (m1 + m2 + m3) 0), (Z.eqb_spec (- m1 + - m2 + - m3) 0); auto; lia.
Qed.
(* a 2p shell without bath and a 3d shell with n bath states *)
Definition pd_baths (n : Z) : nbaths_t := [(KInt 1, 0); (KInt 2, n)].
Lemma pd_wf n : 0 <= n -> wf_nbaths (pd_baths n).
Proof.
  intros Hn. split; [|split].
  - cbn. constructor; [|constructor; [|constructor]]; cbn; [|tauto]. intros [E|[]]. discriminate.
  - repeat constructor; lia.
  - repeat (apply Forall_cons || apply Forall_nil); cbn; lia.
Qed.
Definition res_op_val {K} `{EqB K} (r : res (dict K (cx QcF))) (p : K) (v : cx QcF) : bool :=
  match r with Ok op => match dget op p with Some w => ceqb w v | None => ceqb c0 v end | Err _ => false end.
