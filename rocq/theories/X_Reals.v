(* The real numbers of the standard library as scalars, with the exponential function and the square
   root: shows that the laws assumed of np.exp and np.sqrt can be met. *)
From Coq Require Import Reals Lra Field.
From Verif Require Import M_Prelude M_Scalar S_Thermal S_Green.
Local Open Scope R_scope.

Definition rltb (x y : R) : bool := if Rlt_dec x y then true else false.
Lemma rltb_true x y : rltb x y = true <-> x < y.
Proof. unfold rltb. destruct (Rlt_dec x y); split; intros; auto; try discriminate; contradiction. Qed.
Lemma rltb_false x y : rltb x y = false <-> y <= x.
Proof. unfold rltb. destruct (Rlt_dec x y); split; intros; auto; try discriminate; lra. Qed.

Definition RF : ofield.
Proof.
  refine (mkOF R 0 1 Rplus Rmult Rminus Ropp Rdiv Rinv rltb Rfield _ _ _ _ _).
  - intros. apply rltb_false. lra.
  - intros x y z H1 H2. apply rltb_true in H1. apply rltb_true in H2. apply rltb_true. lra.
  - intros x y H1 H2. apply rltb_false in H1. apply rltb_false in H2. lra.
  - intros x y z H. apply rltb_true in H. apply rltb_true. lra.
  - intros x y H1 H2. apply rltb_true in H1. apply rltb_true in H2. apply rltb_true. apply Rmult_lt_0_compat; auto.
Defined.

Lemma exp_laws_R : @exp_laws RF exp.
Proof. split; [intros x; apply rltb_true, exp_pos|apply exp_plus]. Qed.

Lemma sqrt_laws_R : @sqrt_laws RF sqrt.
Proof. intros x H. apply rltb_false in H. split; [apply rltb_false, sqrt_pos|apply sqrt_sqrt; exact H]. Qed.
