(* The angles of getNIXSOperator over the real numbers. *)
From Coq Require Import Reals Lra Field.
From Verif Require Import M_Prelude M_Scalar M_Operators X_Reals.
Local Open Scope R_scope.

Section Q.
Variables q0 q1 q2 : R.
Hypothesis Hq : q0 <> 0 \/ q1 <> 0.
Let n := sqrt (q0 * q0 + q1 * q1 + q2 * q2).
Let rho := sqrt (q0 * q0 + q1 * q1).
Lemma rho2_pos : 0 < q0 * q0 + q1 * q1.
Proof. destruct Hq; nra. Qed.
Lemma rho_pos : 0 < rho.
Proof. apply sqrt_lt_R0, rho2_pos. Qed.
Lemma n_pos : 0 < n.
Proof. apply sqrt_lt_R0. pose proof rho2_pos. nra. Qed.
Lemma n_sq : n * n = q0 * q0 + q1 * q1 + q2 * q2.
Proof. apply sqrt_sqrt. pose proof rho2_pos. nra. Qed.
Lemma rho_sq : rho * rho = q0 * q0 + q1 * q1.
Proof. apply sqrt_sqrt. pose proof rho2_pos. lra. Qed.
Lemma ratio_bound x y : 0 < y -> x * x <= y * y -> -1 <= x / y <= 1.
Proof.
  intros Hy H. assert (-y <= x <= y) by nra. split.
  - apply Rmult_le_reg_r with y; auto. unfold Rdiv. rewrite Rmult_assoc, Rinv_l by lra. lra.
  - apply Rmult_le_reg_r with y; auto. unfold Rdiv. rewrite Rmult_assoc, Rinv_l by lra. lra.
Qed.
Lemma scale_sin x y : 0 < y -> x * x <= y * y -> y * sin (acos (x / y)) = sqrt (y * y - x * x).
Proof.
  intros Hy H. rewrite sin_acos by (apply ratio_bound; auto).
  transitivity (sqrt (y * y) * sqrt (1 - (x / y)²)); [rewrite sqrt_square by lra; auto|].
  rewrite <- sqrt_mult_alt by nra. f_equal. unfold Rsqr. field. lra.
Qed.
Lemma theta_eq : @nixs_theta RF sqrt acos q0 q1 q2 = acos (q2 / n).
Proof. reflexivity. Qed.
Lemma n_sin_theta : n * sin (acos (q2 / n)) = rho.
Proof.
  rewrite scale_sin; [|apply n_pos|rewrite n_sq; nra]. unfold rho. f_equal. rewrite n_sq. ring.
Qed.
Lemma phi_eq : @nixs_phi RF sqrt acos sin q0 q1 q2 = acos (q0 / rho).
Proof.
  unfold nixs_phi. rewrite theta_eq. change (@norm3 RF sqrt q0 q1 q2) with n.
  change (acos (q0 / (n * sin (acos (q2 / n)))) = acos (q0 / rho)). rewrite n_sin_theta. reflexivity.
Qed.
Lemma angles_abs (th := @nixs_theta RF sqrt acos q0 q1 q2) (ph := @nixs_phi RF sqrt acos sin q0 q1 q2) :
  n * sin th * cos ph = q0 /\ n * sin th * sin ph = Rabs q1 /\ n * cos th = q2.
Proof.
  unfold th, ph. rewrite theta_eq, phi_eq, n_sin_theta. pose proof rho_pos. pose proof n_pos.
  split; [|split].
  - rewrite cos_acos by (apply ratio_bound; auto; rewrite rho_sq; nra). field. lra.
  - rewrite scale_sin; auto; [|rewrite rho_sq; nra]. rewrite rho_sq. replace (q0 * q0 + q1 * q1 - q0 * q0) with (q1²) by (unfold Rsqr; ring). apply sqrt_Rsqr_abs.
  - rewrite cos_acos by (apply ratio_bound; auto; rewrite n_sq; nra). field. lra.
Qed.
End Q.
Lemma angles_wrong : exists q0 q1 q2 : R, (q0 <> 0 \/ q1 <> 0) /\
  let th := @nixs_theta RF sqrt acos q0 q1 q2 in let ph := @nixs_phi RF sqrt acos sin q0 q1 q2 in
  let n := sqrt (q0 * q0 + q1 * q1 + q2 * q2) in n * sin th * sin ph <> q1.
Proof.
  exists 1, (-1), 1. assert (H : 1 <> 0 \/ -1 <> 0) by lra. split; auto. cbv zeta.
  destruct (angles_abs 1 (-1) 1 H) as (_ & E & _). rewrite E. rewrite Rabs_left by lra. lra.
Qed.
