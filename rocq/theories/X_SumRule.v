(* Data for the examples on sum rules: the coefficients C^1 of 2p -> 3d. *)
From Coq Require Import Reals Lra Field.
From Verif Require Import M_Prelude M_Scalar M_PSR M_State M_Basis M_Expect M_Operators S_Fock S_Basis S_Expect S_Green S_Operators S_Symmetry.
From Verif Require Import L_Scalar X_Reals X_Symmetry.
Local Open Scope R_scope.

(* sqrt 15 <2 m| C^1 |1 m'> *)
Definition c12 (m m' : Z) : R :=
  match m, m' with
  | 2%Z, 1%Z => sqrt2 * sqrt3 | (-2)%Z, (-1)%Z => sqrt2 * sqrt3
  | 1%Z, 0%Z => sqrt3 | 1%Z, 1%Z => sqrt3 | (-1)%Z, 0%Z => sqrt3 | (-1)%Z, (-1)%Z => sqrt3
  | 0%Z, 1%Z => 1 | 0%Z, (-1)%Z => 1 | 0%Z, 0%Z => 2
  | _, _ => 0
  end.
Definition ck_pd (k l m l' m' : Z) : R := if ((k =? 1) && (l =? 2) && (l' =? 1))%Z%bool then / sqrt 15 * c12 m m' else 0.
Definition gaunt_pd (l1 k l2 m1 q m2 : Z) : R :=
  if (q =? - m1 - m2)%Z then sgn m1 * ck_pd k l1 (- m1) l2 m2 / sqrt (4 * PI / IZR (2 * k + 1)) else 0.
Lemma ck_gaunt_pd k l m l' m' : (0 <= k)%Z -> (@gauntC RF sqrt PI gaunt_pd k l m l' m' : R) = ck_pd k l m l' m'.
Proof.
  intros Hk. unfold gauntC. rewrite !RofZ. change (@fdiv RF) with Rdiv. change (@fmul RF) with Rmult. unfold gaunt_pd.
  replace (m - m' =? - - m - m')%Z with true by (symmetry; apply Z.eqb_eq; lia). rewrite Z.opp_involutive.
  assert (P : 0 < sqrt (4 * PI / IZR (2 * k + 1))).
  { apply sqrt_lt_R0. apply Rdiv_lt_0_compat; [pose proof PI_RGT_0; lra|]. apply IZR_lt. lia. }
  assert (E : @minus1pow RF m = sgn m) by reflexivity. rewrite E. assert (Es : sgn (- m) = sgn m) by (unfold sgn; rewrite Z.even_opp; reflexivity). rewrite Es.
  transitivity (sgn m * sgn m * ck_pd k l m l' m'); [|rewrite sgn_sq; ring]. field. lra.
Qed.
Lemma tensor_c12 : @tensor_law RF sqrt (fun _ _ m _ m' => c12 m m') 1 2 1.
Proof.
  assert (E2 : sqrt2 * sqrt2 = 2) by (apply sqrt_sqrt; lra). assert (E3 : sqrt3 * sqrt3 = 3) by (apply sqrt_sqrt; lra).
  intros m m' Hm Hm'. rewrite !up_ex, !down_ex. change (@fsub RF) with Rminus. change (@fmul RF) with Rmult.
  match goal with |- ?a = ?b /\ ?c = ?d => change (@eq R a b /\ @eq R c d) end.
  assert (Cm : m = (-2)%Z \/ m = (-1)%Z \/ m = 0%Z \/ m = 1%Z \/ m = 2%Z) by lia. assert (Cm' : m' = (-1)%Z \/ m' = 0%Z \/ m' = 1%Z) by lia.
  destruct Cm as [-> |[-> |[-> |[-> | ->]]]], Cm' as [-> |[-> | ->]].
  all: cbv [Z.mul Z.add Z.sub Z.opp Z.pos_sub Pos.mul Pos.add Pos.succ Pos.pred_double Z.double Z.succ_double Z.pred_double c12].
  all: rewrite ?sqrt_0, ?sqrt_6, ?sqrt_4; fold sqrt2.
  all: assert (E23 : sqrt2 * sqrt2 * sqrt3 = 2 * sqrt3) by (rewrite E2; ring); assert (E32 : sqrt2 * sqrt3 * sqrt3 = 3 * sqrt2) by (rewrite Rmult_assoc, E3; ring);
       assert (E33 : sqrt3 * sqrt2 * sqrt3 = 3 * sqrt2) by (rewrite (Rmult_comm sqrt3), Rmult_assoc, E3; ring); assert (EC : sqrt3 * sqrt2 = sqrt2 * sqrt3) by ring.
  all: split; lra.
Qed.
Lemma tensor_pd : @tensor_law RF sqrt (@gauntC RF sqrt PI gaunt_pd) 1 2 1.
Proof.
  intros m m' Hm Hm'. rewrite !ck_gaunt_pd by lia. unfold ck_pd. cbn [Z.eqb Pos.eqb andb]. destruct (tensor_c12 m m' Hm Hm') as [U D].
  change (@fsub RF) with Rminus in *. change (@fmul RF) with Rmult in *. 
  match goal with |- ?a = ?b /\ ?c = ?d => change (@eq R a b /\ @eq R c d) end.
  match type of U with ?a = ?b => change (@eq R a b) in U end. match type of D with ?a = ?b => change (@eq R a b) in D end.
  split.
  - transitivity (/ sqrt 15 * (@up_coef RF sqrt 2 (m - 1) * c12 (m - 1) m' - c12 m (m' + 1) * @up_coef RF sqrt 1 m')); [ring|]. rewrite U. ring.
  - transitivity (/ sqrt 15 * (@down_coef RF sqrt 2 (m + 1) * c12 (m + 1) m' - c12 m (m' - 1) * @down_coef RF sqrt 1 m')); [ring|]. rewrite D. ring.
Qed.
Lemma A_pd : (@gauntC RF sqrt PI gaunt_pd 1 2 2 1 1 * @gauntC RF sqrt PI gaunt_pd 1 2 2 1 1 = 2 / 5)%R.
Proof.
  rewrite !ck_gaunt_pd by lia. unfold ck_pd. cbn [Z.eqb Pos.eqb andb c12].
  assert (E2 : sqrt2 * sqrt2 = 2) by (apply sqrt_sqrt; lra). assert (E3 : sqrt3 * sqrt3 = 3) by (apply sqrt_sqrt; lra).
  assert (P : 0 < sqrt 15) by (apply sqrt_lt_R0; lra). assert (E15 : sqrt 15 * sqrt 15 = 15) by (apply sqrt_sqrt; lra).
  transitivity ((sqrt2 * sqrt2) * (sqrt3 * sqrt3) / (sqrt 15 * sqrt 15)); [field; lra|]. rewrite E2, E3, E15. field.
Qed.
