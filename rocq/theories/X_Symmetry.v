(* Data for the examples on rotations. *)
From Coq Require Import Reals Lra Field.
From Verif Require Import M_Prelude M_Scalar M_PSR M_State M_Basis M_Expect M_Operators S_Fock S_Ops S_Basis S_Expect S_Green S_Operators S_Symmetry.
From Verif Require Import L_Scalar L_Sum L_Dict L_Fock L_State L_Ops L_Index L_Expect L_Operators L_Operators4 L_Operators5 L_Symmetry L_Symmetry2 L_Symmetry3 L_Symmetry6 X_Reals X_Ops.
Local Open Scope Z_scope.

(* the orbitals of the shells 1 and 2, and a matrix that acts in each shell *)
Definition pd_orbs : list spinorb := shell 1 ++ shell 2.
Definition in_shells {F : ofield} (f : Z -> Z * Z -> Z * Z -> cx F) (x y : spinorb) : cx F :=
  match x, y with SImp l s m, SImp l' s' m' => if l =? l' then f l (s, m) (s', m') else c0 | _, _ => c0 end.
Lemma pd_orbs_NoDup : NoDup pd_orbs.
Proof.
  apply NoDup_app_intro; try apply shell_NoDup. intros x H1 H2. apply shell_In in H1, H2.
  destruct H1 as (? & ? & -> & _), H2 as (? & ? & E & _). discriminate.
Qed.
Lemma pd_orbs_ok n : Forall (coord_ok (pd_baths n)) pd_orbs.
Proof.
  apply Forall_forall. intros x Hx. apply in_app_or in Hx as [Hx|Hx]; apply shell_In in Hx; destruct Hx as (s & m & -> & Hs & Hm); cbn; auto.
Qed.
Lemma pd_acts {F : ofield} (f : Z -> Z * Z -> Z * Z -> cx F) l : In l [1; 2] -> acts_in pd_orbs (in_shells f) l (f l).
Proof.
  intros Hl. split.
  - intros x Hx. apply shell_In in Hx. destruct Hl as [<-|[<-|[]]]; apply in_or_app; auto.
  - intros x y Hx Hy H. destruct x as [l1 s m|], y as [l2 s' m'|]; auto. cbn [in_shells].
    destruct H as [(? & ? & E & _)|(? & ? & E & _)]; injection E as -> _ _.
    + rewrite Z.eqb_refl. rewrite (Z.eqb_sym l2 l). cbn [andb]. destruct (l =? l2); reflexivity.
    + rewrite Z.eqb_refl. destruct (Z.eqb_spec l1 l) as [->|]; reflexivity.
Qed.

(* The 2p Gaunt coefficients for k = 0 and k = 2 *)
Local Open Scope R_scope.
Definition sqrt2 := sqrt 2.
Definition sqrt3 := sqrt 3.
Definition c2p (m m' : Z) : R :=
  match m, m' with
  | 0%Z, 0%Z => 2 / 5
  | 1%Z, 1%Z => - 1 / 5 | (-1)%Z, (-1)%Z => - 1 / 5
  | 1%Z, 0%Z => sqrt3 / 5 | (-1)%Z, 0%Z => sqrt3 / 5
  | 0%Z, 1%Z => - sqrt3 / 5 | 0%Z, (-1)%Z => - sqrt3 / 5
  | 1%Z, (-1)%Z => - (sqrt2 * sqrt3) / 5 | (-1)%Z, 1%Z => - (sqrt2 * sqrt3) / 5
  | _, _ => 0
  end.
Definition ck_ex (k l m l' m' : Z) : R :=
  if (l =? l')%Z then
    if (k =? 0)%Z then (if (m =? m')%Z then 1 else 0) else if ((k =? 2)%Z && (l =? 1)%Z)%bool then c2p m m' else 0
  else 0.
Definition sgn (m : Z) : R := if Z.even m then 1 else - 1.
Definition gaunt_ex (l1 k l2 m1 q m2 : Z) : R :=
  if (q =? - m1 - m2)%Z then sgn m1 * ck_ex k l1 (- m1) l2 m2 / sqrt (4 * PI / IZR (2 * k + 1)) else 0.
Lemma RofZ z : (@fofZ RF z : R) = IZR z.
Proof.
  pattern z. apply Z.peano_ind.
  - reflexivity.
  - intros y E. unfold Z.succ. rewrite fofZ_add, E, plus_IZR. reflexivity.
  - intros y E. replace (Z.pred y) with (y + - (1))%Z by lia. rewrite fofZ_add, fofZ_opp, E, plus_IZR. change (@fofZ RF 1) with 1. reflexivity.
Qed.
Lemma Int_part_IZR z : Int_part (@fofZ RF z) = z.
Proof. rewrite RofZ. destruct (base_Int_part (IZR z)) as [H1 H2]. apply le_IZR in H1. assert (IZR z < IZR (Int_part (IZR z) + 1)) by (rewrite plus_IZR; lra). apply lt_IZR in H. lia. Qed.
Lemma sgn_sq m : sgn m * sgn m = 1.
Proof. unfold sgn. destruct (Z.even m); lra. Qed.
Lemma ck_gaunt k l m l' m' : (0 <= k)%Z -> (@gauntC RF sqrt PI gaunt_ex k l m l' m' : R) = ck_ex k l m l' m'.
Proof.
  intros Hk. unfold gauntC. rewrite !RofZ. change (@fdiv RF) with Rdiv. change (@fmul RF) with Rmult. unfold gaunt_ex.
  replace (m - m' =? - - m - m')%Z with true by (symmetry; apply Z.eqb_eq; lia). rewrite Z.opp_involutive.
  assert (P : 0 < sqrt (4 * PI / IZR (2 * k + 1))).
  { apply sqrt_lt_R0. apply Rdiv_lt_0_compat; [pose proof PI_RGT_0; lra|]. apply IZR_lt. lia. }
  assert (E : @minus1pow RF m = sgn m) by reflexivity. rewrite E. assert (Es : sgn (- m) = sgn m) by (unfold sgn; rewrite Z.even_opp; reflexivity). rewrite Es.
  transitivity (sgn m * sgn m * ck_ex k l m l' m'); [|rewrite sgn_sq; ring]. field. lra.
Qed.
Lemma c2p_opp m m' : c2p (- m) (- m') = c2p m m'.
Proof. destruct m as [|[]|[]], m' as [|[]|[]]; reflexivity. Qed.
Lemma c2p_swap m m' : sgn m * c2p m m' = sgn m' * c2p m' m.
Proof. destruct m as [|[]|[]], m' as [|[]|[]]; cbn [c2p]; unfold sgn; cbn [Z.even]; lra. Qed.
Lemma gaunt_ex_swap l1 l2 l3 m1 m2 m3 : gaunt_ex l1 l2 l3 m1 m2 m3 = gaunt_ex l3 l2 l1 m3 m2 m1.
Proof.
  unfold gaunt_ex. replace (- m3 - m1)%Z with (- m1 - m3)%Z by lia. destruct (m2 =? - m1 - m3)%Z; auto. f_equal.
  unfold ck_ex. rewrite (Z.eqb_sym l3 l1). destruct (Z.eqb_spec l1 l3) as [<-|]; [|ring]. destruct (l2 =? 0)%Z.
  - replace (- m3 =? m1)%Z with (- m1 =? m3)%Z by (destruct (Z.eqb_spec (- m1) m3), (Z.eqb_spec (- m3) m1); auto; lia).
    destruct (Z.eqb_spec (- m1) m3) as [<-|]; [|ring]. unfold sgn. rewrite Z.even_opp. reflexivity.
  - destruct ((l2 =? 2)%Z && (l1 =? 1)%Z)%bool; [|ring]. pose proof (c2p_swap m3 (- m1)) as E.
    replace (sgn (- m1)) with (sgn m1) in E by (unfold sgn; rewrite Z.even_opp; reflexivity). rewrite <- E. rewrite <- (c2p_opp (- m3) m1), Z.opp_involutive. reflexivity.
Qed.
Lemma gaunt_ex_neg l1 l2 l3 m1 m2 m3 : gaunt_ex l1 l2 l3 (- m1) (- m2) (- m3) = gaunt_ex l1 l2 l3 m1 m2 m3.
Proof.
  unfold gaunt_ex. replace (- m2 =? - - m1 - - m3)%Z with (m2 =? - m1 - m3)%Z by (destruct (Z.eqb_spec m2 (- m1 - m3)), (Z.eqb_spec (- m2) (- - m1 - - m3)); auto; lia).
  destruct (m2 =? - m1 - m3)%Z; auto. f_equal. unfold sgn at 1. rewrite Z.even_opp. fold (sgn m1). f_equal. unfold ck_ex. destruct (l1 =? l3)%Z; auto. destruct (l2 =? 0)%Z.
  - replace (- - m1 =? - m3)%Z with (- m1 =? m3)%Z by (destruct (Z.eqb_spec (- m1) m3), (Z.eqb_spec (- - m1) (- m3)); auto; lia). reflexivity.
  - destruct ((l2 =? 2)%Z && (l1 =? 1)%Z)%bool; auto. apply c2p_opp.
Qed.
(* products of the square roots *)
Lemma up_ex l m : (@up_coef RF sqrt l m : R) = sqrt (IZR (l * (l + 1) - m * (m + 1))).
Proof. unfold up_coef. rewrite RofZ. reflexivity. Qed.
Lemma down_ex l m : (@down_coef RF sqrt l m : R) = sqrt (IZR (l * (l + 1) - m * (m - 1))).
Proof. unfold down_coef. rewrite RofZ. reflexivity. Qed.
Lemma sqrt_6 : sqrt 6 = sqrt2 * sqrt3.
Proof. unfold sqrt2, sqrt3. rewrite <- sqrt_mult by lra. apply f_equal; lra. Qed.
Lemma sqrt_4 : sqrt 4 = 2.
Proof. replace 4 with (2 * 2) by lra. apply sqrt_square. lra. Qed.
Lemma tensor_ck_0 l : @tensor_law RF sqrt (fun k l m l' m' => ck_ex k l m l' m') 0 l l.
Proof.
  intros m m' Hm Hm'. rewrite !up_ex, !down_ex. change (@fsub RF) with Rminus. change (@fmul RF) with Rmult.
  unfold ck_ex. rewrite Z.eqb_refl. cbn [Z.eqb].
  split; match goal with |- ?a = ?b => change (@eq R a b) end.
  - destruct (Z.eqb_spec (m - 1) m') as [<-|N].
    + rewrite (proj2 (Z.eqb_eq m (m - 1 + 1))) by lia. rewrite (proj2 (Z.eqb_neq m (m - 1))) by lia. ring.
    + rewrite (proj2 (Z.eqb_neq m (m' + 1))) by lia. destruct (Z.eqb_spec m m') as [<-|]; [|ring].
      replace (0 * (0 + 1) - (m - m - 1) * (m - m - 1 + 1))%Z with 0%Z by ring. rewrite sqrt_0. ring.
  - destruct (Z.eqb_spec (m + 1) m') as [<-|N].
    + rewrite (proj2 (Z.eqb_eq m (m + 1 - 1))) by lia. rewrite (proj2 (Z.eqb_neq m (m + 1))) by lia. ring.
    + rewrite (proj2 (Z.eqb_neq m (m' - 1))) by lia. destruct (Z.eqb_spec m m') as [<-|]; [|ring].
      replace (0 * (0 + 1) - (m - m + 1) * (m - m + 1 - 1))%Z with 0%Z by ring. rewrite sqrt_0. ring.
Qed.
Lemma tensor_ck_2 : @tensor_law RF sqrt (fun k l m l' m' => ck_ex k l m l' m') 2 1 1.
Proof.
  assert (E2 : sqrt2 * sqrt2 = 2) by (apply sqrt_sqrt; lra). assert (E3 : sqrt3 * sqrt3 = 3) by (apply sqrt_sqrt; lra).
  intros m m' Hm Hm'. rewrite !up_ex, !down_ex. change (@fsub RF) with Rminus. change (@fmul RF) with Rmult.
  unfold ck_ex. cbn [Z.eqb Pos.eqb andb].
  match goal with |- ?a = ?b /\ ?c = ?d => change (@eq R a b /\ @eq R c d) end.
  assert (Cm : m = (-1)%Z \/ m = 0%Z \/ m = 1%Z) by lia. assert (Cm' : m' = (-1)%Z \/ m' = 0%Z \/ m' = 1%Z) by lia.
  destruct Cm as [-> |[-> | ->]], Cm' as [-> |[-> | ->]].
  all: cbv [Z.mul Z.add Z.sub Z.opp Z.pos_sub Pos.mul Pos.add Pos.succ Pos.pred_double Z.double Z.succ_double Z.pred_double c2p].
  all: rewrite ?sqrt_0, ?sqrt_6, ?sqrt_4; fold sqrt2.
  all: assert (E23 : sqrt2 * sqrt2 * sqrt3 = 2 * sqrt3) by (rewrite E2; ring); assert (E32 : sqrt2 * sqrt3 * sqrt3 = 3 * sqrt2) by (rewrite Rmult_assoc, E3; ring).
  all: split; lra.
Qed.
Lemma tensor_ex (R0 : list R) l l' : @tensor_laws RF sqrt (@gauntC RF sqrt PI gaunt_ex) R0 l l'.
Proof.
  intros k _ _ m m' Hm Hm'. rewrite !ck_gaunt by lia. 
  destruct (Z.eq_dec l l') as [<-|Hl].
  - destruct (Z.eq_dec (Z.of_nat k) 0) as [->|H0]; [apply (tensor_ck_0 l); auto|].
    destruct (Z.eq_dec (Z.of_nat k) 2) as [->|H2]; [destruct (Z.eq_dec l 1) as [->|H1]; [apply tensor_ck_2; auto|]|].
    + unfold ck_ex. rewrite !Z.eqb_refl, (proj2 (Z.eqb_neq l 1)) by auto. cbn [Z.eqb Pos.eqb andb].
      change (@fsub RF) with Rminus. change (@fmul RF) with Rmult. match goal with |- ?a = ?b /\ ?c = ?d => change (@eq R a b /\ @eq R c d) end. split; ring.
    + unfold ck_ex. rewrite !Z.eqb_refl, (proj2 (Z.eqb_neq (Z.of_nat k) 0)), (proj2 (Z.eqb_neq (Z.of_nat k) 2)) by auto. cbn [andb].
      change (@fsub RF) with Rminus. change (@fmul RF) with Rmult. match goal with |- ?a = ?b /\ ?c = ?d => change (@eq R a b /\ @eq R c d) end. split; ring.
  - unfold ck_ex. rewrite (proj2 (Z.eqb_neq l l')) by auto.
    change (@fsub RF) with Rminus. change (@fmul RF) with Rmult. match goal with |- ?a = ?b /\ ?c = ?d => change (@eq R a b /\ @eq R c d) end. split; ring.
Qed.
(* with all multipoles of the example different from zero *)
Lemma ck_ex_2p : (@gauntC RF sqrt PI gaunt_ex 2 1 1 1 0 : R) = sqrt 3 / 5 /\ (@gauntC RF sqrt PI gaunt_ex 0 2 1 2 1 : R) = 1.
Proof. rewrite !ck_gaunt by lia. split; reflexivity. Qed.
