(* Sum rules of x-ray absorption: the coefficients of 2p -> 3d and the three rules. *)
From Coq Require Import Ring Field.
From Verif Require Import M_Prelude M_Scalar M_PSR M_State M_Basis M_Expect M_Operators S_Fock S_Ops S_Basis S_Expect S_Green S_Operators S_Symmetry S_TimeReversal S_Dichroism S_Isotropic S_Sector S_SumRule.
From Verif Require Import L_Scalar L_Sum L_Dict L_Fock L_State L_Ops L_Index L_Expect L_Expect5 L_Operators L_Operators4 L_Operators7 L_Symmetry L_Symmetry3 L_Symmetry5 L_Dichroism L_Isotropic L_SumRule.
From Verif Require Import L_Cubic L_Operators2 L_Expect2.
From Verif Require L_Ham.
Local Open Scope Z_scope.

Section C.
Context {F : ofield}.
Add Field Ff : (f_field F).
Add Ring Cring : (@c_ring F).
Variable fsqrt : F -> F.
Hypothesis Hsq : sqrt_laws fsqrt.
Variable ck : Z -> Z -> Z -> Z -> Z -> F.
Hypothesis HT : tensor_law fsqrt ck 1 2 1.
Lemma fcancel k x y : 0 < k -> (@fofZ F k * x = fofZ k * y)%F -> x = y.
Proof.
  intros Hk E. assert (N : @fofZ F k <> 0%F) by (intros X; pose proof (L_Ham.fofZ_pos (F := F) k Hk) as P; rewrite X, flt_irrefl in P; discriminate P).
  transitivity (fofZ k * x / fofZ k)%F; [field; exact N|]. rewrite E. field. exact N.
Qed.
Notation c m m' := (ck 1 2 m 1 m').
Notation s := (up_coef fsqrt 1 0).
Notation g := (up_coef fsqrt 2 1).
Notation h := (up_coef fsqrt 2 0).
Notation A := (c 2 1).
Let s2 : (s * s = fofZ 2)%F := up_sq fsqrt Hsq 1 0 ltac:(lia).
Let g2 : (g * g = fofZ 4)%F := up_sq fsqrt Hsq 2 1 ltac:(lia).
Let h2 : (h * h = fofZ 6)%F := up_sq fsqrt Hsq 2 0 ltac:(lia).
Let sm : up_coef fsqrt 1 (-1) = s. Proof. reflexivity. Qed.
Let hm : up_coef fsqrt 2 (-1) = h. Proof. reflexivity. Qed.
Let gm : up_coef fsqrt 2 (-2) = g. Proof. reflexivity. Qed.
Let s1 : up_coef fsqrt 1 1 = 0%F := up_high fsqrt Hsq 1.
Let sl : up_coef fsqrt 1 (-2) = 0%F := up_low fsqrt Hsq 1.
Ltac law m m' := let K := fresh "K" in pose proof (proj1 (HT m m' ltac:(lia) ltac:(lia))) as K; cbn [Z.sub Z.add Z.opp Z.pos_sub Pos.add Pos.pred_double Pos.succ] in K; rewrite ?sm, ?hm, ?gm, ?s1, ?sl in K.
Lemma e1 : (g * c 1 1 = s * A)%F. Proof. law 2 1. rewrite <- K. ring. Qed.
Lemma e2 : (g * c 1 0 = s * A)%F. Proof. law 2 0. transitivity (g * c 1 0 - A * s + s * A)%F; [ring|]. rewrite K. ring. Qed.
Lemma e3 : (h * c 0 0 = s * (c 1 1 + c 1 0))%F. Proof. law 1 0. transitivity (h * c 0 0 - c 1 1 * s + s * c 1 1)%F; [ring|]. rewrite K. ring. Qed.
Lemma e4 : (h * c 0 (-1) = s * c 1 0)%F. Proof. law 1 (-1). transitivity (h * c 0 (-1) - c 1 0 * s + s * c 1 0)%F; [ring|]. rewrite K. ring. Qed.
Lemma e5 : (h * c (-1) (-1) = s * (c 0 0 + c 0 (-1)))%F. Proof. law 0 (-1). transitivity (h * c (-1) (-1) - c 0 0 * s + s * c 0 0)%F; [ring|]. rewrite K. ring. Qed.
Lemma e6 : (h * c 0 1 = s * c 1 1)%F. Proof. law 1 1. rewrite <- K. ring. Qed.
Lemma e7 : (h * c (-1) 0 = s * (c 0 0 + c 0 1))%F. Proof. law 0 0. transitivity (h * c (-1) 0 - c 0 1 * s + s * c 0 1)%F; [ring|]. rewrite K. ring. Qed.
Lemma e8 : (g * c (-2) (-1) = s * (c (-1) (-1) + c (-1) 0))%F. Proof. law (-1) (-1). transitivity (g * c (-2) (-1) - c (-1) 0 * s + s * c (-1) 0)%F; [ring|]. rewrite K. ring. Qed.
Let b : c 1 0 = c 1 1.
Proof. apply (fcancel 4); [lia|]. rewrite <- g2. transitivity (g * (g * c 1 0))%F; [ring|]. rewrite e2, <- e1. ring. Qed.
Let b2 : (fofZ 2 * (c 1 1 * c 1 1) = A * A)%F.
Proof.
  apply (fcancel 2); [lia|]. transitivity (fofZ 4 * (c 1 1 * c 1 1))%F; [change 4 with (2 * 2); rewrite fofZ_mul; ring|].
  rewrite <- g2, <- s2. transitivity ((g * c 1 1) * (g * c 1 1))%F; [ring|]. rewrite e1. ring.
Qed.
Let f : c 0 1 = c 0 (-1).
Proof. apply (fcancel 6); [lia|]. rewrite <- h2. transitivity (h * (h * c 0 1))%F; [ring|]. rewrite e6, <- b, <- e4. ring. Qed.
Let f2 : (fofZ 6 * (c 0 (-1) * c 0 (-1)) = A * A)%F.
Proof. rewrite <- b2, <- h2, <- s2. transitivity ((h * c 0 (-1)) * (h * c 0 (-1)))%F; [ring|]. rewrite e4, b. ring. Qed.
Let d2 : (fofZ 3 * (c 0 0 * c 0 0) = fofZ 2 * (A * A))%F.
Proof.
  apply (fcancel 2); [lia|]. transitivity (fofZ 6 * (c 0 0 * c 0 0))%F; [change 6 with (2 * 3); rewrite fofZ_mul; ring|].
  rewrite <- b2, <- h2. transitivity ((h * c 0 0) * (h * c 0 0))%F; [ring|]. rewrite e3, b. transitivity (s * s * (fofZ 2 * fofZ 2) * (c 1 1 * c 1 1))%F; [rewrite fofZ_2; ring|]. rewrite s2. ring.
Qed.
Let hd : (h * c 0 0 = fofZ 2 * (s * c 1 1))%F. Proof. rewrite e3, b, fofZ_2. ring. Qed.
Let e0 : c (-1) (-1) = c 1 1.
Proof.
  apply (fcancel 6); [lia|]. transitivity (h * (h * c (-1) (-1)))%F; [rewrite <- h2; ring|]. rewrite e5. transitivity (s * (h * c 0 0 + h * c 0 (-1)))%F; [ring|]. rewrite hd, e4, b.
  transitivity (s * s * (fofZ 2 + 1) * c 1 1)%F; [ring|]. rewrite s2. change 6 with (2 * (2 + 1)). rewrite fofZ_mul, fofZ_add. change (@fofZ F 1) with (1%F : F). ring.
Qed.
Let g0 : c (-1) 0 = c 1 1.
Proof.
  apply (fcancel 6); [lia|]. transitivity (h * (h * c (-1) 0))%F; [rewrite <- h2; ring|]. rewrite e7, f. transitivity (s * (h * c 0 0 + h * c 0 (-1)))%F; [ring|]. rewrite hd, e4, b.
  transitivity (s * s * (fofZ 2 + 1) * c 1 1)%F; [ring|]. rewrite s2. change 6 with (2 * (2 + 1)). rewrite fofZ_mul, fofZ_add. change (@fofZ F 1) with (1%F : F). ring.
Qed.
Let k2 : (c (-2) (-1) * c (-2) (-1) = A * A)%F.
Proof.
  apply (fcancel 4); [lia|]. rewrite <- g2 at 1. transitivity ((g * c (-2) (-1)) * (g * c (-2) (-1)))%F; [ring|]. rewrite e8, e0, g0, <- b2.
  transitivity (s * s * (fofZ 2 * fofZ 2) * (c 1 1 * c 1 1))%F; [rewrite fofZ_2; ring|]. rewrite s2. change 4 with (2 * 2). rewrite fofZ_mul. ring.
Qed.
(* squares of the coefficients, zero outside of the shell *)
Definition sq (q m : Z) : F := if (- 1 <=? m - q) && (m - q <=? 1) then (c m (m - q)%Z * c m (m - q)%Z)%F else 0%F.
Lemma six x y : (@fofZ F 6 * x = fofZ 6 * y)%F -> x = y. Proof. apply fcancel. lia. Qed.
Lemma sq_vals : (sq 1 2 = A * A /\ fofZ 2 * sq 1 1 = A * A /\ fofZ 6 * sq 1 0 = A * A /\ sq 1 (-1) = 0 /\ sq 1 (-2) = 0)%F /\
  (sq (-1) (-2) = A * A /\ fofZ 2 * sq (-1) (-1) = A * A /\ fofZ 6 * sq (-1) 0 = A * A /\ sq (-1) 1 = 0 /\ sq (-1) 2 = 0)%F /\
  (sq 0 (-2) = 0 /\ fofZ 2 * sq 0 (-1) = A * A /\ fofZ 3 * sq 0 0 = fofZ 2 * (A * A) /\ fofZ 2 * sq 0 1 = A * A /\ sq 0 2 = 0)%F.
Proof.
  unfold sq. cbn [Z.sub Z.add Z.opp Z.pos_sub Pos.add Pos.pred_double Pos.succ Z.leb Z.compare Pos.compare Pos.compare_cont CompOpp andb].
  repeat split; auto; try rewrite b; try rewrite e0; try rewrite g0; try rewrite f; auto.
Qed.
Lemma m_cases m : -2 <= m <= 2 -> m = -2 \/ m = -1 \/ m = 0 \/ m = 1 \/ m = 2. Proof. lia. Qed.
Lemma sq_sum m : -2 <= m <= 2 -> (sq (-1) m + sq 0 m + sq 1 m = A * A)%F.
Proof.
  intros Hm. destruct sq_vals as ((P1 & P2 & P3 & P4 & P5) & (Q1 & Q2 & Q3 & Q4 & Q5) & (R1 & R2 & R3 & R4 & R5)). destruct (m_cases m Hm) as [-> |[-> |[-> |[-> | ->]]]].
  - rewrite Q1, R1, P5. ring.
  - apply (fcancel 2); [lia|]. rewrite P4. transitivity (fofZ 2 * sq (-1) (-1) + fofZ 2 * sq 0 (-1))%F; [ring|]. rewrite Q2, R2, fofZ_2. ring.
  - apply six. transitivity (fofZ 6 * sq (-1) 0 + fofZ 2 * (fofZ 3 * sq 0 0) + fofZ 6 * sq 1 0)%F; [change 6 with (2 * 3); rewrite fofZ_mul; ring|]. rewrite Q3, R3, P3.
    change 6 with (2 * (2 + 1)). rewrite fofZ_mul, fofZ_add, fofZ_2. change (@fofZ F 1) with (1%F : F). ring.
  - apply (fcancel 2); [lia|]. rewrite Q4. transitivity (fofZ 2 * sq 1 1 + fofZ 2 * sq 0 1)%F; [ring|]. rewrite P2, R4, fofZ_2. ring.
  - rewrite Q5, R5, P1. ring.
Qed.
Lemma sq_diff m : -2 <= m <= 2 -> (fofZ 2 * (sq 1 m - sq (-1) m) = A * A * fofZ m)%F.
Proof.
  intros Hm. destruct sq_vals as ((P1 & P2 & P3 & P4 & P5) & (Q1 & Q2 & Q3 & Q4 & Q5) & _). destruct (m_cases m Hm) as [-> |[-> |[-> |[-> | ->]]]].
  - rewrite Q1, P5. change (-2) with (- (2)). rewrite fofZ_opp. ring.
  - rewrite P4. transitivity (- (fofZ 2 * sq (-1) (-1)))%F; [ring|]. rewrite Q2. change (-1) with (- (1)). rewrite fofZ_opp. change (@fofZ F 1) with (1%F : F). ring.
  - replace (sq 1 0) with (sq (-1) 0); [change (@fofZ F 0) with (0%F : F); ring|]. apply six. congruence.
  - rewrite Q4. transitivity (fofZ 2 * sq 1 1)%F; [ring|]. rewrite P2. change (@fofZ F 1) with (1%F : F). ring.
  - rewrite Q5, P1. ring.
Qed.
Lemma sq_lin m : -2 <= m <= 2 -> (fofZ 6 * sq 0 m = A * A * fofZ (2 * 2 - m * m))%F.
Proof.
  intros Hm. destruct sq_vals as (_ & _ & (R1 & R2 & R3 & R4 & R5)). destruct (m_cases m Hm) as [-> |[-> |[-> |[-> | ->]]]].
  - rewrite R1. change (@fofZ F (2 * 2 - -2 * -2)) with (0%F : F). ring.
  - change (2 * 2 - -1 * -1) with 3. change 6 with (2 * 3). rewrite fofZ_mul, <- R2. ring.
  - change (2 * 2 - 0 * 0) with (2 * 2). change 6 with (2 * 3). rewrite !fofZ_mul. transitivity (fofZ 2 * (fofZ 3 * sq 0 0))%F; [ring|]. rewrite R3. ring.
  - change (2 * 2 - 1 * 1) with 3. change 6 with (2 * 3). rewrite fofZ_mul, <- R4. ring.
  - rewrite R5. change (@fofZ F (2 * 2 - 2 * 2)) with (0%F : F). ring.
Qed.
(* the products of two rows *)
Lemma c1q_rows q x x' : (q = -1 \/ q = 0 \/ q = 1) -> In x (shell 2) -> In x' (shell 2) -> csum (fun y => cconj (c1q ck q x y) * c1q ck q x' y)%C (shell 1) =
  if eqb x x' then match x with SImp _ _ m => creal (sq q m) | _ => c0 end else c0.
Proof.
  intros Hq Hx Hx'. apply shell_In in Hx as (t & m & -> & Ht & Hm), Hx' as (t' & m' & -> & Ht' & Hm').
  destruct (eqb_spec (SImp 2 t m) (SImp 2 t' m')) as [E|N].
  - injection E as <- <-. unfold sq. destruct ((- 1 <=? m - q) && (m - q <=? 1)) eqn:B.
    + apply andb_prop in B as [B1 B2]. apply Z.leb_le in B1, B2. rewrite (csum_single _ (shell 1) (SImp 1 t (m - q))).
      * unfold c1q, when. rewrite Z.eqb_refl. replace (m - (m - q) =? q) with true by (symmetry; apply Z.eqb_eq; lia). cbn [andb]. rewrite cconj_real, creal_mul. reflexivity.
      * apply shell_NoDup.
      * apply shell_In. exists t, (m - q). split; [reflexivity|]. split; [auto|]. lia.
      * intros y Hy Ny. apply shell_In in Hy as (u & k & -> & Hu & Hk). unfold c1q, when. destruct (Z.eqb_spec t u) as [<-|]; cbn [andb]; [|ring].
        destruct (Z.eqb_spec (m - k) q) as [<-|]; [|ring]. exfalso. apply Ny. f_equal. lia.
    + apply csum_zero. intros y Hy. apply shell_In in Hy as (u & k & -> & Hu & Hk). unfold c1q, when. destruct (Z.eqb_spec (m - k) q) as [<-|]; [|rewrite andb_false_r; ring]. exfalso.
      apply andb_false_iff in B as [B|B]; apply Z.leb_gt in B; lia.
  - apply csum_zero. intros y Hy. apply shell_In in Hy as (u & k & -> & Hu & Hk). unfold c1q, when.
    destruct (Z.eqb_spec t u) as [<-|]; cbn [andb]; [|rewrite cconj_0; ring].
    destruct (Z.eqb_spec (m - k) q) as [<-|]; [|rewrite cconj_0; ring]. destruct (Z.eqb_spec t' t) as [->|]; cbn [andb]; [|ring]. destruct (Z.eqb_spec (m' - k) (m - k)); [|ring]. exfalso. apply N. f_equal. lia.
Qed.
End C.

Section R.
Context {F : ofield}.
Add Field Ff2 : (f_field F).
Add Ring Cring2 : (@c_ring F).
Add Field Cf2 : (@c_field F).
Variable fsqrt : F -> F.
Variable pi : F.
Variable gaunt : Z -> Z -> Z -> Z -> Z -> Z -> F.
Notation ck := (gauntC fsqrt pi gaunt).
Hypothesis Hsq : sqrt_laws fsqrt.
Hypothesis HT : tensor_law fsqrt ck 1 2 1.
Variable nb : nbaths_t.
Hypothesis Hw : wf_nbaths nb.
Hypothesis Hk : dkeys nb = [KInt 1; KInt 2].
Variable v : config -> cx F.
Hypothesis Hv : full_shell nb 1 v.
Notation n := (n_orb nb).
Notation A := (ck 1 2 2 1 1).
Let Ha : NoDup (angs nb).
Proof. unfold angs. rewrite Hk. cbn. constructor; [cbn; intros [|[]]; lia|]. constructor; [intros []|constructor]. Qed.
Let H1 : In 1 (angs nb). Proof. unfold angs. rewrite Hk. cbn. auto. Qed.
Let H2 : In 2 (angs nb). Proof. unfold angs. rewrite Hk. cbn. auto. Qed.
Let r2 : fsqrt (fofZ 2) <> 0%F := sqrt2_nz fsqrt Hsq.
Notation M q := (moved nb 1 2 (c1q ck q) v).
Notation rho := (rho1 nb v).
Lemma M_dot q : (q = -1 \/ q = 0 \/ q = 1) -> vdot n (M q) (M q) = csum (fun sm => creal (sq ck q (snd sm)) * (vdot n v v - rho (orb 2 sm) (orb 2 sm)))%C (sites 2).
Proof.
  intros Hq. rewrite (moved_diag nb Hw Ha 1 2 H1 H2 ltac:(lia) v Hv (c1q ck q) (fun x => match x with SImp _ _ m => creal (sq ck q m) | _ => c0 end)).
  - unfold shell. rewrite csum_map. reflexivity.
  - intros x x' Hx Hx'. apply c1q_rows; auto.
Qed.
Lemma cofZ_opp z : @cofZ F (- z) = (- cofZ z)%C.
Proof. unfold cofZ. rewrite fofZ_opp. unfold creal, copp. cbn [re im]. f_equal. ring. Qed.
Lemma creal_sub (x y : F) : creal (x - y)%F = (creal x - creal y)%C.
Proof. unfold creal, csub, cadd, copp. cbn [re im]. f_equal; ring. Qed.
Lemma sites2 (f : Z -> Z) : csum (fun sm => @cofZ F (f (snd sm))) (sites 2) = cofZ (2 * (f (-2) + f (-1) + f 0 + f 1 + f 2)).
Proof.
  replace (sites 2) with [(0, -2); (0, -1); (0, 0); (0, 1); (0, 2); (1, -2); (1, -1); (1, 0); (1, 1); (1, 2)] by reflexivity. cbn [csum snd].
  change (@c0 F) with (@cofZ F 0). rewrite <- !cofZ_add. f_equal. lia.
Qed.
Let w2 : cx F := creal (fsqrt (fofZ 2)).
Lemma w2_nz : w2 <> c0. Proof. apply creal_neq0. exact r2. Qed.
Lemma w2_sq : (w2 * w2 = c1 + c1)%C.
Proof. unfold w2. rewrite <- creal_mul. destruct (Hsq (fofZ 2)) as [_ ->]; [apply flt_le, L_Ham.fofZ_pos; lia|]. rewrite fofZ_2, creal_add. reflexivity. Qed.
Lemma moved_x t : (w2 * moved nb 1 2 (r_x fsqrt ck) v t = M (-1) t - M 1 t)%C.
Proof. unfold moved. rewrite <- csum_mul_l, <- csum_sub. apply csum_ext. intros xy _. unfold r_x. fold w2. field. exact w2_nz. Qed.
Lemma moved_y t : (w2 * moved nb 1 2 (r_y fsqrt ck) v t = cI * (M (-1) t + M 1 t))%C.
Proof. unfold moved. rewrite <- csum_mul_l, <- csum_add, <- csum_mul_l. apply csum_ext. intros xy _. unfold r_y. fold w2. field. exact w2_nz. Qed.
Lemma half (x y : cx F) : ((c1 + c1) * x = (c1 + c1) * y)%C -> x = y.
Proof. intros E. rewrite <- w2_sq in E. pose proof w2_nz as N. transitivity ((w2 * w2 * x) / (w2 * w2))%C; [field; exact N|]. rewrite E. field. exact N. Qed.
Notation X := (moved nb 1 2 (r_x fsqrt ck) v).
Notation Y := (moved nb 1 2 (r_y fsqrt ck) v).
Lemma w2_conj : cconj w2 = w2. Proof. apply cconj_real. Qed.
Lemma XY_dot : (vdot n X X + vdot n Y Y = vdot n (M (-1)) (M (-1)) + vdot n (M 1) (M 1))%C.
Proof.
  apply half. unfold vdot. rewrite <- !csum_add, <- !csum_mul_l. apply csum_ext. intros t _.
  transitivity (cconj (w2 * X t) * (w2 * X t) + cconj (w2 * Y t) * (w2 * Y t))%C.
  - rewrite !cconj_mul, w2_conj, <- w2_sq. ring.
  - rewrite moved_x, moved_y, cconj_sub, !cconj_mul, cconj_add, cI_conj.
    transitivity ((cconj (M (-1) t) - cconj (M 1 t)) * (M (-1) t - M 1 t) + (- (cI * cI)) * ((cconj (M (-1) t) + cconj (M 1 t)) * (M (-1) t + M 1 t)))%C; [ring|]. rewrite cI_sq. ring.
Qed.
(* the sum over three perpendicular polarisations *)
Lemma cof10 : csum (fun sm => creal (A * A)%F * (vdot n v v - rho (orb 2 sm) (orb 2 sm)))%C (sites 2) = (creal (A * A)%F * (cofZ 10 * vdot n v v - mean nb (N_terms 2) v))%C.
Proof.
  unfold N_terms. rewrite (mean_dterms nb Hw 2 H2 v (fun _ => c1)), csum_mul_l, csum_sub. f_equal. f_equal.
  - transitivity (csum (fun _ => vdot n v v * c1)%C (sites 2)); [apply csum_ext; intros; ring|]. rewrite csum_mul_l. transitivity (vdot n v v * cofZ 10)%C; [f_equal|ring].
    exact (sites2 (fun _ => 1)).
  - apply csum_ext. intros sm _. ring.
Qed.
Lemma rule_iso e De : triad e -> getDipoleOperators fsqrt pi gaunt nb e = Ok De ->
  (weight n (transition n (nth 0 De [])) v + weight n (transition n (nth 1 De [])) v + weight n (transition n (nth 2 De [])) v =
   creal (A * A)%F * (cofZ 10 * vdot n v v - mean nb (N_terms 2) v))%C.
Proof.
  intros He Ee. destruct (triad_ops fsqrt pi gaunt nb Hw r2 e De He Ee) as (_ & _ & _ & Te).
  assert (S0 : forall x : config -> cx F, vsol n c1 (fun _ _ => c0) x x).
  { intros x t _. rewrite csum_zero; [ring|]. intros; ring. }
  pose proof (iso_trace n c1 (fun _ _ => c0) X Y (moved nb 1 2 (r_z ck) v) X Y (moved nb 1 2 (r_z ck) v) e (fun i => opv n (nth i De []) v)
    (fun i => weight n (transition n (nth i De [])) v) He (S0 _) (S0 _) (S0 _)) as K.
  rewrite K.
  - rewrite XY_dot. change (moved nb 1 2 (r_z ck) v) with (M 0). rewrite !M_dot by auto. rewrite <- !csum_add, <- cof10. apply csum_ext. intros [t m] Hi. apply sites_In in Hi. cbn [snd].
    rewrite <- (sq_sum fsqrt Hsq ck HT m) by tauto. rewrite !creal_add. ring.
  - intros i Hi. split.
    + intros t Ht. apply dip_linear; auto; apply Te; auto.
    + exists (opv n (nth i De []) v). split; [apply S0|]. split; [reflexivity|]. intros x' Hx' t Ht. rewrite <- (Hx' t Ht). rewrite csum_zero; [ring|]. intros; ring.
Qed.
(* circular polarisations in the plane xy *)
Lemma rule_dichroism Dx Dy : getDipoleOperator fsqrt pi gaunt nb [1; 0; 0]%F = Ok Dx -> getDipoleOperator fsqrt pi gaunt nb [0; 1; 0]%F = Ok Dy ->
  (weight n (two_transitions n Dx Dy cI) v - weight n (two_transitions n Dx Dy (- cI)%C) v = - (creal (A * A)%F * mean nb (Lz_terms 2) v))%C.
Proof.
  intros Ex Ey.
  assert (P : forall c, weight n (two_transitions n Dx Dy c) v = vdot n (fun t => X t + c * Y t)%C (fun t => X t + c * Y t)%C).
  { intros c. apply vdot_ext; intros t Ht; unfold two_transitions; rewrite (dip_linear fsqrt pi gaunt nb Hw r2 1 2 [1; 0; 0]%F Dx v t Hk eq_refl Ex Ht), (dip_linear fsqrt pi gaunt nb Hw r2 1 2 [0; 1; 0]%F Dy v t Hk eq_refl Ey Ht);
      unfold comb; cbn [nth]; change (creal (1%F : F)) with (@c1 F); change (creal (0%F : F)) with (@c0 F); ring. }
  rewrite !P.
  assert (Q : forall c q, (c = cI /\ q = 1) \/ (c = - cI /\ q = -1)%C -> vdot n (fun t => X t + c * Y t)%C (fun t => X t + c * Y t)%C = ((c1 + c1) * vdot n (M q) (M q))%C).
  { intros c q Hc. apply half. unfold vdot. rewrite <- !csum_mul_l. apply csum_ext. intros t _.
    transitivity (cconj (w2 * X t + c * (w2 * Y t)) * (w2 * X t + c * (w2 * Y t)))%C.
    - rewrite !cconj_add, !cconj_mul, w2_conj, <- w2_sq. ring.
    - rewrite moved_x, moved_y. destruct Hc as [[-> ->]|[-> ->]].
      + transitivity (cconj (M (-1) t - M 1 t + (cI * cI) * (M (-1) t + M 1 t)) * (M (-1) t - M 1 t + (cI * cI) * (M (-1) t + M 1 t)))%C; [f_equal; [f_equal|]; ring|].
        rewrite cI_sq, !cconj_add, cconj_sub, cconj_mul, cconj_opp, cconj_1, cconj_add. ring.
      + transitivity (cconj (M (-1) t - M 1 t - (cI * cI) * (M (-1) t + M 1 t)) * (M (-1) t - M 1 t - (cI * cI) * (M (-1) t + M 1 t)))%C; [f_equal; [f_equal|]; ring|].
        rewrite cI_sq, !cconj_sub, cconj_mul, cconj_opp, cconj_1, cconj_add. ring. }
  rewrite (Q cI 1), (Q (- cI)%C (-1)) by auto. rewrite !M_dot by auto. unfold Lz_terms. rewrite (mean_dterms nb Hw 2 H2 v (fun sm => cofZ (snd sm))).
  rewrite <- !csum_mul_l, <- csum_sub.
  transitivity (csum (fun sm => creal (A * A)%F * (cofZ (snd sm) * vdot n v v) - creal (A * A)%F * (cofZ (snd sm) * rho (orb 2 sm) (orb 2 sm)))%C (sites 2)).
  - apply csum_ext. intros [t m] Hi. apply sites_In in Hi. cbn [snd]. assert (E := sq_diff fsqrt Hsq ck HT m ltac:(tauto)).
    apply (f_equal (@creal F)) in E. rewrite creal_mul in E at 1. rewrite fofZ_2, creal_add, creal_sub in E. rewrite creal_mul in E. change (creal (fofZ m)) with (@cofZ F m) in E. change (creal (1%F : F)) with (@c1 F) in E.
    transitivity ((c1 + c1) * (creal (sq ck 1 m) - creal (sq ck (-1) m)) * (vdot n v v - rho (orb 2 (t, m)) (orb 2 (t, m))))%C; [ring|]. rewrite E. ring.
  - rewrite csum_sub. assert (Z0 : csum (fun sm => creal (A * A)%F * (cofZ (snd sm) * vdot n v v))%C (sites 2) = c0).
    { rewrite csum_mul_l, csum_mul_r. assert (Zm : csum (fun sm => @cofZ F (snd sm)) (sites 2) = c0); [|rewrite Zm; ring].
      exact (sites2 (fun m => m)). }
    rewrite Z0. ring.
Qed.
(* linear polarisation along z *)
Lemma rule_linear Dz : getDipoleOperator fsqrt pi gaunt nb [0; 0; 1]%F = Ok Dz ->
  (cofZ 6 * weight n (transition n Dz) v = creal (A * A)%F * (cofZ 20 * vdot n v v - mean nb (Q_terms 2) v))%C.
Proof.
  intros Ez.
  assert (P : weight n (transition n Dz) v = vdot n (M 0) (M 0)).
  { apply vdot_ext; intros t Ht; unfold transition; rewrite (dip_linear fsqrt pi gaunt nb Hw r2 1 2 [0; 0; 1]%F Dz v t Hk eq_refl Ez Ht);
      unfold comb; cbn [nth]; change (creal (1%F : F)) with (@c1 F); change (creal (0%F : F)) with (@c0 F); change (moved nb 1 2 (r_z ck) v) with (M 0); ring. }
  rewrite P, M_dot by auto. unfold Q_terms. rewrite (mean_dterms nb Hw 2 H2 v (fun sm => cofZ (2 * 2 - snd sm * snd sm))).
  rewrite <- csum_mul_l.
  transitivity (csum (fun sm => creal (A * A)%F * (cofZ (2 * 2 - snd sm * snd sm) * vdot n v v) - creal (A * A)%F * (cofZ (2 * 2 - snd sm * snd sm) * rho (orb 2 sm) (orb 2 sm)))%C (sites 2)).
  - apply csum_ext. intros [t m] Hi. apply sites_In in Hi. cbn [snd]. assert (E := sq_lin fsqrt Hsq ck HT m ltac:(tauto)).
    apply (f_equal (@creal F)) in E. rewrite !creal_mul in E. rewrite creal_mul. change (creal (fofZ 6)) with (@cofZ F 6) in E. change (creal (fofZ (2 * 2 - m * m))) with (@cofZ F (2 * 2 - m * m)) in E.
    transitivity (cofZ 6 * creal (sq ck 0 m) * (vdot n v v - rho (orb 2 (t, m)) (orb 2 (t, m))))%C; [ring|]. rewrite E. ring.
  - rewrite csum_sub, !csum_mul_l, csum_mul_r. assert (Zm : csum (fun sm => @cofZ F (2 * 2 - snd sm * snd sm)) (sites 2) = cofZ 20); [|rewrite Zm; ring].
    exact (sites2 (fun m => 2 * 2 - m * m)).
Qed.
End R.
