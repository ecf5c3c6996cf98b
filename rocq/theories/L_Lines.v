(* The 2p core level with spin-orbit coupling. *)
From Coq Require Import Permutation Ring Field.
From Verif Require Import M_Prelude M_Scalar M_PSR M_State M_Basis M_Expect M_Operators S_Fock S_Ops S_Ham S_Green S_Basis S_Expect S_Operators S_Thermal S_Unitary S_Unitary2 S_Free S_Lines.
From Verif Require Import L_Scalar L_Sum L_Dict L_Ops L_Index L_Expect L_Green L_Green3 L_Operators L_Operators2 L_Operators3 L_Operators4 L_Operators5 L_Unitary L_Unitary4 L_Free3.
Local Open Scope Z_scope.

Section S.
Context {F : ofield}.
Add Field Ff : (f_field F).
Add Field Cf : (@c_field F).
Variable fsqrt : F -> F.
Hypothesis SL : sqrt_laws fsqrt.
(* l.s of a p shell *)
Definition ls_real (s m s' m' : Z) : F :=
  if (s =? s') && (m =? m') then (if s =? 1 then fofZ m / fofZ 2 else - fofZ m / fofZ 2)%F
  else if ((s =? 1) && (s' =? 0) && (m' =? m + 1)) || ((s =? 0) && (s' =? 1) && (m =? m' + 1)) then (fsqrt (fofZ 2) / fofZ 2)%F else 0%F.
Definition six_orbs : list (Z * Z) := [(0, -1); (0, 0); (0, 1); (1, -1); (1, 0); (1, 1)].
Lemma six_In s m : (s = 0 \/ s = 1) -> -1 <= m <= 1 -> In (s, m) six_orbs.
Proof. intros Hs Hm. assert (m = -1 \/ m = 0 \/ m = 1) by lia. unfold six_orbs. destruct Hs as [-> | ->], H as [-> | [-> | ->]]; cbn; tauto. Qed.
Lemma ls_table s m s' m' : In (s, m) six_orbs -> In (s', m') six_orbs -> LS fsqrt 1 (SImp 1 s m) (SImp 1 s' m') = creal (ls_real s m s' m').
Proof.
  intros H H'. pose proof (@two_nz F) as T. 
  assert (B : (s = 0 \/ s = 1) /\ -1 <= m <= 1) by (unfold six_orbs in H; cbn in H; repeat (destruct H as [H|H]; [injection H as <- <-; lia|]); destruct H).
  assert (B' : (s' = 0 \/ s' = 1) /\ -1 <= m' <= 1) by (unfold six_orbs in H'; cbn in H'; repeat (destruct H' as [H'|H']; [injection H' as <- <-; lia|]); destruct H').
  unfold LS. rewrite mm_LzSz, mm_LpSm, mm_LmSp by (tauto || lia).
  unfold six_orbs in H, H'. cbn in H, H'. unfold ls_real.
  repeat (destruct H as [H|H]; [injection H as <- <-; repeat (destruct H' as [H'|H']; [injection H' as <- <-; cbn [Z.eqb Z.add Z.sub Z.opp Z.mul Pos.eqb Pos.add Pos.mul Pos.succ Z.pos_sub Z.pred_double Pos.pred_double andb orb when]; apply cx_ext; cbn; rewrite ?fofZ_2; unfold fhalf; field; auto|]); destruct H'|]); destruct H.
Qed.
Lemma f2_nz : @fofZ F 2 <> 0%F. Proof. rewrite fofZ_2. apply two_nz. Qed.
Lemma fofZ_3 : @fofZ F 3 = (1 + 1 + 1)%F.
Proof. change 3 with (2 + 1). rewrite fofZ_add, fofZ_2. f_equal. Qed.
Lemma three_nz : (1 + 1 + 1 : F)%F <> 0%F.
Proof. intros E. pose proof (flt_0_1 (F := F)) as H. pose proof (fadd_pos 1 1 H (flt_le _ _ H))%F as G. pose proof (fadd_pos _ _ G (flt_le _ _ H))%F as G3. rewrite E, flt_irrefl in G3. discriminate. Qed.
Lemma sqrt2 : (fsqrt (fofZ 2) * fsqrt (fofZ 2) = 1 + 1)%F.
Proof. rewrite <- fofZ_2. apply SL. rewrite fofZ_2. apply flt_le. apply fadd_pos; [apply flt_0_1|apply flt_le, flt_0_1]. Qed.
Definition same (s m s' m' : Z) : F := if (s =? s') && (m =? m') then 1%F else 0%F.
Lemma ls_square s m s' m' : In (s, m) six_orbs -> In (s', m') six_orbs ->
  (fsum (fun a => ls_real s m (fst a) (snd a) * ls_real (fst a) (snd a) s' m') six_orbs = same s m s' m' / fofZ 2 - ls_real s m s' m' / fofZ 2)%F.
Proof.
  intros H H'. pose proof (@two_nz F) as T. pose proof sqrt2 as Q. 
  unfold six_orbs in H, H'. cbn in H, H'. unfold ls_real, same, six_orbs. cbn [fsum fst snd]. generalize dependent (fsqrt (fofZ 2)). intros q Q.
  repeat (destruct H as [H|H]; [injection H as <- <-; repeat (destruct H' as [H'|H']; [injection H' as <- <-; cbn [Z.eqb Z.add Z.sub Z.opp Z.mul Pos.eqb Pos.add Pos.mul Pos.succ Z.pos_sub Z.pred_double Pos.pred_double andb orb]; rewrite ?fofZ_2; cbn; first [field; auto | field [Q]; auto]|]); destruct H'|]); destruct H.
Qed.
Local Open Scope cx_scope.
Definition po (a : Z * Z) : spinorb := SImp 1 (fst a) (snd a).
Lemma six_NoDup : NoDup six_orbs.
Proof. unfold six_orbs. repeat (constructor; [cbn; intuition congruence|]). constructor. Qed.
Lemma six_bounds a : In a six_orbs -> (fst a = 0 \/ fst a = 1)%Z /\ (-1 <= snd a <= 1)%Z.
Proof. intros H. unfold six_orbs in H. cbn in H. repeat (destruct H as [<-|H]; [cbn [fst snd]; lia|]). destruct H. Qed.
Lemma shell_po x : in_shell 1 x <-> exists a, In a six_orbs /\ x = po a.
Proof.
  split.
  - intros (s & m & -> & Hs & Hm). exists (s, m). split; [apply six_In; auto|reflexivity].
  - intros (a & Ha & ->). destruct (six_bounds a Ha). exists (fst a), (snd a). auto.
Qed.
Definition sm2 (a b : Z * Z) : cx F := creal (same (fst a) (snd a) (fst b) (snd b)).
Definition ls2 (a b : Z * Z) : cx F := creal (ls_real (fst a) (snd a) (fst b) (snd b)).
Lemma same_spec a b : sm2 a b = if eqb (po a) (po b) then c1 else c0.
Proof.
  unfold sm2, same. destruct (eqb_spec (po a) (po b)) as [E|E].
  - unfold po in E. injection E as -> ->. rewrite !Z.eqb_refl. reflexivity.
  - destruct (Z.eqb_spec (fst a) (fst b)) as [E1|], (Z.eqb_spec (snd a) (snd b)) as [E2|]; try reflexivity. elim E. unfold po. congruence.
Qed.
Lemma sm_sum b (f : Z * Z -> cx F) : In b six_orbs -> csum (fun a => sm2 b a * f a) six_orbs = f b.
Proof.
  intros Hb. rewrite (csum_single _ _ b six_NoDup Hb).
  - unfold sm2, same. rewrite !Z.eqb_refl. cbn [andb]. change (creal 1%F) with (@c1 F). ring.
  - intros a _ N. unfold sm2, same. destruct (Z.eqb_spec (fst b) (fst a)) as [E1|], (Z.eqb_spec (snd b) (snd a)) as [E2|]; cbn [andb]; change (creal 0%F) with (@c0 F); try ring. elim N. destruct a, b. cbn in *. congruence.
Qed.
Lemma sm_sum_r b (f : Z * Z -> cx F) : In b six_orbs -> csum (fun a => f a * sm2 a b) six_orbs = f b.
Proof.
  intros Hb. rewrite <- (sm_sum b f Hb). apply csum_ext. intros a _. unfold sm2, same. rewrite (Z.eqb_sym (fst a)), (Z.eqb_sym (snd a)). ring.
Qed.
Lemma ls2_square b j : In b six_orbs -> In j six_orbs -> csum (fun a => ls2 b a * ls2 a j) six_orbs = (sm2 b j - ls2 b j) * creal (1 / fofZ 2)%F.
Proof.
  intros Hb Hj. rewrite (csum_ext _ (fun a => creal (ls_real (fst b) (snd b) (fst a) (snd a) * ls_real (fst a) (snd a) (fst j) (snd j))%F)) by (intros; unfold ls2; apply cx_ext; cbn; ring).
  rewrite csum_creal_fsum. rewrite (ls_square (fst b) (snd b) (fst j) (snd j)) by (destruct b, j; auto). unfold sm2, ls2. pose proof f2_nz. apply cx_ext; cbn [re im creal csub cmul]; field; auto.
Qed.
(* (w - xi l.s) (w + xi/2 + xi l.s) = (w - xi/2) (w + xi) *)
Lemma block (w : cx F) (xi : F) b j : In b six_orbs -> In j six_orbs ->
  csum (fun a => (w * sm2 b a - creal xi * ls2 b a) * ((w + creal xi * creal (1 / fofZ 2)%F) * sm2 a j + creal xi * ls2 a j)) six_orbs = (w - creal xi * creal (1 / fofZ 2)%F) * (w + creal xi) * sm2 b j.
Proof.
  intros Hb Hj. set (h := creal (1 / fofZ 2)%F). assert (Hh : h + h = c1).
  { unfold h. pose proof f2_nz as T. rewrite fofZ_2 in *. apply cx_ext; cbn [re im cadd creal c1]; field; auto. }
  transitivity (w * csum (fun a => sm2 b a * ((w + creal xi * h) * sm2 a j + creal xi * ls2 a j)) six_orbs - creal xi * (w + creal xi * h) * csum (fun a => ls2 b a * sm2 a j) six_orbs - creal xi * creal xi * csum (fun a => ls2 b a * ls2 a j) six_orbs).
  - rewrite <- !csum_mul_l, <- !csum_sub. apply csum_ext. intros a _. ring.
  - rewrite sm_sum, sm_sum_r, ls2_square by auto. fold h.
    transitivity ((w * w + w * creal xi * h - creal xi * creal xi * h) * sm2 b j + creal xi * creal xi * (h - h) * ls2 b j); [ring|].
    replace (h - h) with (@c0 F) by ring. transitivity ((w * w + w * creal xi * ((h + h) - h) - creal xi * creal xi * h) * sm2 b j); [ring|]. rewrite Hh. ring.
Qed.
(* the solution of (z - h) x = e_j is the column j of the inverse *)
Lemma column_unique n (h : nat -> nat -> cx F) z G (x : nat -> cx F) j : one_particle_green n h z G -> (j < n)%nat ->
  (forall k, (k < n)%nat -> csum (fun l => (z * kdelta k l - h k l) * x l) (seq 0 n) = kdelta k j) -> forall i, (i < n)%nat -> G i j = x i.
Proof.
  intros HG Hj Hx i Hi. assert (D1 : forall f : nat -> cx F, csum (fun k => f k * kdelta k j) (seq 0 n) = f j).
  { intros f. rewrite <- (csum_delta2 f n j Hj). apply csum_ext. intros k _. unfold kdelta. ring. }
  assert (D2 : forall f : nat -> cx F, csum (fun k => kdelta i k * f k) (seq 0 n) = f i).
  { intros f. rewrite <- (csum_delta2 f n i Hi). apply csum_ext. intros k _. unfold kdelta. rewrite Nat.eqb_sym. reflexivity. }
  rewrite <- (D1 (G i)). rewrite <- (D2 x).
  rewrite (csum_ext _ (fun k => csum (fun l => G i k * ((z * kdelta k l - h k l) * x l)) (seq 0 n))) by (intros k Hk; apply in_seq in Hk; rewrite csum_mul_l, Hx by lia; reflexivity).
  rewrite csum_swap. apply csum_ext. intros l Hl. apply in_seq in Hl. rewrite <- (proj2 (HG i l Hi ltac:(lia))). rewrite <- csum_mul_r. apply csum_ext. intros k _. ring.
Qed.
End S.
