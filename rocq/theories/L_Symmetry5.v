(* Orbital rotations: rows and columns of L, invariance of the Slater integrals, L.S and J. *)
From Coq Require Import Ring Field.
From Verif Require Import M_Prelude M_Scalar M_PSR M_State M_Basis M_Expect M_Operators S_Fock S_Ops S_Basis S_Expect S_Green S_Operators S_Symmetry.
From Verif Require Import L_Scalar L_Sum L_Dict L_Fock L_State L_Ops L_Index L_Expect L_Expect2 L_Expect3 L_Expect4 L_Expect5 L_Lanczos L_Operators L_Operators2 L_Operators3 L_Operators4 L_Operators5 L_Symmetry L_Symmetry2 L_Symmetry3 L_Symmetry4.
Local Open Scope Z_scope.

Section A.
Context {F : ofield}.
Add Field Ff : (f_field F).
Add Ring Cring : (@c_ring F).
Add Field Cf : (@c_field F).
Variable fsqrt : F -> F.
Hypothesis Hsq : sqrt_laws fsqrt.
Lemma sqrt0 : fsqrt 0%F = 0%F.
Proof.
  destruct (Hsq 0%F) as [_ E]; [apply fle_refl|]. destruct (feqb_spec (fsqrt 0%F) 0%F) as [|N]; auto.
  exfalso. apply N. transitivity (fsqrt 0%F * fsqrt 0%F / fsqrt 0%F)%F; [field; auto|]. rewrite E. field. auto.
Qed.
Lemma up_low l : up_coef fsqrt l (- l - 1) = 0%F.
Proof. unfold up_coef. replace (l * (l + 1) - (- l - 1) * (- l - 1 + 1)) with 0 by ring. apply sqrt0. Qed.
Lemma up_high l : up_coef fsqrt l l = 0%F.
Proof. unfold up_coef. replace (l * (l + 1) - l * (l + 1)) with 0 by ring. apply sqrt0. Qed.
Lemma down_up l m : down_coef fsqrt l m = up_coef fsqrt l (m - 1).
Proof. unfold down_coef, up_coef. do 2 f_equal. ring. Qed.
Lemma up_sq l m : - l <= m <= l -> (up_coef fsqrt l m * up_coef fsqrt l m)%F = fofZ (l * (l + 1) - m * (m + 1)).
Proof. intros H. apply Hsq. apply (fofZ_nonneg nil). replace (l * (l + 1) - m * (m + 1)) with ((l - m) * (l + m + 1)) by ring. apply Z.mul_nonneg_nonneg; lia. Qed.
Lemma up_sq' l m : - l <= m <= l -> (up_coef fsqrt l (m - 1) * up_coef fsqrt l (m - 1))%F = fofZ (l * (l + 1) - m * (m - 1)).
Proof. intros H. unfold up_coef. replace (m - 1 + 1) with m by ring. replace ((m - 1) * m) with (m * (m - 1)) by ring. apply Hsq. apply (fofZ_nonneg nil). replace (l * (l + 1) - m * (m - 1)) with ((l + m) * (l + 1 - m)) by ring. apply Z.mul_nonneg_nonneg; lia. Qed.

Definition row (l : Z) (c : component) (m : Z) (g : Z -> cx F) : cx F :=
  match c with
  | Cz => cofZ m * g m
  | Cplus => creal (up_coef fsqrt l (m - 1)) * g (m - 1)%Z
  | Cminus => creal (up_coef fsqrt l m) * g (m + 1)%Z
  end%C.
Definition col (l : Z) (c : component) (m : Z) (g : Z -> cx F) : cx F :=
  match c with
  | Cz => g m * cofZ m
  | Cplus => g (m + 1)%Z * creal (up_coef fsqrt l m)
  | Cminus => g (m - 1)%Z * creal (up_coef fsqrt l (m - 1))
  end%C.
Lemma c0_creal : creal 0%F = (c0 : cx F).
Proof. reflexivity. Qed.
Lemma pick l m0 (g : Z -> cx F) (h : Z -> bool) (c : F) :
  (forall m', h m' = true <-> m' = m0) -> (~ (- l <= m0 <= l) -> c = 0%F) ->
  csum (fun m' => if h m' then creal c * g m' else c0)%C (mr l) = (creal c * g m0)%C.
Proof.
  intros H Hc. destruct (Z_le_dec (- l) m0) as [H1|H1]; [destruct (Z_le_dec m0 l) as [H2|H2]|].
  - apply (csum_at l m0 (fun m' => creal c * g m')%C h); auto.
  - rewrite (csum_none l m0 (fun m' => creal c * g m')%C h); auto; try lia. rewrite Hc by lia. rewrite c0_creal. ring.
  - rewrite (csum_none l m0 (fun m' => creal c * g m')%C h); auto; try lia. rewrite Hc by lia. rewrite c0_creal. ring.
Qed.
Lemma ang_row l c m g : - l <= m <= l -> csum (fun m' => ang fsqrt l c m m' * g m')%C (mr l) = row l c m g.
Proof.
  intros Hm. destruct c; cbn [ang row].
  - rewrite (csum_ext _ (fun m' => if m =? m' then cofZ m * g m' else c0)%C) by (intros m' _; cbn beta; destruct (m =? m'); ring).
    apply (csum_at l m (fun m' => cofZ m * g m')%C (fun m' => m =? m')); auto. intros m'. rewrite Z.eqb_eq. split; auto.
  - rewrite (csum_ext _ (fun m' => if m =? m' + 1 then creal (up_coef fsqrt l (m - 1)) * g m' else c0)%C).
    + apply (pick l (m - 1) g (fun m' => m =? m' + 1)); [intros m'; rewrite Z.eqb_eq; lia|]. intros N. replace (m - 1) with (- l - 1) by lia. apply up_low.
    + intros m' _. cbn beta. destruct (Z.eqb_spec m (m' + 1)) as [E|]; [|ring]. replace (m - 1) with m' by lia. reflexivity.
  - rewrite (csum_ext _ (fun m' => if m =? m' - 1 then creal (up_coef fsqrt l m) * g m' else c0)%C).
    + apply (pick l (m + 1) g (fun m' => m =? m' - 1)); [intros m'; rewrite Z.eqb_eq; lia|]. intros N. replace m with l by lia. apply up_high.
    + intros m' _. cbn beta. destruct (Z.eqb_spec m (m' - 1)) as [E|]; [|ring]. rewrite down_up. replace (m' - 1) with m by lia. reflexivity.
Qed.
Lemma ang_col l c m g : - l <= m <= l -> csum (fun m' => g m' * ang fsqrt l c m' m)%C (mr l) = col l c m g.
Proof.
  intros Hm. destruct c; cbn [ang col].
  - rewrite (csum_ext _ (fun m' => if m' =? m then g m' * cofZ m else c0)%C).
    + apply (csum_at l m (fun m' => g m' * cofZ m)%C (fun m' => m' =? m)); auto. intros m'. rewrite Z.eqb_eq. split; auto.
    + intros m' _. cbn beta. destruct (Z.eqb_spec m' m) as [->|]; ring.
  - rewrite (csum_ext _ (fun m' => if m' =? m + 1 then creal (up_coef fsqrt l m) * g m' else c0)%C).
    + rewrite (pick l (m + 1) g (fun m' => m' =? m + 1)); [ring|intros m'; rewrite Z.eqb_eq; lia|]. intros N. replace m with l by lia. apply up_high.
    + intros m' _. cbn beta. destruct (Z.eqb_spec m' (m + 1)) as [E|]; ring.
  - rewrite (csum_ext _ (fun m' => if m' =? m - 1 then creal (up_coef fsqrt l (m - 1)) * g m' else c0)%C).
    + rewrite (pick l (m - 1) g (fun m' => m' =? m - 1)); [ring|intros m'; rewrite Z.eqb_eq; lia|]. intros N. replace (m - 1) with (- l - 1) by lia. apply up_low.
    + intros m' _. cbn beta. rewrite down_up. destruct (Z.eqb_spec m' (m - 1)) as [E|]; ring.
Qed.

(* ---- invariance of the Slater integrals ---- *)
Lemma creal_sum2 (a b c d : F) : (a + b = c + d)%F -> (creal a + creal b = creal c + creal d)%C.
Proof. intros E. rewrite <- !creal_add. congruence. Qed.
Variable ck : Z -> Z -> Z -> Z -> Z -> F.
Definition Us (R : list F) (l1 l2 l3 l4 m1 m2 m3 m4 : Z) : cx F := creal (slater ck R (l1, m1) (l2, m2) (l3, m3) (l4, m4) / fofZ 2)%F.
Definition sk (R : list F) (l1 l2 l3 l4 m1 m2 m3 m4 : Z) : F :=
  fsum (fun k => nth k R 0 * (ck (Z.of_nat k) l1 m1 l4 m4 * ck (Z.of_nat k) l3 m3 l2 m2))%F (seq 0 (length R)).
Lemma sk_eq R l1 l2 l3 l4 m1 m2 m3 m4 : m1 + m2 = m3 + m4 -> slater ck R (l1, m1) (l2, m2) (l3, m3) (l4, m4) = sk R l1 l2 l3 l4 m1 m2 m3 m4.
Proof. intros E. unfold slater. cbn [fst snd]. apply Z.eqb_eq in E. rewrite E. reflexivity. Qed.
Lemma sk_zero R l1 l2 l3 l4 m1 m2 m3 m4 : m1 + m2 <> m3 + m4 -> slater ck R (l1, m1) (l2, m2) (l3, m3) (l4, m4) = 0%F.
Proof. intros E. unfold slater. cbn [fst snd]. apply Z.eqb_neq in E. rewrite E. reflexivity. Qed.
Lemma fsum_lin2 {A} (f1 f2 g1 g2 : A -> F) (a b c d : F) l : (forall k, In k l -> (a * f1 k + b * f2 k = c * g1 k + d * g2 k)%F) ->
  (a * fsum f1 l + b * fsum f2 l = c * fsum g1 l + d * fsum g2 l)%F.
Proof.
  induction l as [|k l IH]; intros H; [simpl; ring|]. simpl. pose proof (H k (or_introl eq_refl)) as E.
  assert (IH' : (a * fsum f1 l + b * fsum f2 l = c * fsum g1 l + d * fsum g2 l)%F) by (apply IH; intros; apply H; right; auto).
  transitivity ((a * f1 k + b * f2 k) + (a * fsum f1 l + b * fsum f2 l))%F; [ring|]. rewrite E, IH'. ring.
Qed.
Lemma slater_L R l1 l2 l3 l4 c : tensor_laws fsqrt ck R l1 l4 -> tensor_laws fsqrt ck R l3 l2 ->
  orbital_inv (Us R l1 l2 l3 l4) l1 l2 l3 l4 (ang fsqrt l1 c) (ang fsqrt l2 c) (ang fsqrt l3 c) (ang fsqrt l4 c).
Proof.
  intros T1 T2 m1 m2 m3 m4 H1 H2 H3 H4. rewrite !ang_row, !ang_col by auto.
  assert (H2z : (fofZ 2 : F) <> 0%F) by (rewrite fofZ_2; apply two_nz).
  assert (D : forall a b c d x y z t : F, (a * x + b * y = c * z + d * t)%F ->
    (creal a * creal (x / fofZ 2) + creal b * creal (y / fofZ 2) = creal (z / fofZ 2) * creal c + creal (t / fofZ 2) * creal d)%C).
  { intros a b c' d x y z t E. rewrite <- !creal_mul. apply creal_sum2.
    transitivity ((a * x + b * y) / fofZ 2)%F; [field; auto|]. rewrite E. field. auto. }
  destruct c; cbn [row col]; unfold Us, cofZ.
  - apply D. destruct (Z.eq_dec (m1 + m2) (m3 + m4)) as [E|E]; [|rewrite sk_zero by auto; ring].
    transitivity (fofZ (m1 + m2) * slater ck R (l1, m1) (l2, m2) (l3, m3) (l4, m4))%F; [rewrite fofZ_add; ring|]. rewrite E, fofZ_add. ring.
  - apply D. destruct (Z.eq_dec (m1 + m2) (m3 + m4 + 1)) as [E|E]; [|rewrite !sk_zero by lia; ring].
    rewrite !sk_eq by lia. unfold sk. apply fsum_lin2. intros k Hk. apply in_seq in Hk.
    destruct (feqb_spec (nth k R 0%F) 0%F) as [->|HR]; [ring|].
    destruct (T1 k ltac:(lia) HR m1 m4 H1 H4) as [A _]. destruct (T2 k ltac:(lia) HR m3 m2 H3 H2) as [_ B].
    rewrite !down_up in B. replace (m3 + 1 - 1) with m3 in B by ring. replace (m3 - m2 + 1 - 1) with (m1 - m4 - 1) in B by lia.
    set (q := up_coef fsqrt (Z.of_nat k) (m1 - m4 - 1)) in *.
    set (c1' := ck (Z.of_nat k) l1 m1 l4 m4) in *. set (c2' := ck (Z.of_nat k) l3 m3 l2 m2) in *.
    transitivity (nth k R 0 * (c2' * (up_coef fsqrt l1 (m1 - 1) * ck (Z.of_nat k) l1 (m1 - 1)%Z l4 m4 - ck (Z.of_nat k) l1 m1 l4 (m4 + 1)%Z * up_coef fsqrt l4 m4)
      - c1' * (up_coef fsqrt l3 m3 * ck (Z.of_nat k) l3 (m3 + 1)%Z l2 m2 - ck (Z.of_nat k) l3 m3 l2 (m2 - 1)%Z * up_coef fsqrt l2 (m2 - 1)%Z))
      + (up_coef fsqrt l3 m3 * (nth k R 0 * (c1' * ck (Z.of_nat k) l3 (m3 + 1)%Z l2 m2)) + up_coef fsqrt l4 m4 * (nth k R 0 * (ck (Z.of_nat k) l1 m1 l4 (m4 + 1)%Z * c2'))))%F; [ring|].
    rewrite A, B. ring.
  - apply D. destruct (Z.eq_dec (m1 + m2) (m3 + m4 - 1)) as [E|E]; [|rewrite !sk_zero by lia; ring].
    rewrite !sk_eq by lia. unfold sk. apply fsum_lin2. intros k Hk. apply in_seq in Hk.
    destruct (feqb_spec (nth k R 0%F) 0%F) as [->|HR]; [ring|].
    destruct (T1 k ltac:(lia) HR m1 m4 H1 H4) as [_ A]. destruct (T2 k ltac:(lia) HR m3 m2 H3 H2) as [B _].
    rewrite !down_up in A. replace (m1 + 1 - 1) with m1 in A by ring. replace (m1 - m4 + 1 - 1) with (m3 - m2 - 1) in A by lia.
    set (q := up_coef fsqrt (Z.of_nat k) (m3 - m2 - 1)) in *.
    set (c1' := ck (Z.of_nat k) l1 m1 l4 m4) in *. set (c2' := ck (Z.of_nat k) l3 m3 l2 m2) in *.
    transitivity (nth k R 0 * (c2' * (up_coef fsqrt l1 m1 * ck (Z.of_nat k) l1 (m1 + 1)%Z l4 m4 - ck (Z.of_nat k) l1 m1 l4 (m4 - 1)%Z * up_coef fsqrt l4 (m4 - 1)%Z)
      - c1' * (up_coef fsqrt l3 (m3 - 1) * ck (Z.of_nat k) l3 (m3 - 1)%Z l2 m2 - ck (Z.of_nat k) l3 m3 l2 (m2 + 1)%Z * up_coef fsqrt l2 m2))
      + (up_coef fsqrt l3 (m3 - 1) * (nth k R 0 * (c1' * ck (Z.of_nat k) l3 (m3 - 1)%Z l2 m2)) + up_coef fsqrt l4 (m4 - 1) * (nth k R 0 * (ck (Z.of_nat k) l1 m1 l4 (m4 - 1)%Z * c2'))))%F; [ring|].
    rewrite A, B. ring.
Qed.
Lemma slater_0 R l1 l2 l3 l4 : orbital_inv (Us R l1 l2 l3 l4) l1 l2 l3 l4 (fun _ _ => c0) (fun _ _ => c0) (fun _ _ => c0) (fun _ _ => c0).
Proof.
  intros m1 m2 m3 m4 _ _ _ _. f_equal; rewrite !csum_zero; auto; intros; ring.
Qed.

(* ---- L.S and J ---- *)
Definition lc (l : Z) (c d : component) (m m' : Z) : cx F := csum (fun w => ang fsqrt l c m w * ang fsqrt l d w m')%C (mr l).
Definition sc (c d : component) (s s' : Z) : cx F := (half_spin c s 0 * half_spin d 0 s' + half_spin c s 1 * half_spin d 1 s')%C.
Definition bracket (f : component -> cx F) (c d : component) : cx F :=
  match c, d with
  | Cz, Cplus => f Cplus | Cplus, Cz => - f Cplus
  | Cz, Cminus => - f Cminus | Cminus, Cz => f Cminus
  | Cplus, Cminus => cofZ 2 * f Cz | Cminus, Cplus => - (cofZ 2 * f Cz)
  | _, _ => c0
  end%C.
Lemma s_bracket c d s s' : (s = 0 \/ s = 1) -> (s' = 0 \/ s' = 1) -> (sc c d s s' = sc d c s s' + bracket (fun e => half_spin e s s') c d)%C.
Proof.
  intros [-> | ->] [-> | ->]; destruct c, d; unfold sc; cbn [half_spin bracket Z.eqb Pos.eqb andb]; try ring.
  all: rewrite ?cofZ_2, ?half_c; field; apply two_neq.
Qed.
Lemma l_bracket l c d m m' : - l <= m <= l -> - l <= m' <= l -> (lc l c d m m' = lc l d c m m' + bracket (fun e => ang fsqrt l e m m') c d)%C.
Proof.
  assert (K : forall c d, - l <= m <= l -> - l <= m' <= l -> (lc l c d m m' = lc l d c m m' + bracket (fun e => ang fsqrt l e m m') c d)%C ->
    (lc l d c m m' = lc l c d m m' + bracket (fun e => ang fsqrt l e m m') d c)%C).
  { intros c' d' _ _ E. rewrite E. destruct c', d'; cbn [bracket]; ring. }
  assert (K1 : - l <= m <= l -> - l <= m' <= l -> (lc l Cz Cplus m m' = lc l Cplus Cz m m' + ang fsqrt l Cplus m m')%C).
  { intros Hm Hm'. unfold lc. rewrite !ang_row by auto. cbn [row ang]. destruct (Z.eqb_spec m (m' + 1)) as [E|E].
    - replace (m - 1 =? m') with true by (symmetry; apply Z.eqb_eq; lia). replace m' with (m - 1) by lia.
      replace (cofZ m) with (cofZ (m - 1) + c1 : cx F)%C; [ring|]. change c1 with (@cofZ F 1). rewrite <- cofZ_add. f_equal. lia.
    - replace (m - 1 =? m') with false by (symmetry; apply Z.eqb_neq; lia). ring. }
  assert (K2 : - l <= m <= l -> - l <= m' <= l -> (lc l Cminus Cz m m' = lc l Cz Cminus m m' + ang fsqrt l Cminus m m')%C).
  { intros Hm Hm'. unfold lc. rewrite !ang_row by auto. cbn [row ang]. destruct (Z.eqb_spec m (m' - 1)) as [E|E].
    - replace (m + 1 =? m') with true by (symmetry; apply Z.eqb_eq; lia). rewrite down_up. replace (m' - 1) with m by lia.
      replace (cofZ (m + 1)) with (cofZ m + c1 : cx F)%C; [ring|]. change c1 with (@cofZ F 1). rewrite <- cofZ_add. reflexivity.
    - replace (m + 1 =? m') with false by (symmetry; apply Z.eqb_neq; lia). ring. }
  assert (K3 : - l <= m <= l -> - l <= m' <= l -> (lc l Cplus Cminus m m' = lc l Cminus Cplus m m' + cofZ 2 * ang fsqrt l Cz m m')%C).
  { intros Hm Hm'. unfold lc. rewrite !ang_row by auto. cbn [row ang]. destruct (Z.eqb_spec m m') as [<-|E].
    - rewrite !Z.eqb_refl, down_up, <- !creal_mul, up_sq', up_sq by auto. change (creal (fofZ ?x)) with (@cofZ F x).
      rewrite <- cofZ_mul, <- cofZ_add. f_equal. ring.
    - replace (m - 1 =? m' - 1) with false by (symmetry; apply Z.eqb_neq; lia). replace (m + 1 =? m' + 1) with false by (symmetry; apply Z.eqb_neq; lia). ring. }
  intros Hm Hm'. destruct c, d; try (cbn [bracket]; ring).
  - apply K1; auto.
  - apply K; [assumption|assumption|]. cbn [bracket]. apply K2; auto.
  - apply K; [assumption|assumption|]. cbn [bracket]. apply K1; auto.
  - apply K3; auto.
  - cbn [bracket]. apply K2; auto.
  - apply K; [assumption|assumption|]. cbn [bracket]. apply K3; auto.
Qed.
Definition LSt (l : Z) (x y : Z * Z) : cx F :=
  (ang fsqrt l Cz (snd x) (snd y) * half_spin Cz (fst x) (fst y) + creal fhalf * (ang fsqrt l Cplus (snd x) (snd y) * half_spin Cminus (fst x) (fst y) +
    ang fsqrt l Cminus (snd x) (snd y) * half_spin Cplus (fst x) (fst y)))%C.
Lemma LS_J l c x y : In x (sites l) -> In y (sites l) ->
  csum (fun w => total_ang fsqrt l c x w * LSt l w y)%C (sites l) = csum (fun w => LSt l x w * total_ang fsqrt l c w y)%C (sites l).
Proof.
  destruct x as [s m], y as [s' m']. intros Hx Hy. apply sites_In in Hx, Hy. destruct Hx as [Hs Hm], Hy as [Hs' Hm'].
  unfold total_ang. rewrite sum_row, sum_col by auto. unfold LSt. cbn [fst snd].
  rewrite (csum_ext (fun m0 => ang fsqrt l c m m0 * _)%C (fun w => half_spin Cz s s' * (ang fsqrt l c m w * ang fsqrt l Cz w m') +
    (creal fhalf * half_spin Cminus s s' * (ang fsqrt l c m w * ang fsqrt l Cplus w m') + creal fhalf * half_spin Cplus s s' * (ang fsqrt l c m w * ang fsqrt l Cminus w m')))%C)
    by (intros; ring).
  rewrite (csum_ext (fun m0 => _ * ang fsqrt l c m0 m')%C (fun w => half_spin Cz s s' * (ang fsqrt l Cz m w * ang fsqrt l c w m') +
    (creal fhalf * half_spin Cminus s s' * (ang fsqrt l Cplus m w * ang fsqrt l c w m') + creal fhalf * half_spin Cplus s s' * (ang fsqrt l Cminus m w * ang fsqrt l c w m')))%C)
    by (intros; ring).
  rewrite !csum_add, !csum_mul_l.
  change (csum (fun w => ang fsqrt l ?a m w * ang fsqrt l ?b w m')%C (mr l)) with (lc l a b m m').
  rewrite (l_bracket l c Cz), (l_bracket l c Cplus), (l_bracket l c Cminus) by auto.
  pose proof (s_bracket c Cz s s' Hs Hs') as Ez. pose proof (s_bracket c Cplus s s' Hs Hs') as Ep. pose proof (s_bracket c Cminus s s' Hs Hs') as Em.
  set (Az := ang fsqrt l Cz m m') in *. set (Ap := ang fsqrt l Cplus m m') in *. set (Am := ang fsqrt l Cminus m m') in *.
  transitivity (half_spin Cz s s' * (lc l Cz c m m' + bracket (fun e => ang fsqrt l e m m') c Cz) +
    creal fhalf * half_spin Cminus s s' * (lc l Cplus c m m' + bracket (fun e => ang fsqrt l e m m') c Cplus) +
    creal fhalf * half_spin Cplus s s' * (lc l Cminus c m m' + bracket (fun e => ang fsqrt l e m m') c Cminus) +
    (Az * sc c Cz s s' + creal fhalf * (Ap * sc c Cminus s s' + Am * sc c Cplus s s')))%C; [unfold sc; ring|].
  rewrite Ez, Ep, Em.
  transitivity (half_spin Cz s s' * lc l Cz c m m' + creal fhalf * half_spin Cminus s s' * lc l Cplus c m m' + creal fhalf * half_spin Cplus s s' * lc l Cminus c m m' +
    (Az * sc Cz c s s' + creal fhalf * (Ap * sc Cminus c s s' + Am * sc Cplus c s s')))%C; [|unfold sc; ring].
  rewrite half_c. destruct c; cbn [bracket]; fold Az; fold Ap; fold Am; rewrite ?cofZ_2; field; apply two_neq.
Qed.
Lemma onem_mm l b a' x y (f g : spinorb -> spinorb -> cx F) : In x (sites l) -> In y (sites l) ->
  (forall u w, f (orb l u) (orb l w) = on_m b u w) -> (forall u w, In u (sites l) -> In w (sites l) -> g (orb l u) (orb l w) = on_spin a' u w) ->
  mm l f g (orb l x) (orb l y) = (b (snd x) (snd y) * a' (fst x) (fst y))%C.
Proof.
  intros Hx Hy Hf Hg. unfold mm. rewrite (csum_ext _ (fun w => (on_m b x w + on_spin (fun _ _ => c0) x w) * on_spin a' w y)%C).
  - destruct x as [s m], y as [s' m']. apply sites_In in Hx, Hy. destruct Hx as [Hs Hm], Hy as [Hs' Hm']. rewrite sum_row by auto.
    unfold on_spin. cbn [fst snd]. rewrite (csum_ext _ (fun w => if w =? m' then b m w * a' s s' else c0)%C).
    + rewrite (csum_at l m' (fun w => b m w * a' s s')%C (fun w => w =? m')); auto; [ring|]. intros w. rewrite Z.eqb_eq. split; auto.
    + intros w _. cbn beta. destruct (w =? m'); ring.
  - intros w Hw. rewrite Hf, Hg by auto. unfold on_spin. destruct (snd x =? snd w); ring.
Qed.
Lemma LS_LSt l x y : In x (sites l) -> In y (sites l) -> LS fsqrt l (orb l x) (orb l y) = LSt l x y.
Proof.
  intros Hx Hy. unfold LS, LSt. rewrite (onem_mm l (ang fsqrt l Cz) (half_spin Cz) x y), (onem_mm l (ang fsqrt l Cplus) (half_spin Cminus) x y),
    (onem_mm l (ang fsqrt l Cminus) (half_spin Cplus) x y); auto.
  all: intros [s m] [s' m']; cbn; unfold on_m, on_spin, when; cbn [fst snd ang half_spin].
  all: try (destruct (s =? s'); cbn [andb]; auto; fail).
  - intros _ _. destruct (s =? 1), (s' =? 0), (m =? m'); reflexivity.
  - intros _ _. destruct (s =? 0), (s' =? 1), (m =? m'); reflexivity.
  - intros _ _. destruct (s =? s'), (m =? m'); reflexivity.
Qed.
End A.
