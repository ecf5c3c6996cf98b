(* Rotations of spin and orbital angular momentum: Coulomb interaction and spin-orbit coupling. *)
From Coq Require Import Ring Field.
From Verif Require Import M_Prelude M_Scalar M_PSR M_State M_Basis M_Expect M_Operators S_Fock S_Ops S_Basis S_Expect S_Operators S_Symmetry.
From Verif Require Import L_Scalar L_Sum L_Dict L_Fock L_State L_Ops L_Index L_Expect L_Expect2 L_Expect3 L_Expect4 L_Expect5 L_Operators L_Operators2 L_Operators3 L_Operators4 L_Operators5 L_Symmetry L_Symmetry2 L_Symmetry3.
Local Open Scope Z_scope.

Section A.
Context {F : ofield}.
Add Field Ff : (f_field F).
Add Ring Cring : (@c_ring F).
Add Field Cf : (@c_field F).
Definition mr (l : Z) : list Z := map (fun k => Z.of_nat k - l) (seq 0 (Z.to_nat (2 * l + 1))).
Lemma mr_In l m : In m (mr l) <-> - l <= m <= l.
Proof.
  unfold mr. rewrite in_map_iff. split.
  - intros (k & <- & H). apply in_seq in H. lia.
  - intros H. exists (Z.to_nat (m + l)). split; [lia|]. apply in_seq. lia.
Qed.
Lemma mr_NoDup l : NoDup (mr l).
Proof. apply FinFun.Injective_map_NoDup; [intros a b E; lia|apply seq_NoDup]. Qed.
Lemma csum_sites l (g : Z * Z -> cx F) : csum g (sites l) = (csum (fun m => g (0, m)) (mr l) + csum (fun m => g (1, m)) (mr l))%C.
Proof. unfold sites. rewrite csum_list_prod. cbn [csum]. unfold mr. ring. Qed.
Lemma csum_at l m (g : Z -> cx F) (h : Z -> bool) : - l <= m <= l -> (forall m', h m' = true <-> m' = m) ->
  csum (fun m' => if h m' then g m' else c0) (mr l) = g m.
Proof.
  intros Hm H. rewrite (csum_single _ (mr l) m); [|apply mr_NoDup|apply mr_In; auto|].
  - destruct (h m) eqn:E; auto. assert (h m = true) by (apply H; auto). congruence.
  - intros m' _ Hne. destruct (h m') eqn:E; auto. apply H in E. congruence.
Qed.
Lemma csum_none l m (g : Z -> cx F) (h : Z -> bool) : ~ (- l <= m <= l) -> (forall m', h m' = true <-> m' = m) ->
  csum (fun m' => if h m' then g m' else c0) (mr l) = c0.
Proof.
  intros Hm H. apply csum_zero. intros m' Hm'. apply mr_In in Hm'. destruct (h m') eqn:E; auto. apply H in E. subst. contradiction.
Qed.
(* rows and columns of a matrix 1 x b + a x 1 *)
Variable a : Z -> Z -> cx F.
Lemma sum_row l (b : Z -> Z -> cx F) s m g : (s = 0 \/ s = 1) -> - l <= m <= l ->
  csum (fun w => (on_m b (s, m) w + on_spin a (s, m) w) * g w)%C (sites l) =
  (csum (fun m' => b m m' * g (s, m')) (mr l) + (a s 0 * g (0, m) + a s 1 * g (1, m)))%C.
Proof.
  intros Hs Hm. rewrite csum_sites. unfold on_m, on_spin. cbn [fst snd].
  assert (E : forall s', csum (fun m0 => ((if s =? s' then b m m0 else c0) + (if m =? m0 then a s s' else c0)) * g (s', m0))%C (mr l) =
    ((if s =? s' then csum (fun m' => b m m' * g (s', m')) (mr l) else c0) + a s s' * g (s', m))%C).
  { intros s'. rewrite (csum_ext _ (fun m0 => (if s =? s' then b m m0 * g (s', m0) else c0) + (if m =? m0 then a s s' * g (s', m0) else c0))%C).
    - rewrite csum_add. f_equal.
      + destruct (s =? s'); auto. apply csum_zero. auto.
      + apply (csum_at l m (fun m0 => a s s' * g (s', m0))%C (fun m0 => m =? m0)); auto. intros m'. rewrite Z.eqb_eq. split; auto.
    - intros m0 _. cbn beta. destruct (s =? s'), (m =? m0); ring. }
  rewrite !E. destruct Hs as [-> | ->]; cbn [Z.eqb Pos.eqb]; ring.
Qed.
Lemma sum_col l (b : Z -> Z -> cx F) s m g : (s = 0 \/ s = 1) -> - l <= m <= l ->
  csum (fun w => g w * (on_m b w (s, m) + on_spin a w (s, m)))%C (sites l) =
  (csum (fun m' => g (s, m') * b m' m) (mr l) + (g (0, m) * a 0 s + g (1, m) * a 1 s))%C.
Proof.
  intros Hs Hm. rewrite csum_sites. unfold on_m, on_spin. cbn [fst snd].
  assert (E : forall s', csum (fun m0 => g (s', m0) * ((if s' =? s then b m0 m else c0) + (if m0 =? m then a s' s else c0)))%C (mr l) =
    ((if s' =? s then csum (fun m' => g (s', m') * b m' m) (mr l) else c0) + g (s', m) * a s' s)%C).
  { intros s'. rewrite (csum_ext _ (fun m0 => (if s' =? s then g (s', m0) * b m0 m else c0) + (if m0 =? m then g (s', m0) * a s' s else c0))%C).
    - rewrite csum_add. f_equal.
      + destruct (s' =? s); auto. apply csum_zero. auto.
      + apply (csum_at l m (fun m0 => g (s', m0) * a s' s)%C (fun m0 => m0 =? m)); auto. intros m'. rewrite Z.eqb_eq. split; auto.
    - intros m0 _. cbn beta. destruct (s' =? s), (m0 =? m); ring. }
  rewrite !E. destruct Hs as [-> | ->]; cbn [Z.eqb Pos.eqb]; ring.
Qed.

(* ---- Coulomb ---- *)
Definition orbital_inv (U : Z -> Z -> Z -> Z -> cx F) (l1 l2 l3 l4 : Z) (b1 b2 b3 b4 : Z -> Z -> cx F) : Prop :=
  forall m1 m2 m3 m4, - l1 <= m1 <= l1 -> - l2 <= m2 <= l2 -> - l3 <= m3 <= l3 -> - l4 <= m4 <= l4 ->
  (csum (fun m => b1 m1 m * U m m2 m3 m4) (mr l1) + csum (fun m => b2 m2 m * U m1 m m3 m4) (mr l2))%C =
  (csum (fun m => U m1 m2 m m4 * b3 m m3) (mr l3) + csum (fun m => U m1 m2 m3 m * b4 m m4) (mr l4))%C.
Definition UW (U : Z -> Z -> Z -> Z -> cx F) (x y z t : Z * Z) : cx F :=
  if (fst x =? fst t) && (fst y =? fst z) then U (snd x) (snd y) (snd z) (snd t) else c0.
Lemma spin_inv U l1 l2 l3 l4 b1 b2 b3 b4 : orbital_inv U l1 l2 l3 l4 b1 b2 b3 b4 ->
  forall x y z t, In x (sites l1) -> In y (sites l2) -> In z (sites l3) -> In t (sites l4) ->
  (csum (fun w => (on_m b1 x w + on_spin a x w) * UW U w y z t) (sites l1) + csum (fun w => (on_m b2 y w + on_spin a y w) * UW U x w z t) (sites l2))%C =
  (csum (fun w => UW U x y w t * (on_m b3 w z + on_spin a w z)) (sites l3) + csum (fun w => UW U x y z w * (on_m b4 w t + on_spin a w t)) (sites l4))%C.
Proof.
  intros HU [s1 m1] [s2 m2] [s3 m3] [s4 m4] H1 H2 H3 H4. apply sites_In in H1, H2, H3, H4.
  destruct H1 as [S1 H1], H2 as [S2 H2], H3 as [S3 H3], H4 as [S4 H4].
  rewrite !sum_row, !sum_col by auto. unfold UW. cbn [fst snd].
  pose proof (HU m1 m2 m3 m4 H1 H2 H3 H4) as E.
  assert (Z1 : forall (B : Z -> cx F) l, csum (fun m => B m * c0)%C (mr l) = c0) by (intros; apply csum_zero; intros; ring).
  assert (Z2 : forall (B : Z -> cx F) l, csum (fun m => c0 * B m)%C (mr l) = c0) by (intros; apply csum_zero; intros; ring).
  set (A1 := csum (fun m => b1 m1 m * U m m2 m3 m4)%C (mr l1)) in *. set (A2 := csum (fun m => b2 m2 m * U m1 m m3 m4)%C (mr l2)) in *.
  set (A3 := csum (fun m => U m1 m2 m m4 * b3 m m3)%C (mr l3)) in *. set (A4 := csum (fun m => U m1 m2 m3 m * b4 m m4)%C (mr l4)) in *.
  destruct S1 as [-> | ->], S2 as [-> | ->], S3 as [-> | ->], S4 as [-> | ->]; cbn [Z.eqb Pos.eqb andb]; rewrite ?Z1, ?Z2; fold A1; fold A2; fold A3; fold A4;
    try ring.
  all: try (transitivity ((A1 + A2) + (U m1 m2 m3 m4 * a 0 0 + U m1 m2 m3 m4 * a 0 0))%C; [ring|rewrite E; ring]).
  all: try (transitivity ((A1 + A2) + (U m1 m2 m3 m4 * a 1 1 + U m1 m2 m3 m4 * a 1 1))%C; [ring|rewrite E; ring]).
  all: try (transitivity ((A1 + A2) + (U m1 m2 m3 m4 * a 0 0 + U m1 m2 m3 m4 * a 1 1))%C; [ring|rewrite E; ring]).
Qed.
End A.
