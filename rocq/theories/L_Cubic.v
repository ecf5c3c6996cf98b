(* The matrix of get_spherical_2_cubic_matrix. *)
From Coq Require Import Field Ring.
From Verif Require Import M_Prelude M_Scalar M_PSR M_State M_Basis M_Expect S_Fock S_Basis S_Expect L_Scalar L_Sum.
Local Open Scope Z_scope.
Section U.
Context {F : ofield}.
Add Field Ff : (f_field F).
Add Ring Cring : (@c_ring F).
Add Field Cf : (@c_field F).
Variable fsqrt : F -> F.
Let r : cx F := (c1 / sqrt2 fsqrt)%C.
Let ir : cx F := (cI / sqrt2 fsqrt)%C.
Let mr : cx F := (- c1 / sqrt2 fsqrt)%C.
Let mir : cx F := (- cI / sqrt2 fsqrt)%C.

Definition u3 : list (list (cx F)) := [[ir; r; c0]; [c0; c0; c1]; [ir; mr; c0]].
Definition u5 : list (list (cx F)) :=
  [[c0; r; c0; c0; ir]; [c0; c0; mir; r; c0]; [c1; c0; c0; c0; c0]; [c0; c0; mir; mr; c0]; [c0; r; c0; c0; mir]].
Lemma sph2cub_1 : get_spherical_2_cubic_matrix fsqrt false 1 = Ok u3.
Proof. reflexivity. Qed.
Lemma sph2cub_2 : get_spherical_2_cubic_matrix fsqrt false 2 = Ok u5.
Proof. reflexivity. Qed.
(* block diagonal *)
Definition two_spins (n : nat) (u : list (list (cx F))) : list (list (cx F)) :=
  map (fun row => row ++ repeat c0 n) u ++ map (fun row => repeat c0 n ++ row) u.
Lemma sph2cub_1s : get_spherical_2_cubic_matrix fsqrt true 1 = Ok (two_spins 3 u3).
Proof. reflexivity. Qed.
Lemma sph2cub_2s : get_spherical_2_cubic_matrix fsqrt true 2 = Ok (two_spins 5 u5).
Proof. reflexivity. Qed.
Lemma sph2cub_err sp l : l <> 1 -> l <> 2 -> get_spherical_2_cubic_matrix fsqrt sp l = Err UnboundLocalError.
Proof. intros H1 H2. unfold get_spherical_2_cubic_matrix. rewrite (proj2 (Z.eqb_neq l 1) H1), (proj2 (Z.eqb_neq l 2) H2). reflexivity. Qed.

Hypothesis Hsq : forall x : F, (0 <= x)%F -> (0 <= fsqrt x)%F /\ (fsqrt x * fsqrt x)%F = x.
Lemma two_pos : (0 < 1 + (1 : F))%F.
Proof. apply fadd_pos; [apply flt_0_1|apply flt_le, flt_0_1]. Qed.
Lemma sqrt2_sq : (sqrt2 fsqrt * sqrt2 fsqrt)%C = (c1 + c1)%C.
Proof.
  unfold sqrt2. rewrite <- creal_mul. change (fofZ 2) with (1 + 1 : F)%F. destruct (Hsq (1 + 1)%F (flt_le _ _ two_pos)) as [_ ->].
  rewrite creal_add. reflexivity.
Qed.
Lemma c2_neq : (@c1 F + c1)%C <> c0.
Proof. intros E. apply (f_equal re) in E. cbn in E. pose proof two_pos as H. rewrite E, flt_irrefl in H. discriminate. Qed.
Lemma sqrt2_neq : sqrt2 fsqrt <> c0.
Proof. intros E. pose proof sqrt2_sq as H. rewrite E in H. apply c2_neq. rewrite <- H. ring. Qed.
(* the four entries in terms of h = 1/sqrt 2 *)
Lemma entries : exists h : cx F, (h * h + h * h)%C = c1 /\ cconj h = h /\ r = h /\ mr = (- h)%C /\ ir = (cI * h)%C /\ mir = (- (cI * h))%C.
Proof.
  exists (c1 / sqrt2 fsqrt)%C. pose proof sqrt2_neq as Hn. pose proof sqrt2_sq as Hq.
  assert (Ehh : (c1 / sqrt2 fsqrt * (c1 / sqrt2 fsqrt) + c1 / sqrt2 fsqrt * (c1 / sqrt2 fsqrt))%C = @c1 F).
  { transitivity ((c1 + c1) / (sqrt2 fsqrt * sqrt2 fsqrt))%C; [field; auto|]. rewrite Hq. field. apply c2_neq. }
  split; [exact Ehh|]. split.
  - assert (Hs : fsqrt (fofZ 2) <> 0%F) by (intros E; apply Hn; unfold sqrt2; rewrite E; reflexivity).
    assert (Hs2 : (fsqrt (fofZ 2) * fsqrt (fofZ 2) + 0 * 0)%F <> 0%F).
    { intros E. assert (Hz : (fsqrt (fofZ 2) * fsqrt (fofZ 2))%F = 0%F) by (rewrite <- E; ring). apply fmul_integral in Hz. tauto. }
    unfold cdiv, cinv, sqrt2, creal, c1, cmul, cconj, cabs2. cbn [re im].
    apply cx_ext; cbn [re im]; [ring|]. set (q := (fsqrt (fofZ 2) * fsqrt (fofZ 2) + 0 * 0)%F) in *. field. auto.
  - unfold r, mr, ir, mir. split; [auto|]. split; [field; auto|]. split; field; auto.
Qed.
Lemma cI_sq : (cI * cI)%C = (- @c1 F)%C.
Proof. apply cx_ext; cbn; ring. Qed.
Lemma cI_conj : cconj (@cI F) = (- cI)%C.
Proof. apply cx_ext; cbn; ring. Qed.

Ltac entry :=
  unfold csum, delta, at_m;
  cbn [seq fold_right nth eqb EqB_nat Nat.eqb];
  repeat rewrite ?cconj_opp, ?cconj_mul, ?cconj_0, ?cconj_1;
  rewrite ?cI_conj.
Lemma u3_unitary : unitary 3 u3.
Proof.
  destruct entries as (h & Hh & Hc & Er & Emr & Eir & Emir). unfold u3. rewrite Er, Emr, Eir. clearbody r mr ir mir. subst.
  assert (Hk : (h * h)%C = (c1 - h * h)%C) by (rewrite <- Hh; ring).
  split; [split; [reflexivity|repeat (apply Forall_cons; [reflexivity|]); apply Forall_nil]|].
  pose proof cI_sq as HI.
  split; intros i j Hi Hj; destruct i as [|[|[|i]]]; try lia; destruct j as [|[|[|j]]]; try lia;
    entry; rewrite ?Hc; first [ring [HI] | (rewrite <- Hh; ring [HI])].
Qed.
Lemma u5_unitary : unitary 5 u5.
Proof.
  destruct entries as (h & Hh & Hc & Er & Emr & Eir & Emir). unfold u5. rewrite Er, Emr, Eir, Emir. clearbody r mr ir mir. subst.
  split; [split; [reflexivity|repeat (apply Forall_cons; [reflexivity|]); apply Forall_nil]|].
  pose proof cI_sq as HI.
  split; intros i j Hi Hj; destruct i as [|[|[|[|[|i]]]]]; try lia; destruct j as [|[|[|[|[|j]]]]]; try lia;
    entry; rewrite ?Hc; first [ring [HI] | (rewrite <- Hh; ring [HI])].
Qed.
Lemma u3_real : real_harmonics 1 u3.
Proof.
  destruct entries as (h & Hh & Hc & Er & Emr & Eir & Emir). unfold u3. rewrite Er, Emr, Eir. clearbody r mr ir mir. subst.
  intros k i Hk Hi. destruct k as [|[|[|k]]]; try lia; destruct i as [|[|[|i]]]; try lia;
    unfold at_m; cbn [nth Nat.mul Nat.sub Nat.add]; repeat rewrite ?cconj_opp, ?cconj_mul, ?cconj_0, ?cconj_1; rewrite ?cI_conj, ?Hc;
    match goal with |- context [cofZ ?z] => let v := eval vm_compute in z in change z with v end; rewrite ?cofZ_1, ?cofZ_m1; ring.
Qed.
Lemma u5_real : real_harmonics 2 u5.
Proof.
  destruct entries as (h & Hh & Hc & Er & Emr & Eir & Emir). unfold u5. rewrite Er, Emr, Eir, Emir. clearbody r mr ir mir. subst.
  intros k i Hk Hi. destruct k as [|[|[|[|[|k]]]]]; try lia; destruct i as [|[|[|[|[|i]]]]]; try lia;
    unfold at_m; cbn [nth Nat.mul Nat.sub Nat.add]; repeat rewrite ?cconj_opp, ?cconj_mul, ?cconj_0, ?cconj_1; rewrite ?cI_conj, ?Hc;
    match goal with |- context [cofZ ?z] => let v := eval vm_compute in z in change z with v end; rewrite ?cofZ_1, ?cofZ_m1; ring.
Qed.

Lemma nth_map_lt {A B} (f : A -> B) l i d d' : (i < length l)%nat -> nth i (map f l) d' = f (nth i l d).
Proof. intros H. rewrite (nth_indep _ d' (f d)) by (rewrite map_length; auto). apply map_nth. Qed.
Lemma at_two n u i j : is_square n u -> (i < 2 * n)%nat -> (j < 2 * n)%nat ->
  at_m (two_spins n u) i j =
    if Nat.ltb i n then (if Nat.ltb j n then at_m u i j else c0) else (if Nat.ltb j n then c0 else at_m u (i - n) (j - n)).
Proof.
  intros [Hl Hr] Hi Hj. unfold at_m, two_spins. rewrite Forall_forall in Hr.
  destruct (Nat.ltb_spec i n) as [Hin|Hin].
  - rewrite app_nth1 by (rewrite map_length; lia).
    rewrite (nth_map_lt _ u i []) by lia. assert (Hlen : length (nth i u []) = n) by (apply Hr, nth_In; lia).
    destruct (Nat.ltb_spec j n); [apply app_nth1; lia|]. rewrite app_nth2 by lia. apply nth_repeat.
  - rewrite app_nth2 by (rewrite map_length; lia). rewrite map_length, Hl.
    rewrite (nth_map_lt _ u (i - n) []) by lia. destruct (Nat.ltb_spec j n).
    + rewrite app_nth1 by (rewrite repeat_length; lia). apply nth_repeat.
    + rewrite app_nth2 by (rewrite repeat_length; lia). rewrite repeat_length. reflexivity.
Qed.
Lemma two_unitary n u : unitary n u -> unitary (2 * n) (two_spins n u).
Proof.
  intros (Hs & H1 & H2). pose proof Hs as [Hl Hr]. split.
  - split; [unfold two_spins; rewrite app_length, !map_length; lia|]. unfold two_spins. apply Forall_app. rewrite Forall_forall in Hr.
    split; apply Forall_map, Forall_forall; intros row Hrow; rewrite app_length, repeat_length, (Hr row Hrow); lia.
  - assert (Hseq : seq 0 (2 * n) = seq 0 n ++ map (fun k => (n + k)%nat) (seq 0 n)).
    { replace (2 * n)%nat with (n + n)%nat by lia. rewrite seq_app. f_equal. cbn [Nat.add].
      assert (G : forall m a b, seq (a + b) m = map (fun k => (a + k)%nat) (seq b m)).
      { intros q; induction q as [|q IH]; intros a b; cbn [seq map]; auto. f_equal. rewrite <- IH. f_equal. lia. }
      rewrite <- G. f_equal; lia. }
    split; intros i j Hi Hj; rewrite Hseq, csum_app, csum_map.
    + transitivity ((if Nat.ltb i n then (if Nat.ltb j n then delta i j else @c0 F) else @c0 F) +
                    (if Nat.ltb i n then c0 else (if Nat.ltb j n then c0 else delta (i - n)%nat (j - n)%nat)))%C.
      * f_equal.
        -- destruct (Nat.ltb_spec i n) as [Hin|Hin].
           ++ destruct (Nat.ltb_spec j n) as [Hjn|Hjn].
              ** rewrite <- H1 by auto. apply csum_ext. intros k Hk. apply in_seq in Hk. rewrite !at_two by (auto; lia).
                 destruct (Nat.ltb_spec k n), (Nat.ltb_spec i n), (Nat.ltb_spec j n); try lia. auto.
              ** apply csum_zero. intros k Hk. apply in_seq in Hk. rewrite !at_two by (auto; lia).
                 destruct (Nat.ltb_spec k n), (Nat.ltb_spec i n), (Nat.ltb_spec j n); try lia. ring.
           ++ apply csum_zero. intros k Hk. apply in_seq in Hk. rewrite !at_two by (auto; lia).
              destruct (Nat.ltb_spec k n), (Nat.ltb_spec i n); try lia. rewrite cconj_0. ring.
        -- destruct (Nat.ltb_spec i n) as [Hin|Hin].
           ++ apply csum_zero. intros k Hk. apply in_seq in Hk. rewrite !at_two by (auto; lia).
              destruct (Nat.ltb_spec (n + k) n), (Nat.ltb_spec i n); try lia. rewrite cconj_0. ring.
           ++ destruct (Nat.ltb_spec j n) as [Hjn|Hjn].
              ** apply csum_zero. intros k Hk. apply in_seq in Hk. rewrite !at_two by (auto; lia).
                 destruct (Nat.ltb_spec (n + k) n), (Nat.ltb_spec i n), (Nat.ltb_spec j n); try lia. ring.
              ** rewrite <- H1 by lia. apply csum_ext. intros k Hk. apply in_seq in Hk. rewrite !at_two by (auto; lia).
                 destruct (Nat.ltb_spec (n + k) n), (Nat.ltb_spec i n), (Nat.ltb_spec j n); try lia.
                 replace (n + k - n)%nat with k by lia. auto.
      * unfold delta. cbn [eqb EqB_nat]. destruct (Nat.ltb_spec i n), (Nat.ltb_spec j n);
          destruct (Nat.eqb_spec i j), (Nat.eqb_spec (i - n) (j - n)); try lia; ring.
    + transitivity ((if Nat.ltb i n then (if Nat.ltb j n then delta i j else @c0 F) else @c0 F) +
                    (if Nat.ltb i n then c0 else (if Nat.ltb j n then c0 else delta (i - n)%nat (j - n)%nat)))%C.
      * f_equal.
        -- destruct (Nat.ltb_spec i n) as [Hin|Hin].
           ++ destruct (Nat.ltb_spec j n) as [Hjn|Hjn].
              ** rewrite <- H2 by auto. apply csum_ext. intros k Hk. apply in_seq in Hk. rewrite !at_two by (auto; lia).
                 destruct (Nat.ltb_spec k n), (Nat.ltb_spec i n), (Nat.ltb_spec j n); try lia. auto.
              ** apply csum_zero. intros k Hk. apply in_seq in Hk. rewrite !at_two by (auto; lia).
                 destruct (Nat.ltb_spec k n), (Nat.ltb_spec i n), (Nat.ltb_spec j n); try lia. rewrite cconj_0. ring.
           ++ apply csum_zero. intros k Hk. apply in_seq in Hk. rewrite !at_two by (auto; lia).
              destruct (Nat.ltb_spec k n), (Nat.ltb_spec i n); try lia. ring.
        -- destruct (Nat.ltb_spec i n) as [Hin|Hin].
           ++ apply csum_zero. intros k Hk. apply in_seq in Hk. rewrite !at_two by (auto; lia).
              destruct (Nat.ltb_spec (n + k) n), (Nat.ltb_spec i n); try lia. ring.
           ++ destruct (Nat.ltb_spec j n) as [Hjn|Hjn].
              ** apply csum_zero. intros k Hk. apply in_seq in Hk. rewrite !at_two by (auto; lia).
                 destruct (Nat.ltb_spec (n + k) n), (Nat.ltb_spec i n), (Nat.ltb_spec j n); try lia. rewrite cconj_0. ring.
              ** rewrite <- H2 by lia. apply csum_ext. intros k Hk. apply in_seq in Hk. rewrite !at_two by (auto; lia).
                 destruct (Nat.ltb_spec (n + k) n), (Nat.ltb_spec i n), (Nat.ltb_spec j n); try lia.
                 replace (n + k - n)%nat with k by lia. auto.
      * unfold delta. cbn [eqb EqB_nat]. destruct (Nat.ltb_spec i n), (Nat.ltb_spec j n);
          destruct (Nat.eqb_spec i j), (Nat.eqb_spec (i - n) (j - n)); try lia; ring.
Qed.
(* both spins use the same cubic harmonics *)
Lemma sph2cub_any sp l : (l = 1 \/ l = 2) ->
  exists u, get_spherical_2_cubic_matrix fsqrt sp l = Ok u /\
    unitary (Z.to_nat ((if sp then 2 else 1) * (2 * l + 1))) u.
Proof.
  intros [->| ->]; destruct sp; eexists; (split; [apply sph2cub_1s || apply sph2cub_2s || apply sph2cub_1 || apply sph2cub_2|]).
  - apply (two_unitary 3), u3_unitary.
  - apply u3_unitary.
  - apply (two_unitary 5), u5_unitary.
  - apply u5_unitary.
Qed.
End U.
