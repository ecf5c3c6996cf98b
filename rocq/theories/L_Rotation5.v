(* Restrictions that a generator respects, and the restricted Hamiltonian. *)
From Coq Require Import Ring.
From Verif Require Import M_Prelude M_Scalar M_PSR M_State M_Basis M_Expect M_Operators S_Fock S_Ops S_Ham S_Basis S_Expect S_Green S_Operators S_Symmetry S_Sector S_Levels S_Rotation.
From Verif Require Import L_Scalar L_Sum L_Dict L_Fock L_State L_Ops L_Index L_ApplyOp L_Operators4 L_Sector L_Sector3 L_Rotation4.
From Verif Require S_Dict.
Local Open Scope Z_scope.

(* electrons in a set of orbitals, as a charge *)
Definition hits (S : list Z) (i : Z) : Z := if existsb (Z.eqb i) S then 1 else 0.
Lemma charge_add w w' c : forall i, charge_from (fun k => w k + w' k) i c = charge_from w i c + charge_from w' i c.
Proof. induction c as [|b c IH]; intros i; cbn [charge_from]; [reflexivity|]. rewrite IH. destruct b; lia. Qed.
Lemma charge_one s c : forall i, 0 <= i -> charge_from (fun k => if k =? s then 1 else 0) i c = if (i <=? s) && nth (Z.to_nat (s - i)) c false then 1 else 0.
Proof.
  induction c as [|b c IH]; intros i Hi; cbn [charge_from]. { destruct (Z.to_nat (s - i)); cbn [nth]; rewrite andb_false_r; reflexivity. }
  rewrite IH by lia. destruct (Z.eqb_spec i s) as [->|Hn].
  - rewrite Z.leb_refl, Z.sub_diag. cbn [Z.to_nat nth andb]. replace (s + 1 <=? s) with false by (symmetry; apply Z.leb_gt; lia). cbn [andb]. destruct b; reflexivity.
  - destruct (Z.leb_spec i s) as [H|H].
    + replace (i + 1 <=? s) with true by (symmetry; apply Z.leb_le; lia). replace (Z.to_nat (s - i)) with (Datatypes.S (Z.to_nat (s - (i + 1)))) by lia. cbn [nth andb]. destruct b; lia.
    + replace (i + 1 <=? s) with false by (symmetry; apply Z.leb_gt; lia). cbn [andb]. destruct b; reflexivity.
Qed.
Lemma charge_hits S c : NoDup S -> charge (hits S) c = Z.of_nat (length (filter (S_Fock.occupied c) S)).
Proof.
  intros HN. unfold charge. induction HN as [|s S Hs HN IH].
  - assert (Z0 : forall c i, charge_from (hits []) i c = 0) by (clear; induction c as [|b c IHc]; intros i; [reflexivity|]; cbn [charge_from]; rewrite IHc; destruct b; reflexivity). apply Z0.
  - transitivity (charge_from (fun k => (if k =? s then 1 else 0) + hits S k) 0 c).
    + apply (charge_ext (hits (s :: S)) (fun k => (if k =? s then 1 else 0) + hits S k) c). intros k _. unfold hits. cbn [existsb]. destruct (Z.eqb_spec k s) as [->|]; cbn [orb].
      * replace (existsb (Z.eqb s) S) with false; [reflexivity|]. symmetry. apply Bool.not_true_iff_false. intros C. apply existsb_exists in C as (y & Hy & Ey). apply Z.eqb_eq in Ey. congruence.
      * reflexivity.
    + rewrite charge_add, IH, charge_one by lia. cbn [filter]. unfold S_Fock.occupied at 2. rewrite Z.sub_0_r. destruct ((0 <=? s) && nth (Z.to_nat s) c false); cbn [length]; lia.
Qed.

Section R.
Context {F : ofield}.
Add Ring Cring : (@c_ring F).
Variable nb : nbaths_t.
Hypothesis Hwf : wf_nbaths nb.
Variable O : list spinorb.
Hypothesis HOk : Forall (coord_ok nb) O.
Notation n := (n_orb nb).
Lemma keeps_sets (M : spinorb -> spinorb -> cx F) rs : wf_restr (Some rs) ->
  (forall x y, In x O -> In y O -> M x y <> c0 -> forall S, In S (map fst rs) -> In (coord_index nb x) S <-> In (coord_index nb y) S) -> keeps n (Some rs) (generator nb O M).
Proof.
  intros HN H t s _ _ He. unfold opelem, generator, one_body in He. rewrite csum_map, csum_flat_map in He. apply csum_ne in He as (x & Hx & He). rewrite csum_map in He. apply csum_ne in He as (y & Hy & He). cbn [fst snd] in He. apply mul_ne in He as [HM Hp].
  assert (E : forall S, In S (map fst rs) -> length (filter (S_Fock.occupied t) S) = length (filter (S_Fock.occupied s) S)).
  { intros S HS. assert (ND : NoDup S). { cbn in HN. rewrite Forall_forall in HN. apply in_map_iff in HS as (r & <- & Hr). apply HN. auto. }
    apply Nat2Z.inj. rewrite <- !charge_hits by auto.
    unfold pelem in Hp. destruct (proc_act (hop nb x y) s) as [[t' sg]|] eqn:E; [|now elim Hp]. destruct (list_eqb_spec t t') as [<-|]; [|now elim Hp].
    apply (proc_charge (hits S)) in E.
    - rewrite E. unfold hop, pcharge. cbn [map fst snd]. change (Ascii.eqb "c"%char "c"%char) with true. change (Ascii.eqb "a"%char "c"%char) with false. cbv iota. unfold zsum. cbn [fold_right].
      assert (Eh : hits S (coord_index nb x) = hits S (coord_index nb y)).
      { unfold hits. pose proof (H x y Hx Hy HM S HS) as W. assert (EE : forall i, existsb (Z.eqb i) S = true <-> In i S).
        { intros i. rewrite existsb_exists. split; [intros (z & Hz & Ez); apply Z.eqb_eq in Ez; congruence|intros Hi; exists i; split; [auto|apply Z.eqb_refl]]. }
        destruct (existsb (Z.eqb (coord_index nb x)) S) eqn:E1, (existsb (Z.eqb (coord_index nb y)) S) eqn:E2; auto.
        - apply EE in E1. apply W in E1. apply EE in E1. congruence.
        - apply EE in E2. apply W in E2. apply EE in E2. congruence. }
      lia.
    - rewrite Forall_forall in HOk. assert (P : forall z, In z O -> 0 <= coord_index nb z) by (intros z Hz; destruct (c2i_P nb z Hwf (HOk z Hz)) as (_ & Hz0 & _); lia).
      unfold hop. apply Forall_cons; [apply (P x Hx)|]. apply Forall_cons; [apply (P y Hy)|constructor]. }
  cbn [allowed_opt]. unfold allowed. rewrite !Forall_forall. split; intros W r Hr; specialize (W r Hr); specialize (E (fst r) (in_map fst rs r Hr)); [rewrite <- E|rewrite E]; exact W.
Qed.
End R.

Section C.
Context {F : ofield}.
Add Ring Cring2 : (@c_ring F).
Lemma keeps_commutes n (op G : op_t F) rs h : S_Dict.no_small n op -> wf_restr rs -> keeps n rs G -> commute n op G -> restricted_op n op rs h -> commutes n h G.
Proof.
  intros HS Hr HK HC Hh t s Ht Hs.
  assert (E : forall t s, length t = n -> length s = n -> h t s = if okr rs t then opelem op t s else c0).
  { intros a b Ha Hb. destruct (Hh a b Ha Hb) as [H1 H2]. pose proof (okr_allowed rs a Hr) as OK. destruct (okr rs a).
    - destruct (HS a b Ha Hb) as [Z|Z].
      + rewrite Z. destruct (fltb (cabs2 (opelem op a b)) eps12) eqn:L.
        * apply H2. intros (_ & _ & C). congruence.
        * rewrite H1; auto. split; auto. split; auto. apply OK. auto.
      + apply H1. split; auto. split; auto. apply OK. auto.
    - apply H2. intros (_ & L & _). apply OK in L. discriminate. }
  transitivity (if okr rs t then csum (fun w => opelem op t w * opelem G w s)%C (allcfg n) else c0).
  - destruct (okr rs t) eqn:Et.
    + apply csum_ext. intros w Hw. apply allcfg_In in Hw. rewrite E, Et by auto. auto.
    + apply csum_zero. intros w Hw. apply allcfg_In in Hw. rewrite E, Et by auto. ring.
  - rewrite (commute_matrix n op G HC t s Ht Hs). destruct (okr rs t) eqn:Et.
    + apply csum_ext. intros w Hw. apply allcfg_In in Hw. rewrite E by auto. destruct (okr rs w) eqn:Ew; auto. destruct (ceqb_spec (opelem G t w) c0) as [Z|Z]; [rewrite Z; ring|].
      apply HK in Z; auto. rewrite <- !okr_allowed in Z by auto. apply Z in Et. congruence.
    + symmetry. apply csum_zero. intros w Hw. apply allcfg_In in Hw. rewrite E by auto. destruct (okr rs w) eqn:Ew; [|ring]. destruct (ceqb_spec (opelem G t w) c0) as [Z|Z]; [rewrite Z; ring|].
      apply HK in Z; auto. rewrite <- !okr_allowed in Z by auto. apply Z in Ew. congruence.
Qed.
End C.
