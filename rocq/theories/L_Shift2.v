(* The operator that shifts levels, alone and as a part of the Hamiltonian. *)
From Coq Require Import Ring Field.
From Verif Require Import M_Prelude M_Scalar M_PSR M_State M_Mpi M_Basis M_Expect M_Operators S_Fock S_Ops S_Ham S_Basis S_Expect S_Operators S_Symmetry S_Sector S_Shift.
From Verif Require Import L_Scalar L_Sum L_Dict L_Fock L_State L_Ops L_Index L_Operators L_Operators4 L_Operators5 L_Sector3 L_Symmetry3 L_Shift.
Local Open Scope Z_scope.

Lemma num_act i s : proc_act [(Z.of_nat i, "c"%char); (Z.of_nat i, "a"%char)] s = if nth i s false then Some (s, 1) else None.
Proof.
  cbn [proc_act]. rewrite lad_flip by (left; reflexivity). cbn [fst snd]. rewrite Nat2Z.id. change (Ascii.eqb "a" "c") with false.
  destruct (nth_error s i) as [b|] eqn:Eb.
  - rewrite (nth_error_nth _ _ false Eb). pose proof (flip_pair false i s b Eb) as HP. unfold comp in HP. cbn [negb] in HP.
    destruct (flip false i s) as [[c' s']|] eqn:Ef.
    + rewrite lad_flip by (right; reflexivity). cbn [fst snd]. rewrite Nat2Z.id. change (Ascii.eqb "c" "c") with true.
      destruct (flip true i c') as [[c'' s0]|]; destruct b; cbn [Bool.eqb] in HP; try discriminate; auto. injection HP as -> HP. do 2 f_equal. lia.
    + destruct b; cbn [Bool.eqb] in HP; [discriminate|reflexivity].
  - unfold flip. rewrite Eb. rewrite (nth_overflow s) by (apply nth_error_None; auto). reflexivity.
Qed.
Lemma num_elem i t s : pelem [(Z.of_nat i, "c"%char); (Z.of_nat i, "a"%char)] t s = if list_eq_dec Bool.bool_dec t s then if nth i t false then 1 else 0 else 0.
Proof.
  unfold pelem. rewrite num_act. destruct (list_eq_dec Bool.bool_dec t s) as [->|N].
  - destruct (nth i s false); auto. destruct (list_eqb_spec s s); congruence.
  - destruct (nth i s false); auto. destruct (list_eqb_spec t s); congruence.
Qed.
Section S.
Context {F : ofield}.
Add Field Ff : (f_field F).
Add Field Cf : (@c_field F).
Local Open Scope cx_scope.
Lemma zsum_creal (c : F) w (t : config) l : csum (fun i => creal (c * fofZ (w (Z.of_nat i)))%F * cofZ (if nth i t false then 1 else 0)) l = creal (c * fofZ (zsum (map (fun k => if nth k t false then w (0 + Z.of_nat k)%Z else 0%Z) l)))%F.
Proof.
  induction l as [|i l IH]; cbn [csum map].
  - unfold zsum. cbn [fold_right]. change (@fofZ F 0) with (0%F : F). replace (c * 0)%F with (0%F : F) by ring. reflexivity.
  - rewrite IH. unfold zsum. cbn [fold_right]. rewrite fofZ_add. replace (c * (fofZ (if nth i t false then w (0 + Z.of_nat i)%Z else 0%Z) + fofZ (fold_right Z.add 0%Z (map (fun k : nat => if nth k t false then w (0 + Z.of_nat k)%Z else 0%Z) l))))%F with
      (c * fofZ (if nth i t false then w (0 + Z.of_nat i)%Z else 0%Z) + c * fofZ (fold_right Z.add 0%Z (map (fun k : nat => if nth k t false then w (0 + Z.of_nat k)%Z else 0%Z) l)))%F by ring.
    rewrite creal_add. f_equal. destruct (nth i t false).
    + rewrite Z.add_0_l, cofZ_1. ring.
    + rewrite cofZ_0. change (@fofZ F 0) with (0%F : F). replace (c * 0)%F with (0%F : F) by ring. rewrite creal_0. ring.
Qed.
Lemma levels_elem n w (c : F) t s : length t = n -> length s = n -> opelem (levels n w c) t s = if list_eq_dec Bool.bool_dec t s then creal (c * fofZ (charge w t))%F else c0.
Proof.
  intros Ht Hs. unfold opelem, levels. rewrite csum_map. cbn [fst snd].
  rewrite (csum_ext _ (fun i => if list_eq_dec Bool.bool_dec t s then creal (c * fofZ (w (Z.of_nat i)))%F * cofZ (if nth i t false then 1 else 0) else c0)).
  - destruct (list_eq_dec Bool.bool_dec t s) as [_|_]; [|apply csum_zero; auto]. rewrite zsum_creal. unfold charge. rewrite charge_from_occ, Ht. reflexivity.
  - intros i _. rewrite num_elem. destruct (list_eq_dec Bool.bool_dec t s); auto. rewrite cofZ_0. ring.
Qed.
Lemma levels_NoDup n w (c : F) : NoDup (dkeys (levels n w c)).
Proof.
  unfold levels, dkeys. rewrite map_map. cbn [fst]. apply FinFun.Injective_map_NoDup; [|apply seq_NoDup].
  intros i j E. injection E as E _. lia.
Qed.
Lemma levels_wf n w (c : F) : wf_op n (levels n w c).
Proof.
  split; [apply levels_NoDup|]. unfold levels. apply Forall_map. apply Forall_forall. intros i Hi. apply in_seq in Hi. cbn [fst].
  repeat constructor; cbn [fst snd]; lia.
Qed.
Lemma self_hermitian {A} {EA : EqB A} (op : gop A F) : NoDup (dkeys op) -> (forall p v, In (p, v) op -> (exists x, p = [(x, "c"%char); (x, "a"%char)]) /\ exists r, v = creal r) -> assert_hermitian op = Ok tt.
Proof.
  intros HN H. apply assert_hermitian_iff; [exact HN|]. split.
  - apply Forall_forall. intros [p v] Hi. destruct (H p v Hi) as [(x & ->) _]. cbn [fst]. constructor; [right; reflexivity|constructor; [left; reflexivity|constructor]].
  - intros p v Hv. pose proof (dget_In _ _ _ Hv) as Hi. destruct (H p v Hi) as [(x & ->) (r & ->)].
    change (dag [(x, "c"%char); (x, "a"%char)]) with [(x, "c"%char); (x, "a"%char)]. rewrite Hv. f_equal. unfold cconj, creal. cbn [re im]. f_equal. ring.
Qed.
Lemma levels_hermitian n w (c : F) : assert_hermitian (levels n w c) = Ok tt.
Proof. apply self_hermitian; [apply levels_NoDup|]. intros p v Hi. unfold levels in Hi. apply in_map_iff in Hi as (i & E & _). injection E as <- <-. eauto. Qed.
Lemma levels_addOps n w (c : F) (op : op_t F) : levels_added n w c op (addOps [op; levels n w c]).
Proof. intros t s Ht Hs. rewrite opelem_addOps. cbn [csum]. rewrite levels_elem by auto. ring. Qed.
Section H.
Variable nb : nbaths_t.
Hypothesis W : wf_nbaths nb.
Hypothesis HA : NoDup (angs nb).
Lemma orb_i2c i : In i (seq 0 (n_orb nb)) -> exists x, i2c nb (Z.of_nat i) = Ok x /\ coord_ok nb x /\ coord_index nb x = Z.of_nat i.
Proof.
  intros Hi. apply in_seq in Hi. destruct (i2c_total nb (Z.of_nat i) W) as (x & E & C & X).
  - pose proof (L_Expect.n_orb_Z nb W). lia.
  - exists x. auto.
Qed.
Lemma site_idx w (c : F) : idx_op nb (site_levels nb w c) = levels (n_orb nb) (at_index nb w) c.
Proof.
  unfold idx_op, site_levels, levels. rewrite flat_map_concat_map, concat_map, map_map.
  assert (G : forall l, (forall i, In i l -> In i (seq 0 (n_orb nb))) ->
    concat (map (fun i => map (fun pv => (pidx nb (fst pv), snd pv)) match i2c nb (Z.of_nat i) with Ok x => [(hop2 x x, creal (c * fofZ (w x))%F)] | Err _ => [] end) l) =
    map (fun i => ([(Z.of_nat i, "c"%char); (Z.of_nat i, "a"%char)], creal (c * fofZ (at_index nb w (Z.of_nat i)))%F)) l).
  { induction l as [|i l IH]; intros Hl; [reflexivity|]. cbn [map concat]. rewrite IH by (intros; apply Hl; right; auto).
    destruct (orb_i2c i (Hl i (or_introl eq_refl))) as (x & E & _ & X). unfold at_index. rewrite E. cbn [map fst snd app pidx hop2]. rewrite X. reflexivity. }
  apply G. auto.
Qed.
Lemma site_In w (c : F) p v : In (p, v) (site_levels nb w c) -> exists x, p = hop2 x x /\ coord_ok nb x /\ exists r, v = creal r.
Proof.
  unfold site_levels. intros H. apply in_flat_map in H as (i & Hi & H). destruct (orb_i2c i Hi) as (x & E & C & _). rewrite E in H. destruct H as [H|[]]. injection H as <- <-. exists x. eauto.
Qed.
Lemma site_NoDup w (c : F) : NoDup (dkeys (site_levels nb w c)).
Proof.
  apply (NoDup_map_inv (pidx nb)). rewrite <- idx_keys, site_idx. apply levels_NoDup.
Qed.
Lemma site_hermitian w (c : F) : assert_hermitian (site_levels nb w c) = Ok tt.
Proof. apply self_hermitian; [apply site_NoDup|]. intros p v Hi. apply site_In in Hi as (x & -> & _ & r & ->). unfold hop2. eauto. Qed.
Lemma site_op_in w (c : F) : op_in nb (site_levels nb w c).
Proof. apply Forall_forall. intros [p v] Hi. apply site_In in Hi as (x & -> & C & _). cbn [fst]. unfold hop2. repeat constructor; auto. Qed.
Lemma add_op_in (a b : sop_t F) : NoDup (dkeys a) -> NoDup (dkeys b) -> op_in nb a -> op_in nb b -> op_in nb (addOps [a; b]).
Proof.
  intros Na Nb Ha Hb. apply Forall_forall. intros [p v] Hi. cbn [fst]. apply (in_map fst) in Hi. cbn [fst] in Hi. apply addOps_keys in Hi.
  - destruct Hi as (op & Ho & Hv). assert (Hk : In p (dkeys op)).
    { apply dget_Some_key. unfold val in Hv. destruct (dget op p) eqn:E; eauto. congruence. }
    cbn [In] in Ho. destruct Ho as [E|[E|[]]]; subst op; [exact (op_in_keys _ _ _ Ha Hk)|exact (op_in_keys _ _ _ Hb Hk)].
  - repeat constructor; auto.
Qed.
Lemma idx_elem (op : sop_t F) t s : opelem (idx_op nb op) t s = csum (fun kv => snd kv * cofZ (pelem (pidx nb (fst kv)) t s)) op.
Proof. unfold opelem, idx_op. rewrite csum_map. reflexivity. Qed.
Lemma ham_levels fsqrt pi gaunt fint hp n3d (h0 : sop_t F) w (c : F) :
  (forall l1 l2 l3 m1 m2 m3, gaunt l1 l2 l3 m1 m2 m3 = gaunt l3 l2 l1 m3 m2 m1) ->
  (forall l1 l2 l3 m1 m2 m3, gaunt l1 l2 l3 (- m1)%Z (- m2)%Z (- m3)%Z = gaunt l1 l2 l3 m1 m2 m3) ->
  (forall z, fint (fofZ z) = z) -> dget (hp_n0imps hp) 2%Z = Some n3d -> dget (hp_n0imps hp) 1%Z = Some 6%Z ->
  (5 <= length (hp_Fdd hp))%nat -> (1 <= length (hp_Fpd hp))%nat -> (4 <= length (hp_Gpd hp))%nat -> In 1%Z (angs nb) -> In 2%Z (angs nb) ->
  NoDup (dkeys h0) -> assert_hermitian h0 = Ok tt -> op_in nb h0 ->
  exists hOp hOp', get_hamiltonian_operator fsqrt pi gaunt fint nb hp h0 = Ok hOp /\
    get_hamiltonian_operator fsqrt pi gaunt fint nb hp (addOps [h0; site_levels nb w c]) = Ok hOp' /\ levels_added (n_orb nb) (at_index nb w) c hOp hOp'.
Proof.
  intros G1 G2 FI H2 H1 L1 L2 L3 I1 I2 Hn Hh Hi. unfold get_hamiltonian_operator.
  destruct (total_ok fint FI fsqrt pi gaunt G1 G2 nb W I1 I2 hp n3d H2 H1 L1 L2 L3 h0 Hn Hh Hi) as (E1 & _ & _).
  destruct (total_ok fint FI fsqrt pi gaunt G1 G2 nb W I1 I2 hp n3d H2 H1 L1 L2 L3 (addOps [h0; site_levels nb w c])) as (E2 & _ & _).
  - apply addOps_NoDup.
  - apply addOps_hermitian. repeat constructor; auto using site_NoDup, site_hermitian.
  - apply add_op_in; auto using site_NoDup, site_op_in.
  - rewrite E1, E2. do 2 eexists. split; [reflexivity|]. split; [reflexivity|].
    intros t s Ht Hs. rewrite <- (levels_elem (n_orb nb) (at_index nb w) c t s Ht Hs), <- site_idx, !idx_elem.
    rewrite !(csum_addOps (fun p => cofZ (pelem (pidx nb p) t s))), !csum_app. cbn [csum]. rewrite (csum_addOps (fun p => cofZ (pelem (pidx nb p) t s))). cbn [csum]. ring.
Qed.
End H.
End S.
