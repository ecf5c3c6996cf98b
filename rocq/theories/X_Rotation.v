(* Data for the examples on rotations of spectra: p6 d9 and p6 d1 without bath. *)
From Coq Require Import Reals Lra Field.
From Verif Require Import M_Prelude M_Scalar M_PSR M_State M_Basis M_Expect M_Operators M_Hamiltonian S_Fock S_Ops S_Ham S_Basis S_Expect S_Green S_Operators S_Symmetry S_TimeReversal S_Levels S_Rotation.
From Verif Require Import L_Scalar L_Sum L_Dict L_Fock L_State L_Ops L_Index L_Expect L_Operators4 L_Operators5 L_Symmetry L_Symmetry2 L_Symmetry3 L_Sector L_Symmetry7 X_Util X_Reals X_Ops X_Symmetry X_SumRule.
From Verif Require S_Dict L_Ham L_Operators.
Local Open Scope Z_scope.

Section G.
Context {F : ofield}.
Add Ring CringRo : (@c_ring F).
Variable fsqrt : F -> F.
(* L + S in the shells 1 and 2 *)
Definition J_pd (c : component) : spinorb -> spinorb -> cx F := in_shells (fun l => total_ang fsqrt l c).
Lemma on_m_conj (a b : Z -> Z -> cx F) x y : (forall m m', a m m' = cconj (b m' m)) -> on_m a x y = cconj (on_m b y x).
Proof. intros H. unfold on_m. rewrite (Z.eqb_sym (fst y)). destruct (fst x =? fst y); [apply H|symmetry; apply cconj_0]. Qed.
Lemma on_spin_conj (a b : Z -> Z -> cx F) x y : (forall m m', a m m' = cconj (b m' m)) -> on_spin a x y = cconj (on_spin b y x).
Proof. intros H. unfold on_spin. rewrite (Z.eqb_sym (snd y)). destruct (snd x =? snd y); [apply H|symmetry; apply cconj_0]. Qed.
Lemma J_z_herm l x y : total_ang fsqrt l Cz x y = cconj (total_ang fsqrt l Cz y x).
Proof.
  unfold total_ang. rewrite cconj_add. f_equal; [apply on_m_conj|apply on_spin_conj]; intros m m'; unfold ang, half_spin; rewrite (Z.eqb_sym m').
  - destruct (Z.eqb_spec m m') as [->|]; [now rewrite cconj_cofZ|symmetry; apply cconj_0].
  - destruct (Z.eqb_spec m m') as [->|]; [|symmetry; apply cconj_0]. destruct (m' =? 1); rewrite ?cconj_opp, cconj_real; reflexivity.
Qed.
Lemma J_pm_herm l x y : total_ang fsqrt l Cminus x y = cconj (total_ang fsqrt l Cplus y x).
Proof.
  unfold total_ang. rewrite cconj_add. f_equal; [apply on_m_conj|apply on_spin_conj]; intros m m'; unfold ang, half_spin.
  - replace (m' =? m + 1) with (m =? m' - 1) by (destruct (Z.eqb_spec m (m' - 1)), (Z.eqb_spec m' (m + 1)); auto; lia).
    destruct (Z.eqb_spec m (m' - 1)) as [->|N]; [|symmetry; apply cconj_0]. rewrite cconj_real. f_equal. unfold down_coef, up_coef. f_equal. f_equal. lia.
  - destruct (m =? 0), (m' =? 1); cbn [andb]; rewrite ?cconj_1, ?cconj_0; reflexivity.
Qed.
Lemma J_rotation nb : Forall (coord_ok nb) pd_orbs -> rotation fsqrt nb pd_orbs J_pd.
Proof.
  intros H. split; [apply pd_orbs_NoDup|]. split; [auto|]. split.
  - intros [l s m|k b] [l' s' m'|k' b'] _ _; unfold J_pd, in_shells; rewrite ?cconj_0; auto. rewrite (Z.eqb_sym l' l). destruct (Z.eqb_spec l l') as [->|]; [|rewrite cconj_0; auto]. split; [apply J_z_herm|apply J_pm_herm].
  - left. intros c l Hl. apply (pd_acts (fun l => total_ang fsqrt l c) l Hl).
Qed.
Lemma J_block c x y : J_pd c x y <> c0 -> exists l s m s' m', x = SImp l s m /\ y = SImp l s' m'.
Proof. destruct x as [l s m|], y as [l' s' m'|]; cbn; try congruence. destruct (Z.eqb_spec l l') as [->|]; [|congruence]. intros _. exists l', s, m, s', m'. auto. Qed.

(* product states *)
Definition prods (ss : list config) : list (psi_t F) := map (fun s => [(key s, c1)]) ss.
Lemma amp_prod n s t : length s = n -> length t = n -> amp [(key s, c1 : cx F)] t = if list_eq_dec Bool.bool_dec t s then c1 else c0.
Proof.
  intros Hs Ht. unfold amp. cbn [dget]. destruct (eqb_spec (key t) (key s)) as [E|E]; destruct (list_eq_dec Bool.bool_dec t s) as [->|N]; auto; try congruence.
  elim N. apply (key_inj t s); congruence.
Qed.
Lemma opv_prod n (G : op_t F) s t : length s = n -> opv n G (amp [(key s, c1 : cx F)]) t = opelem G t s.
Proof.
  intros Hs. unfold opv. rewrite (csum_single _ (allcfg n) s (allcfg_NoDup n) (proj2 (allcfg_In n s) Hs)).
  - rewrite (amp_prod n) by auto. destruct (list_eq_dec Bool.bool_dec s s); [ring|congruence].
  - intros y Hy N. apply allcfg_In in Hy. rewrite (amp_prod n) by auto. destruct (list_eq_dec Bool.bool_dec y s); [congruence|ring].
Qed.
Lemma nth_prods ss i : (i < length ss)%nat -> nth i (prods ss) [] = [(key (nth i ss []), c1)].
Proof.
  intros H. set (f := fun s : config => [(key s, c1)] : psi_t F). change (nth i (map f ss) [] = f (nth i ss [])).
  etransitivity; [apply (nth_indep (map f ss) ([] : psi_t F) (f [])); rewrite map_length; auto|apply (map_nth f)].
Qed.
Lemma prods_orthonormal n ss : NoDup ss -> Forall (fun s => length s = n) ss -> orthonormal_states n (prods ss).
Proof.
  intros HN HL i j Hi Hj. unfold prods in Hi, Hj. rewrite map_length in Hi, Hj. rewrite !nth_prods by auto. rewrite Forall_forall in HL. assert (Li := HL _ (nth_In ss [] Hi)). assert (Lj := HL _ (nth_In ss [] Hj)).
  unfold vdot. rewrite (csum_single _ (allcfg n) (nth i ss []) (allcfg_NoDup n) (proj2 (allcfg_In n _) Li)).
  - rewrite (amp_prod n (nth i ss [])), (amp_prod n (nth j ss [])) by auto. match goal with |- context [if list_eq_dec ?d ?a ?a then _ else _] => destruct (list_eq_dec d a a) as [_|]; [|congruence] end. rewrite cconj_1.
    destruct (Nat.eqb_spec i j) as [->|Nij].
    + destruct (list_eq_dec Bool.bool_dec _ _); [ring|congruence].
    + destruct (list_eq_dec Bool.bool_dec _ _) as [E|]; [|ring]. elim Nij. apply (proj1 (NoDup_nth ss []) HN); auto.
  - intros y Hy N. apply allcfg_In in Hy. rewrite (amp_prod n (nth i ss [])) by auto. destruct (list_eq_dec Bool.bool_dec y (nth i ss [])); [congruence|]. rewrite cconj_0. ring.
Qed.
Lemma nth_repeat_in {A} (e d : A) k i : (i < k)%nat -> nth i (repeat e k) d = e.
Proof. intros H. rewrite (nth_indep _ d e) by (rewrite repeat_length; auto). apply nth_repeat. Qed.
Lemma prods_multiplets n (G : op_t F) e ss : NoDup ss -> Forall (fun s => length s = n) ss ->
  (forall t s, In s ss -> length t = n -> opelem G t s <> c0 -> In t ss) -> multiplets n (repeat e (length ss)) (prods ss) G.
Proof.
  intros HN HL HC i Hi. rewrite repeat_length in Hi. assert (HL' := HL). rewrite Forall_forall in HL'. assert (Li := HL' _ (nth_In ss [] Hi)).
  exists (fun j => opelem G (nth j ss []) (nth i ss [])). assert (Lp : length (prods ss) = length ss) by (unfold prods; apply map_length). split.
  - intros j Hj N. rewrite Lp in Hj. exfalso. apply N. rewrite (nth_repeat_in e), (nth_repeat_in e) by auto. reflexivity.
  - intros t Ht. rewrite nth_prods, opv_prod by auto. rewrite Lp.
    rewrite (csum_ext _ (fun j => opelem G (nth j ss []) (nth i ss []) * if list_eq_dec Bool.bool_dec t (nth j ss []) then c1 else c0)%C).
    2:{ intros j Hj. apply in_seq in Hj. assert (Hj' : (j < length ss)%nat) by lia. rewrite nth_prods, (amp_prod n) by (first [exact Hj'|exact Ht|apply HL', nth_In, Hj']). reflexivity. }
    destruct (in_dec (list_eq_dec Bool.bool_dec) t ss) as [Hin|Hout].
    + apply (In_nth ss t []) in Hin as (j & Hj & <-). rewrite (csum_single _ _ j (seq_NoDup _ _)).
      * match goal with |- context [if list_eq_dec ?d ?a ?a then _ else _] => destruct (list_eq_dec d a a) as [_|]; [|congruence] end. match goal with |- ?a = _ => change (a = a * c1)%C end. ring.
      * apply in_seq. lia.
      * intros k Hk N. apply in_seq in Hk. match goal with |- context [if list_eq_dec ?d ?a ?b then _ else _] => destruct (list_eq_dec d a b) as [E|]; [|ring] end. elim N. symmetry. apply (proj1 (NoDup_nth ss []) HN); auto; lia.
    + rewrite csum_zero.
      * destruct (ceqb_spec (opelem G t (nth i ss [])) c0) as [E|E]; [auto|]. elim Hout. apply (HC t (nth i ss [])); auto. apply nth_In. auto.
      * intros j Hj. apply in_seq in Hj. match goal with |- context [if list_eq_dec ?d ?a ?b then _ else _] => destruct (list_eq_dec d a b) as [E|]; [|ring] end. elim Hout. rewrite E. apply nth_In. lia.
Qed.
(* hops within a shell lead from ss to ss *)
Definition hops_in (nb : nbaths_t) (ss : list config) : bool :=
  forallb (fun s => forallb (fun x => forallb (fun y =>
    match x, y with SImp l _ _, SImp l' _ _ => if l =? l' then match proc_act (hop nb x y) s with Some (t, _) => existsb (list_eqb t) ss | None => true end else true | _, _ => true end) pd_orbs) pd_orbs) ss.
Lemma hops_closed nb c ss : hops_in nb ss = true -> forall t s, In s ss -> opelem (generator nb pd_orbs (J_pd c)) t s <> c0 -> In t ss.
Proof.
  intros H t s Hs He. unfold opelem, generator, one_body in He. rewrite csum_map, csum_flat_map in He. apply csum_ne in He as (x & Hx & He). rewrite csum_map in He. apply csum_ne in He as (y & Hy & He). cbn [fst snd] in He. apply mul_ne in He as [HM Hp].
  unfold hops_in in H. rewrite forallb_forall in H. specialize (H s Hs). cbv beta in H. rewrite forallb_forall in H. specialize (H x Hx). cbv beta in H. rewrite forallb_forall in H. specialize (H y Hy). cbv beta in H.
  destruct (J_block c x y HM) as (l & sp & m & sp' & m' & -> & ->). rewrite Z.eqb_refl in H. unfold pelem in Hp.
  destruct (proc_act (hop nb (SImp l sp m) (SImp l sp' m')) s) as [[t' sg]|]; [|now elim Hp]. destruct (list_eqb_spec t t') as [->|]; [|now elim Hp].
  apply existsb_exists in H as (u & Hu & Eu). destruct (list_eqb_spec t' u) as [->|]; [auto|discriminate].
Qed.
(* the number of electrons in 3d as Hamiltonian *)
Definition Nd_op (nb : nbaths_t) : op_t F := map (fun x => (hop nb x x, c1)) (shell 2).
Lemma Nd_commute nb c : wf_nbaths nb -> Forall (coord_ok nb) pd_orbs -> commute (n_orb nb) (Nd_op nb) (generator nb pd_orbs (J_pd c)).
Proof.
  intros Hw HOk. set (H := fun x y : spinorb => if spinorb_eqb x y then match x with SImp l _ _ => if l =? 2 then c1 else c0 | _ => c0 end else (c0 : cx F)).
  assert (E : forall t s, opelem (Nd_op nb) t s = opelem (generator nb pd_orbs H) t s).
  { intros t s. unfold opelem, Nd_op, generator, one_body. rewrite !csum_map, csum_flat_map. cbn [fst snd].
    transitivity (csum (fun x => H x x * cofZ (pelem (hop nb x x) t s))%C pd_orbs).
    - unfold pd_orbs. rewrite csum_app, (csum_zero _ (shell 1)).
      + match goal with |- _ = (c0 + ?r)%C => transitivity r; [|ring] end. apply csum_ext. intros x Hx. apply shell_In in Hx as (s0 & m & -> & _). unfold H. destruct (spinorb_eqb_ok (SImp 2 s0 m) (SImp 2 s0 m)); [reflexivity|congruence].
      + intros x Hx. apply shell_In in Hx as (s0 & m & -> & _). unfold H. destruct (spinorb_eqb_ok (SImp 1 s0 m) (SImp 1 s0 m)); cbn; ring.
    - apply csum_ext. intros x Hx. rewrite csum_map. cbn [fst snd]. symmetry. rewrite (csum_single _ pd_orbs x pd_orbs_NoDup Hx); [reflexivity|].
      intros y Hy N. unfold H. destruct (spinorb_eqb_ok x y); [congruence|ring]. }
  assert (EV : forall v t, opv (n_orb nb) (Nd_op nb) v t = opv (n_orb nb) (generator nb pd_orbs H) v t) by (intros v t; unfold opv; apply csum_ext; intros s _; rewrite E; reflexivity).
  assert (C : commute (n_orb nb) (generator nb pd_orbs H) (generator nb pd_orbs (J_pd c))).
  { apply one_body_commute; [auto|apply pd_orbs_NoDup|auto|]. intros x y Hx Hy.
    rewrite (csum_single _ pd_orbs y pd_orbs_NoDup Hy), (csum_single _ pd_orbs x pd_orbs_NoDup Hx).
    - unfold H. destruct (spinorb_eqb_ok x x); [|congruence]. destruct (spinorb_eqb_ok y y); [|congruence]. unfold J_pd, in_shells. destruct x as [l s m|], y as [l' s' m'|]; try ring. destruct (Z.eqb_spec l l') as [->|]; ring.
    - intros w _ N. unfold H. destruct (spinorb_eqb_ok x w); [congruence|ring].
    - intros w _ N. unfold H. destruct (spinorb_eqb_ok w y); [congruence|ring]. }
  intros v t Ht. rewrite EV, (C v t Ht). apply L_Symmetry6.opv_ext. intros s _. symmetry. apply EV.
Qed.
Lemma Nd_int nb t s : exists z, opelem (Nd_op nb) t s = cofZ z.
Proof.
  unfold opelem, Nd_op. rewrite csum_map. cbn [fst snd]. generalize (shell 2). intros L. induction L as [|x L (z & Hz)]; [exists 0; reflexivity|]. cbn [csum]. exists (pelem (hop nb x x) t s + z). rewrite Hz, cofZ_add. ring.
Qed.
End G.
Lemma Nd_small nb n : @S_Dict.no_small RF n (Nd_op nb).
Proof.
  intros t s _ _. destruct (@Nd_int RF nb t s) as (z & ->). destruct (Z.eqb_spec z 0) as [->|N]; [left; reflexivity|right].
  unfold eps12, cabs2, cofZ, creal. cbn [re im]. rewrite !RofZ. 
  apply rltb_false. change (1 / 1000000000000 <= IZR z * IZR z + 0 * 0)%R. rewrite <- mult_IZR. assert (1 <= z * z)%Z by nia. apply IZR_le in H. lra.
Qed.
Section H.
Context {F : ofield}.
Lemma Nd_dget nb p h : dget (Nd_op nb : op_t F) p = Some h -> dget (Nd_op nb : op_t F) (dag p) = Some (cconj h).
Proof.
  intros H. assert (Hi := dget_In _ _ _ H). unfold Nd_op in Hi. apply in_map_iff in Hi as (x & E & _). injection E as <- <-. rewrite cconj_1. rewrite <- H. f_equal.
Qed.
End H.
(* p6 d1 *)
Definition p6d1 : list config := map (fun j => repeat true 6 ++ repeat false j ++ [true] ++ repeat false (9 - j)) (seq 0 10).
Lemma p6d1_hops : hops_in (pd_baths 0) p6d1 = true.
Proof. vm_compute. reflexivity. Qed.
