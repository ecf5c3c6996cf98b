(* Unitary changes of the bath orbitals: groups of five orbitals, one-particle Hamiltonians, the total Hamiltonian. *)
From Coq Require Import Permutation Ring Field.
From Verif Require Import M_Prelude M_Scalar M_PSR M_State M_Mpi M_Hamiltonian M_Basis M_Expect M_Operators S_Fock S_Ops S_Basis S_Expect S_Operators S_Symmetry S_TimeReversal S_Unitary S_Unitary2.
From Verif Require Import L_Scalar L_Sum L_Dict L_Fock L_State L_Ops L_FockP L_Expect L_Symmetry L_Index L_Operators L_Operators2 L_Operators3 L_Operators4 L_Operators5 L_Symmetry3 L_Unitary L_Unitary2 L_Shift2.
Local Open Scope Z_scope.

Section G.
Context {F : ofield}.
Add Field Ff : (f_field F).
Add Field Cf : (@c_field F).
Local Open Scope cx_scope.
Variables (b0 g n : nat).
Hypothesis Hb : (b0 + 5 * g <= n)%nat.
Definition inblk (j : nat) : Prop := (b0 <= j < b0 + 5 * g)%nat.
Lemma inblk_dec j : inblk j \/ ~ inblk j. Proof. unfold inblk. lia. Qed.
Lemma inblk_form j : inblk j -> exists q r, j = (b0 + 5 * q + r)%nat /\ (q < g)%nat /\ (r < 5)%nat.
Proof. intros H. exists ((j - b0) / 5)%nat, ((j - b0) mod 5)%nat. unfold inblk in H. pose proof (Nat.div_mod (j - b0) 5 ltac:(lia)). pose proof (Nat.mod_upper_bound (j - b0) 5 ltac:(lia)). split; [lia|]. split; [|lia]. apply Nat.div_lt_upper_bound; lia. Qed.
Lemma grp q r : (r < 5)%nat -> ((b0 + 5 * q + r - b0) / 5 = q)%nat /\ ((b0 + 5 * q + r - b0) mod 5 = r)%nat.
Proof. intros H. replace (b0 + 5 * q + r - b0)%nat with (r + q * 5)%nat by lia. rewrite Nat.div_add, Nat.mod_add, Nat.div_small, Nat.mod_small by lia. split; lia. Qed.
Lemma gt_in m q q' r r' : (q < g)%nat -> (q' < g)%nat -> (r < 5)%nat -> (r' < 5)%nat -> group_turn (F := F) b0 g m (b0 + 5 * q + r) (b0 + 5 * q' + r') = if Nat.eqb q q' then m r r' else c0.
Proof.
  intros H1 H2 H3 H4. unfold group_turn. destruct (grp q r H3) as [-> ->]. destruct (grp q' r' H4) as [-> ->].
  assert (A : forall a s, (a < g)%nat -> (s < 5)%nat -> (b0 <=? b0 + 5 * a + s)%nat = true /\ (b0 + 5 * a + s <? b0 + 5 * g)%nat = true) by (intros a s Ha Hs; split; [apply Nat.leb_le; lia|apply Nat.ltb_lt; lia]).
  destruct (A q r H1 H3) as [-> ->]. destruct (A q' r' H2 H4) as [-> ->]. cbn [andb]. destruct (Nat.eqb_spec q q') as [->|N]; [reflexivity|]. destruct (Nat.eqb_spec (b0 + 5 * q + r) (b0 + 5 * q' + r')); [lia|reflexivity].
Qed.
Lemma gt_out m j i : ~ inblk j \/ ~ inblk i -> group_turn (F := F) b0 g m j i = if Nat.eqb j i then c1 else c0.
Proof.
  intros H. unfold group_turn. destruct (Nat.leb_spec b0 j), (Nat.ltb_spec j (b0 + 5 * g)), (Nat.leb_spec b0 i), (Nat.ltb_spec i (b0 + 5 * g)); cbn [andb]; try reflexivity. unfold inblk in H. lia.
Qed.
(* the sum over a row of the matrix *)
Lemma row_out m j (f : nat -> cx F) : ~ inblk j -> (j < n)%nat -> csum (fun i => group_turn b0 g m j i * f i) (seq 0 n) = f j.
Proof.
  intros H Hj. rewrite (csum_ext _ (fun i => (if Nat.eqb j i then c1 else c0) * f i)) by (intros i _; rewrite gt_out by auto; reflexivity).
  rewrite (csum_single (fun i => (if Nat.eqb j i then c1 else c0) * f i) _ j (seq_NoDup n 0)); [rewrite Nat.eqb_refl; ring|apply in_seq; lia|].
  intros i _ Hi. destruct (Nat.eqb_spec j i); [congruence|ring].
Qed.
Lemma csum_shift (f : nat -> cx F) a l : csum f (seq a l) = csum (fun r => f (a + r)%nat) (seq 0 l).
Proof.
  revert f a. induction l as [|l IH]; intros f a; [reflexivity|]. cbn [seq csum]. rewrite Nat.add_0_r. f_equal. rewrite IH, (IH (fun r => f (a + r)%nat) 1%nat). apply csum_ext. intros r _. f_equal. lia.
Qed.
Lemma row_in m q r (f : nat -> cx F) : (q < g)%nat -> (r < 5)%nat -> csum (fun i => group_turn b0 g m (b0 + 5 * q + r) i * f i) (seq 0 n) = csum (fun r' => m r r' * f (b0 + 5 * q + r')%nat) (seq 0 5).
Proof.
  intros Hq Hr. assert (E : seq 0 n = seq 0 (b0 + 5 * q) ++ seq (b0 + 5 * q) 5 ++ seq (b0 + 5 * q + 5) (n - (b0 + 5 * q + 5))).
  { replace n with (b0 + 5 * q + (5 + (n - (b0 + 5 * q + 5))))%nat at 1 by lia. rewrite (seq_app (b0 + 5 * q)), (seq_app 5). reflexivity. }
  assert (Z : forall i, ~ (b0 + 5 * q <= i < b0 + 5 * q + 5)%nat -> group_turn (F := F) b0 g m (b0 + 5 * q + r) i = c0).
  { intros i Hi. destruct (inblk_dec i) as [Hi'|Hi'].
    - destruct (inblk_form i Hi') as (q' & r' & -> & Hq' & Hr'). rewrite gt_in by auto. destruct (Nat.eqb_spec q q'); [subst; lia|reflexivity].
    - rewrite gt_out by auto. destruct (Nat.eqb_spec (b0 + 5 * q + r) i); [lia|reflexivity]. }
  rewrite E, !csum_app, (csum_zero _ (seq 0 (b0 + 5 * q))), (csum_zero _ (seq (b0 + 5 * q + 5) _)), csum_shift.
  - rewrite (csum_ext _ (fun r' => m r r' * f (b0 + 5 * q + r')%nat)); [ring|]. intros r' Hr'. apply in_seq in Hr'. rewrite gt_in, Nat.eqb_refl by lia. reflexivity.
  - intros i Hi. apply in_seq in Hi. rewrite Z by lia. ring.
  - intros i Hi. apply in_seq in Hi. rewrite Z by lia. ring.
Qed.
Lemma gt_rows (m : nat -> nat -> cx F) : (forall i j, (i < 5)%nat -> (j < 5)%nat -> csum (fun k => m i k * cconj (m j k)) (seq 0 5) = if Nat.eqb i j then c1 else c0) ->
  forall i j, (i < n)%nat -> (j < n)%nat -> csum (fun k => group_turn b0 g m i k * cconj (group_turn b0 g m j k)) (seq 0 n) = if Nat.eqb i j then c1 else c0.
Proof.
  intros H i j Hi Hj. destruct (inblk_dec i) as [Bi|Bi].
  - destruct (inblk_form i Bi) as (q & r & -> & Hq & Hr). rewrite (row_in m q r (fun k => cconj (group_turn b0 g m j k))) by auto. destruct (inblk_dec j) as [Bj|Bj].
    + destruct (inblk_form j Bj) as (q' & r' & -> & Hq' & Hr'). destruct (Nat.eqb_spec q q') as [<-|N].
      * rewrite (csum_ext _ (fun k => m r k * cconj (m r' k))) by (intros k Hk; apply in_seq in Hk; rewrite gt_in, Nat.eqb_refl by lia; reflexivity). rewrite H by auto.
        destruct (Nat.eqb_spec r r'), (Nat.eqb_spec (b0 + 5 * q + r) (b0 + 5 * q + r')); try reflexivity; lia.
      * rewrite csum_zero; [destruct (Nat.eqb_spec (b0 + 5 * q + r) (b0 + 5 * q' + r')); [lia|reflexivity]|]. intros k Hk. apply in_seq in Hk. rewrite gt_in by lia. destruct (Nat.eqb_spec q' q); [congruence|]. rewrite cconj_0. ring.
    + rewrite csum_zero; [destruct (Nat.eqb_spec (b0 + 5 * q + r) j); [congruence|reflexivity]|]. intros k Hk. apply in_seq in Hk. rewrite gt_out by auto. destruct (Nat.eqb_spec j (b0 + 5 * q + k)) as [Ej|_]; [|rewrite cconj_0; ring]. elim Bj. unfold inblk. lia.
  - rewrite (row_out m i (fun k => cconj (group_turn b0 g m j k))) by auto. rewrite gt_out by auto. rewrite Nat.eqb_sym. destruct (Nat.eqb i j); [apply cconj_1|apply cconj_0].
Qed.
Lemma gt_adj m j i : group_turn (F := F) b0 g (fun a b => cconj (m b a)) i j = cconj (group_turn b0 g m j i).
Proof.
  destruct (inblk_dec i) as [Bi|Bi]; [destruct (inblk_dec j) as [Bj|Bj]|].
  - destruct (inblk_form i Bi) as (q & r & -> & Hq & Hr). destruct (inblk_form j Bj) as (q' & r' & -> & Hq' & Hr'). rewrite !gt_in by auto. rewrite (Nat.eqb_sym q' q). destruct (Nat.eqb q q'); [reflexivity|now rewrite cconj_0].
  - rewrite !gt_out by auto. rewrite (Nat.eqb_sym j i). destruct (Nat.eqb i j); [now rewrite cconj_1|now rewrite cconj_0].
  - rewrite !gt_out by auto. rewrite (Nat.eqb_sym j i). destruct (Nat.eqb i j); [now rewrite cconj_1|now rewrite cconj_0].
Qed.
Lemma gt_unitary (m : list (list (cx F))) : unitary 5 m -> unitary_orbitals n (group_turn b0 g (at_m m)).
Proof.
  intros (_ & H1 & H2) i j Hi Hj. split; [|apply gt_rows; auto]. rewrite <- (gt_rows (fun a b => cconj (at_m m b a))); auto.
  - apply csum_ext. intros k _. rewrite !gt_adj, cconj_conj. reflexivity.
  - intros a b Ha Hb'. transitivity (delta (F := F) a b); [|reflexivity]. rewrite <- (H1 a b Ha Hb'). apply csum_ext. intros k _. rewrite cconj_conj. reflexivity.
Qed.
Lemma gt_kept m i : ~ inblk i -> kept n (group_turn (F := F) b0 g m) i.
Proof. intros H j _. apply gt_out. auto. Qed.
End G.

Section H.
Context {F : ofield}.
Add Field Ff1 : (f_field F).
Add Field Cf1 : (@c_field F).
Local Open Scope cx_scope.
Lemma turns_eq n u (A A' B B' : op_t F) : (forall t s, length t = n -> length s = n -> opelem A t s = opelem A' t s) -> (forall t s, length t = n -> length s = n -> opelem B t s = opelem B' t s) -> turns n u A B -> turns n u A' B'.
Proof.
  intros HA HB H v t Ht. assert (X : forall (P Q : op_t F) v t, (forall t s, length t = n -> length s = n -> opelem P t s = opelem Q t s) -> length t = n -> opv n Q v t = opv n P v t) by (intros P Q w r E Hr; apply csum_ext; intros s Hs; apply allcfg_In in Hs; rewrite E; auto).
  rewrite (X B B') by auto. rewrite <- H by auto. apply T_ext. intros s Hs. apply X; auto.
Qed.
Lemma turns_app n u (A A' B B' : op_t F) : turns n u A B -> turns n u A' B' -> turns n u (A ++ A') (B ++ B').
Proof.
  intros H H' v t Ht. assert (X : forall (P Q : op_t F) v t, opv n (P ++ Q) v t = opv n P v t + opv n Q v t) by (intros P Q w r; unfold opv; rewrite <- csum_add; apply csum_ext; intros s _; unfold opelem; rewrite csum_app; ring).
  rewrite X, <- H, <- H' by auto. unfold turned. rewrite <- csum_add. apply csum_ext. intros s _. rewrite X. ring.
Qed.
Lemma turns_nil n u : turns n u ([] : op_t F) [].
Proof.
  intros v t Ht. assert (X : forall w r, opv n ([] : op_t F) w r = c0) by (intros w r; unfold opv; apply csum_zero; intros s _; unfold opelem; cbn [csum]; ring).
  rewrite X. unfold turned. apply csum_zero. intros s _. rewrite X. ring.
Qed.
Lemma turns_concat n u (l : list (op_t F)) : Forall (fun A => turns n u A A) l -> turns n u (concat l) (concat l).
Proof. induction 1 as [|A l HA _ IH]; cbn [concat]; [apply turns_nil|apply turns_app; auto]. Qed.
(* an operator that consists of hoppings is given by its matrix *)
Lemma val_sum {A} {EA : EqB A} (op : gop A F) p : NoDup (dkeys op) -> val op p = csum (fun kv => if eqb p (fst kv) then snd kv else c0) op.
Proof.
  unfold val. induction op as [|[k v] op IH]; intros Hn; [reflexivity|]. cbn [dkeys map fst] in Hn. apply NoDup_cons_iff in Hn as [Hk Hn]. cbn [dget csum fst snd].
  destruct (eqb_spec p k) as [->|N]; [|rewrite <- IH by auto; ring]. rewrite csum_zero; [ring|]. intros [k' v'] Hi. cbn [fst snd]. destruct (eqb_spec k k') as [->|]; [|reflexivity]. elim Hk. apply (in_map fst) in Hi. exact Hi.
Qed.
Lemma csum_val {A} {EA : EqB A} (op : gop A F) K (f : list (A * ascii) -> cx F) : NoDup K -> NoDup (dkeys op) -> (forall p, In p (dkeys op) -> In p K) ->
  csum (fun p => val op p * f p) K = csum (fun kv => snd kv * f (fst kv)) op.
Proof.
  intros HK Hn Hi. rewrite (csum_ext _ (fun p => csum (fun kv => (if eqb p (fst kv) then snd kv else c0) * f p) op)) by (intros p _; rewrite val_sum, csum_mul_r by auto; reflexivity).
  rewrite csum_swap. apply csum_ext. intros kv Hkv. rewrite (csum_single (fun p => (if eqb p (fst kv) then snd kv else c0) * f p) K (fst kv) HK).
  - rewrite eqb_refl. reflexivity.
  - apply Hi. apply (in_map fst) in Hkv. exact Hkv.
  - intros p _ Hp. destruct (eqb_spec p (fst kv)); [congruence|ring].
Qed.
Variable nb : nbaths_t.
Hypothesis W : wf_nbaths nb.
Notation n := (n_orb nb).
Lemma coord_lt x : coord_ok nb x -> exists i, coord_index nb x = Z.of_nat i /\ (i < n)%nat.
Proof.
  intros H. destruct (c2i_P nb x W H) as (_ & X & _). exists (Z.to_nat (coord_index nb x)). pose proof (L_Expect.n_orb_Z nb W). split; lia.
Qed.
Lemma hops_val (h : sop_t F) t s : NoDup (dkeys h) -> op_in nb h -> only_hops h -> opelem (hops n (hop_matrix nb h)) t s = opelem (indexed nb h) t s.
Proof.
  intros Hn Hi Ho. unfold hops, opelem. rewrite csum_flat_map. 
  transitivity (csum (fun p => val (indexed nb h) p * cofZ (pelem p t s)) (flat_map (fun i => map (fun j => [(Z.of_nat i, lab_c); (Z.of_nat j, lab_a)]) (seq 0 n)) (seq 0 n))).
  - rewrite csum_flat_map. apply csum_ext. intros i _. rewrite !csum_map. reflexivity.
  - rewrite (csum_val (indexed nb h)).
    + reflexivity.
    + assert (X : forall l l', NoDup l -> NoDup l' -> NoDup (flat_map (fun i => map (fun j => [(Z.of_nat i, lab_c); (Z.of_nat j, lab_a)]) l') l)).
      { intros l l' Hl Hl'. induction Hl as [|i l Hx Hl IH]; cbn [flat_map]; [constructor|]. apply NoDup_app_intro; [|exact IH|].
        - apply NoDup_map_on; [|auto]. intros a b _ _ E. injection E as E. lia.
        - intros p Hp Hq. apply in_map_iff in Hp as (j & <- & _). apply in_flat_map in Hq as (i' & Hi' & Hq). apply in_map_iff in Hq as (j' & E & _). injection E as E1 E2. apply Nat2Z.inj in E1. subst. contradiction. }
      apply X; apply seq_NoDup.
    + exact (idx_NoDup nb h W Hi Hn).
    + intros p Hp. change (In p (dkeys (idx_op nb h))) in Hp. rewrite idx_keys in Hp. apply in_map_iff in Hp as (p' & <- & Hp'). destruct (Ho p' Hp') as (x & y & ->). pose proof (op_in_keys nb h _ Hi Hp') as C. apply Forall_cons_iff in C as [Cx C]. apply Forall_cons_iff in C as [Cy _]. cbn [fst] in Cx, Cy.
      destruct (coord_lt x Cx) as (i & Ei & Hi'). destruct (coord_lt y Cy) as (j & Ej & Hj'). apply in_flat_map. exists i. split; [apply in_seq; lia|]. apply in_map_iff. exists j. split; [|apply in_seq; lia]. unfold pidx, hop2. cbn [map fst snd]. rewrite Ei, Ej. reflexivity.
Qed.
(* turned one-particle Hamiltonians *)
Lemma turns_h0 u (h0 h0' : sop_t F) : unitary_orbitals n u -> NoDup (dkeys h0) -> op_in nb h0 -> only_hops h0 -> NoDup (dkeys h0') -> op_in nb h0' -> only_hops h0' ->
  (forall i j, (i < n)%nat -> (j < n)%nat -> hop_matrix nb h0' i j = turned_hops n u (hop_matrix nb h0) i j) -> turns n u (indexed nb h0) (indexed nb h0').
Proof.
  intros HU N1 I1 O1 N2 I2 O2 E. apply (turns_eq n u (hops n (hop_matrix nb h0)) _ (hops n (turned_hops n u (hop_matrix nb h0)))).
  - intros t s _ _. apply hops_val; auto.
  - intros t s _ _. rewrite <- hops_val by auto. unfold opelem, hops. rewrite !csum_flat_map. apply csum_ext. intros i Hi. apply in_seq in Hi. rewrite !csum_map. apply csum_ext. intros j Hj. apply in_seq in Hj. cbn [fst snd]. rewrite E by lia. reflexivity.
  - apply turns_hops. auto.
Qed.
Section P.
Variables (fsqrt : F -> F) (pi : F) (gaunt : Z -> Z -> Z -> Z -> Z -> Z -> F) (fint : F -> Z).
Variables (hp : @ham_params F) (n3d : Z).
Hypothesis gaunt_swap : forall l1 l2 l3 m1 m2 m3, gaunt l1 l2 l3 m1 m2 m3 = gaunt l3 l2 l1 m3 m2 m1.
Hypothesis gaunt_neg : forall l1 l2 l3 m1 m2 m3, gaunt l1 l2 l3 (- m1)%Z (- m2)%Z (- m3)%Z = gaunt l1 l2 l3 m1 m2 m3.
Hypothesis FI : forall z, fint (fofZ z) = z.
Hypothesis Hn3d : dget (hp_n0imps hp) 2%Z = Some n3d.
Hypothesis Hn2p : dget (hp_n0imps hp) 1%Z = Some 6%Z.
Hypothesis HFdd : (5 <= length (hp_Fdd hp))%nat.
Hypothesis HFpd : (1 <= length (hp_Fpd hp))%nat.
Hypothesis HGpd : (4 <= length (hp_Gpd hp))%nat.
Hypothesis Hp1 : In 1%Z (angs nb).
Hypothesis Hd2 : In 2%Z (angs nb).
Lemma imp_kept u (op : sop_t F) : unitary_orbitals n u -> kept_impurity nb u -> NoDup (dkeys op) -> assert_hermitian op = Ok tt -> op_in nb op ->
  (forall p xa, In p (dkeys op) -> In xa p -> exists l s m, fst xa = SImp l s m) -> turns n u (idx_op nb op) (idx_op nb op).
Proof.
  intros HU HK Hn Hh Hi Hs. apply turns_kept; [auto|apply idx_wf; auto; apply assert_hermitian_iff in Hh; [apply Hh|auto]|].
  intros p l Hp Hl. rewrite idx_keys in Hp. apply in_map_iff in Hp as (p' & <- & Hp'). unfold pidx in Hl. apply in_map_iff in Hl as (xa & <- & Hx). cbn [fst]. destruct (Hs p' xa Hp' Hx) as (l & s & m & E).
  pose proof (op_in_keys nb op _ Hi Hp') as C. rewrite Forall_forall in C. specialize (C xa Hx). destruct (c2i_P nb (fst xa) W C) as (_ & X & Y). rewrite E in *. apply HK. lia.
Qed.
Lemma parts_imp op p xa : In op (h_parts fsqrt pi gaunt hp n3d) -> In p (dkeys op) -> In xa p -> exists l s m, fst xa = SImp l s m.
Proof.
  assert (S : forall l x, in_shell l x -> exists l s m, x = SImp l s m) by (intros l x (s & m & -> & _); eauto).
  assert (B : forall l (o : sop_t F) h, one_body_op l o h -> forall p xa, In p (dkeys o) -> In xa p -> exists l s m, fst xa = SImp l s m).
  { intros l o h [H _] q ya Hq Hy. destruct (H q Hq) as (x & y & -> & Hx & Hy'). destruct Hy as [<-|[<-|[]]]; cbn [fst]; eauto. }
  intros [<-|[<-|[<-|[<-|[<-|[]]]]]] Hp Hx.
  - apply pd_keys in Hp as (x & y & z & t & -> & _ & _ & H). assert (G : In (fst xa) [x; y; z; t]) by (destruct Hx as [<-|[<-|[<-|[<-|[]]]]]; cbn; auto). rewrite Forall_forall in H. destruct (H _ G) as [Ha|Ha]; eauto.
  - eapply (B 2%Z); [apply fld_matrix|exact Hp|exact Hx].
  - eapply (B 1%Z); [apply soc_matrix|exact Hp|exact Hx].
  - eapply (B 2%Z); [apply soc_matrix|exact Hp|exact Hx].
  - apply dget_Some_key in Hp as [v Hp]. apply eDC_dget, eDC_In in Hp as (x & -> & H). assert (X : exists l s m, x = SImp l s m) by (destruct H as [[H _]|[H _]]; eauto). destruct Hx as [<-|[<-|[]]]; cbn [fst]; auto.
Qed.
(* the total Hamiltonian *)
Lemma total_turned u rs (h0 h0' : sop_t F) hOp hOp' : unitary_orbitals n u -> kept_impurity nb u -> wf_restr rs -> unmixed n u rs ->
  NoDup (dkeys h0) -> assert_hermitian h0 = Ok tt -> op_in nb h0 -> NoDup (dkeys h0') -> assert_hermitian h0' = Ok tt -> op_in nb h0' ->
  turns n u (indexed nb h0) (indexed nb h0') ->
  get_hamiltonian_operator fsqrt pi gaunt fint nb hp h0 = Ok hOp -> get_hamiltonian_operator fsqrt pi gaunt fint nb hp h0' = Ok hOp' ->
  S_Dict.no_small n hOp -> S_Dict.no_small n hOp' -> turned_hamiltonians n u rs hOp hOp'.
Proof.
  intros HU HK Hr Hm N1 H1 I1 N2 H2 I2 HT E E' S S'. unfold get_hamiltonian_operator in E, E'.
  destruct (total_ok fint FI fsqrt pi gaunt gaunt_swap gaunt_neg nb W Hp1 Hd2 hp n3d Hn3d Hn2p HFdd HFpd HGpd h0 N1 H1 I1) as (X1 & X2 & X3). rewrite E in X1. injection X1 as ->.
  destruct (total_ok fint FI fsqrt pi gaunt gaunt_swap gaunt_neg nb W Hp1 Hd2 hp n3d Hn3d Hn2p HFdd HFpd HGpd h0' N2 H2 I2) as (Y1 & Y2 & Y3). rewrite E' in Y1. injection Y1 as ->.
  repeat (split; [assumption|]). split; [|split; assumption]. set (parts := h_parts fsqrt pi gaunt hp n3d) in *.
  assert (D : forall h : sop_t F, forall t s, opelem (concat (map (idx_op nb) parts) ++ idx_op nb h) t s = opelem (idx_op nb (addOps (parts ++ [h]))) t s).
  { intros h t s. rewrite idx_elem, (csum_addOps (fun p => cofZ (pelem (pidx nb p) t s))), csum_app. cbn [csum]. unfold opelem at 1. rewrite csum_app. f_equal; [|unfold idx_op; rewrite csum_map; cbn [fst snd]; ring].
    rewrite <- flat_map_concat_map, csum_flat_map. apply csum_ext. intros o _. unfold idx_op. rewrite csum_map. reflexivity. }
  apply (turns_eq n u (concat (map (idx_op nb) parts) ++ idx_op nb h0) _ (concat (map (idx_op nb) parts) ++ idx_op nb h0')); [intros; apply D|intros; apply D|]. apply turns_app; [|exact HT].
  apply turns_concat. apply Forall_map, Forall_forall. intros o Ho. pose proof (parts_hermitian fsqrt pi gaunt gaunt_swap gaunt_neg hp n3d) as PH. rewrite Forall_forall in PH. destruct (PH o Ho) as [PN PA].
  apply imp_kept; auto.
  - apply Forall_forall. intros [p v] Hi. cbn [fst]. apply (in_map fst) in Hi. exact (parts_in fsqrt pi gaunt nb Hp1 Hd2 hp n3d o p Ho Hi).
  - intros p xa Hp Hx. exact (parts_imp o p xa Ho Hp Hx).
Qed.
End P.
End H.
