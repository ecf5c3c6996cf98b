(* Lemmas: a value in a file depends on its own operator and its own point of the mesh only. *)
From Coq Require Import Permutation Ring Field.
From Verif Require Import M_Prelude M_Scalar M_PSR M_State M_Mpi M_Hamiltonian M_Lanczos M_Average M_Spectra M_Simulate S_Fock S_Ops S_Ham S_Green S_Spectra S_Thermal S_Spectrum.
From Verif Require Import L_Scalar L_Sum L_Dict L_Fock L_State L_Ops L_ApplyOp L_FockP L_Program L_Program7 L_Levels2.

Section C.
Context {F : ofield}.
Add Field Ff : (f_field F).
Add Ring Cring : (@c_ring F).
Local Open Scope cx_scope.
Lemma green_one n z (h : config -> config -> cx F) psi g g' : fock_green n z h psi g -> fock_green n z h psi g' -> g = g'.
Proof. intros (x & S & E & _) (x' & _ & E' & U). rewrite <- E, <- E'. apply csum_ext. intros t Ht. apply allcfg_In in Ht. rewrite (U x S t Ht). reflexivity. Qed.
Lemma nth_fopp (w : list F) k : nth k (map fopp w) 0%F = (- nth k w 0)%F.
Proof. destruct (Nat.lt_ge_cases k (length w)); [rewrite (nth_indep _ 0%F (fopp 0%F)) by (rewrite map_length; auto); apply map_nth|]. rewrite !nth_overflow by (rewrite ?map_length; auto). ring. Qed.
Lemma add_nth (a b : list (cx F)) k : length a = length b -> nth k (map (fun p => cadd (fst p) (snd p)) (combine a b)) c0 = nth k a c0 + nth k b c0.
Proof.
  intros L. destruct (Nat.lt_ge_cases k (length a)) as [H|H].
  - rewrite (nth_indep _ c0 ((fun p : cx F * cx F => cadd (fst p) (snd p)) (c0, c0))) by (rewrite map_length, combine_length; lia).
    rewrite (map_nth (fun p : cx F * cx F => cadd (fst p) (snd p))), combine_nth by auto. auto.
  - rewrite !nth_overflow by (rewrite ?map_length, ?combine_length; lia). ring.
Qed.
Variables fsqrt fexp : F -> F.
Hypothesis HS : sqrt_laws fsqrt.
Hypothesis HE : exp_laws fexp.
Variables (k_B T : F) (n fuel : nat) (op : op_t F) (rs : option restrictions_t) (ks : Z) (swm : F).
Hypothesis Hop : wf_op n op.
Hypothesis HA : assert_hermitian op = Ok tt.
Hypothesis Hr : wf_restr rs.
Hypothesis Hf : (2 ^ n < fuel)%nat.
Hypothesis Hks : (Z.of_nat (2 ^ n) <= ks)%Z.
Hypothesis Hs : (swm <= 0)%F.
Hypothesis HkT : (k_B * T)%F <> 0%F.
Variables (es : list F) (psis : list (psi_t F)).
Hypothesis Hv : Forall (valid_psi n) psis.
Hypothesis HL : length psis = length es.
Variables ord ord' : nat -> nat -> nat -> set_order.
Hypothesis Ho : forall t i q l, Permutation (ord t i q l) l.
Hypothesis Ho' : forall t i q l, Permutation (ord' t i q l) l.
Variables R R' : nat.
Hypothesis HR : (1 <= R)%nat.
Hypothesis HR' : (1 <= R')%nat.
Notation spec w d tOps o r := (getSpectra fsqrt fuel (Z.of_nat n) op w d rs ks swm o r tOps psis es SHBuild).
Lemma spec_value w w' d tOps tOps' g rest g' rest' : d <> 0%F -> Forall (wf_op n) tOps -> Forall (wf_op n) tOps' -> spec w d tOps ord R = Ok g :: rest -> spec w' d tOps' ord' R' = Ok g' :: rest' ->
  forall t t' k k' i, (t < length tOps)%nat -> (t' < length tOps')%nat -> nth t tOps [] = nth t' tOps' [] -> (k < length w)%nat -> (k' < length w')%nat -> nth k w 0%F = nth k' w' 0%F -> (i < length es)%nat ->
  nth k (g i t) c0 = nth k' (g' i t') c0.
Proof.
  intros Hd Ht Ht' E E' t t' k k' i Lt Lt' Et Hk Hk' Ew Hi. destruct (L_Green4.restricted_op_exists n op rs) as [h Hh].
  destruct (spec_green fsqrt HS n fuel op rs ks swm Hop HA Hr Hf Hks Hs es R R HR HR w d tOps ord R psis g rest h Ho HR Hd Ht Hv HL Hh E t k Lt Hk i Hi) as (p & Ep & G).
  destruct (spec_green fsqrt HS n fuel op rs ks swm Hop HA Hr Hf Hks Hs es R R HR HR w' d tOps' ord' R' psis g' rest' h Ho' HR' Hd Ht' Hv HL Hh E' t' k' Lt' Hk' i Hi) as (p' & Ep' & G').
  rewrite <- Et, Ep in Ep'. injection Ep' as <-. rewrite <- Ew in G'. exact (green_one _ _ _ _ _ _ G G').
Qed.
Lemma shape w d tOps o r g rest : d <> 0%F -> spec w d tOps o r = Ok g :: rest -> forall i t, length (g i t) = length w.
Proof. intros Hd E i t. eapply hb_shape; [exact Hd|]. rewrite E. left. reflexivity. Qed.
Lemma file_value w w' nT nT' I I' cols cols' t t' k k' : mean_file fexp (k_B * T)%F w es nT I cols -> mean_file fexp (k_B * T)%F w' es nT' I' cols' -> (t < nT)%nat -> (t' < nT')%nat -> (k < length w)%nat -> (k' < length w')%nat ->
  (forall i, (i < length es)%nat -> I i t k = I' i t' k') -> nth k (nth (2 + t) cols []) 0%F = nth k' (nth (2 + t') cols' []) 0%F.
Proof.
  intros (tot & parts & -> & _ & _ & Hp & _) (tot' & parts' & -> & _ & _ & Hp' & _) Ht Ht' Hk Hk' H. cbn [nth plus]. rewrite (proj2 (Hp t Ht) k Hk), (proj2 (Hp' t' Ht') k' Hk').
  unfold boltzmann_mean. f_equal. apply map_ext_in. intros i Hi. apply in_seq in Hi. rewrite H by lia. reflexivity.
Qed.
Variables (w w' : list F) (d : F) (t t' k k' : nat).
Hypothesis Hd : d <> 0%F.
Hypothesis Hk : (k < length w)%nat.
Hypothesis Hk' : (k' < length w')%nat.
Hypothesis Ew : nth k w 0%F = nth k' w' 0%F.
Lemma column_absorption tOps tOps' cols rest cols' rest' : Forall (wf_op n) tOps -> Forall (wf_op n) tOps' -> (t < length tOps)%nat -> (t' < length tOps')%nat -> nth t tOps [] = nth t' tOps' [] ->
  absorption fsqrt fexp k_B fuel (Z.of_nat n) op rs ks swm ord R psis es T w d tOps = Ok cols :: rest ->
  absorption fsqrt fexp k_B fuel (Z.of_nat n) op rs ks swm ord' R' psis es T w' d tOps' = Ok cols' :: rest' -> nth k (nth (2 + t) cols []) 0%F = nth k' (nth (2 + t') cols' []) 0%F.
Proof.
  intros Ht Ht' Lt Lt' Et E E'. unfold absorption in E, E'. apply head_bind in E as (g & l & E & C). apply head_bind in E' as (g' & l' & E' & C').
  apply (columns_mean fexp HE) in C; [|exact HkT|exact (shape _ _ _ _ _ _ _ Hd E)]. apply (columns_mean fexp HE) in C'; [|exact HkT|exact (shape _ _ _ _ _ _ _ Hd E')].
  apply (file_value _ _ _ _ _ _ _ _ _ _ _ _ C C'); auto. intros i Hi. cbv beta. do 2 f_equal. exact (spec_value w w' d tOps tOps' g l g' l' Hd Ht Ht' E E' t t' k k' i Lt Lt' Et Hk Hk' Ew Hi).
Qed.
Lemma neg_mesh : (k < length (map fopp w))%nat /\ (k' < length (map fopp w'))%nat /\ nth k (map fopp w) 0%F = nth k' (map fopp w') 0%F.
Proof. rewrite !map_length, !nth_fopp, Ew. auto. Qed.
Lemma column_emission tOps tOps' cols rest cols' rest' : Forall (wf_op n) tOps -> Forall (wf_op n) tOps' -> (t < length tOps)%nat -> (t' < length tOps')%nat -> nth t tOps [] = nth t' tOps' [] ->
  emission fsqrt fexp k_B fuel (Z.of_nat n) op rs ks swm ord R psis es T w d tOps = Ok cols :: rest ->
  emission fsqrt fexp k_B fuel (Z.of_nat n) op rs ks swm ord' R' psis es T w' d tOps' = Ok cols' :: rest' -> nth k (nth (2 + t) cols []) 0%F = nth k' (nth (2 + t') cols' []) 0%F.
Proof.
  intros Ht Ht' Lt Lt' Et E E'. pose proof (fopp_neq0 d Hd) as Hd'. destruct neg_mesh as (N1 & N2 & N3). unfold emission in E, E'. apply head_bind in E as (g & l & E & C). apply head_bind in E' as (g' & l' & E' & C').
  apply (columns_mean fexp HE) in C; [|exact HkT|intros i u; unfold gneg; rewrite map_length, (shape _ _ _ _ _ _ _ Hd' E), map_length; reflexivity]. apply (columns_mean fexp HE) in C'; [|exact HkT|intros i u; unfold gneg; rewrite map_length, (shape _ _ _ _ _ _ _ Hd' E'), map_length; reflexivity].
  apply (file_value _ _ _ _ _ _ _ _ _ _ _ _ C C'); auto. intros i Hi. cbv beta. unfold gneg. rewrite !nth_opp. do 3 f_equal. exact (spec_value (map fopp w) (map fopp w') (- d)%F tOps tOps' g l g' l' Hd' Ht Ht' E E' t t' k k' i Lt Lt' Et N1 N2 N3 Hi).
Qed.
Lemma photo_split (o : nat -> nat -> nat -> set_order) r v ps ips cols rest : photoemission fsqrt fexp k_B fuel (Z.of_nat n) op rs ks swm o r psis es T v d ps ips = Ok cols :: rest ->
  exists gI l gP l', spec v d ips o r = Ok gI :: l /\ spec (map fopp v) (- d)%F ps o r = Ok gP :: l' /\ length ps = length ips /\ mean_file fexp (k_B * T)%F v es (length ps) (fun i t k => - im (nth k (gI i t) c0 - nth k (gP i t) c0)%C)%F cols.
Proof.
  intros E0. pose proof (fopp_neq0 d Hd) as Hd'. unfold photoemission in E0. destruct (spec v d ips o r) as [|x1 r1] eqn:C1; [discriminate|]. destruct (spec (map fopp v) (- d)%F ps o r) as [|x2 r2] eqn:C2; [discriminate|].
  cbn [combine map fst snd] in E0. injection E0 as E0 _. destruct x1 as [gI|]; [|discriminate]. destruct x2 as [gP|]; [|discriminate]. cbn [bind] in E0.
  destruct (Nat.eqb_spec (length ps) (length ips)) as [Le|]; [|discriminate]. exists gI, r1, gP, r2. split; [auto|]. split; [auto|]. split; [auto|].
  pose proof (shape _ _ _ _ _ _ _ Hd C1) as L1. pose proof (shape _ _ _ _ _ _ _ Hd' C2) as L2. rewrite map_length in L2. apply (columns_mean fexp HE) in E0; [|exact HkT|].
  - eapply mean_file_ext; [|exact E0]. intros i u q _ _ Hq. cbv beta. unfold gplus, gneg. rewrite add_nth by (rewrite map_length, L1, L2; auto). rewrite nth_opp. f_equal. f_equal. ring.
  - intros i u. unfold gplus, gneg. rewrite map_length, combine_length, map_length, L1, L2. lia.
Qed.
Lemma column_photoemission ps ips ps' ips' cols rest cols' rest' : Forall (wf_op n) ps -> Forall (wf_op n) ips -> Forall (wf_op n) ps' -> Forall (wf_op n) ips' -> (t < length ps)%nat -> (t' < length ps')%nat ->
  nth t ps [] = nth t' ps' [] -> nth t ips [] = nth t' ips' [] ->
  photoemission fsqrt fexp k_B fuel (Z.of_nat n) op rs ks swm ord R psis es T w d ps ips = Ok cols :: rest ->
  photoemission fsqrt fexp k_B fuel (Z.of_nat n) op rs ks swm ord' R' psis es T w' d ps' ips' = Ok cols' :: rest' -> nth k (nth (2 + t) cols []) 0%F = nth k' (nth (2 + t') cols' []) 0%F.
Proof.
  intros Wp Wi Wp' Wi' Lt Lt' Ep Ei E E'. pose proof (fopp_neq0 d Hd) as Hd'. destruct neg_mesh as (N1 & N2 & N3).
  apply photo_split in E as (gI & l1 & gP & l2 & A1 & A2 & Le & M). apply photo_split in E' as (gI' & l1' & gP' & l2' & B1 & B2 & Le' & M').
  apply (file_value _ _ _ _ _ _ _ _ _ _ _ _ M M'); auto. intros i Hi. cbv beta. do 2 f_equal.
  rewrite (spec_value w w' d ips ips' gI l1 gI' l1' Hd Wi Wi' A1 B1 t t' k k' i ltac:(lia) ltac:(lia) Ei Hk Hk' Ew Hi).
  rewrite (spec_value (map fopp w) (map fopp w') (- d)%F ps ps' gP l2 gP' l2' Hd' Wp Wp' A2 B2 t t' k k' i Lt Lt' Ep N1 N2 N3 Hi). reflexivity.
Qed.
End C.
