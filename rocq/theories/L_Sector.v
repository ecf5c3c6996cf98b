(* Sectors of electron number. *)
From Coq Require Import Permutation Ring Field.
From Verif Require Import M_Prelude M_Scalar M_PSR M_State M_Basis M_Expect M_Operators S_Fock S_Ops S_Basis S_Expect S_Ham S_Green S_Moments S_Spectrum S_Operators S_Sector.
From Verif Require Import L_Scalar L_Sum L_Dict L_Fock L_State L_Ops L_Index L_Operators L_Operators2 L_Operators3 L_Operators4 L_Operators5 L_Operators6 L_Operators7 L_Operators8 L_NIXS L_Operators9 L_Operators10.
From Verif Require L_Ham L_Program4 L_Program6.
Local Open Scope Z_scope.

Section D.
Context {F : ofield}.
Add Field Ff : (f_field F).
Add Ring Cring : (@c_ring F).
Implicit Types v x : config -> cx F.
Lemma csum_ne {A} (f : A -> cx F) L : csum f L <> c0 -> exists a, In a L /\ f a <> c0.
Proof.
  induction L as [|a L IH]; intros H; [elim H; reflexivity|]. destruct (ceqb_spec (f a) c0) as [E|E].
  - destruct IH as (b & Hb & Hf). { intros C. apply H. cbn [csum]. rewrite C, E. ring. } exists b. split; [right|]; auto.
  - exists a. split; [left|]; auto.
Qed.
Lemma mul_ne (a b : cx F) : (a * b)%C <> c0 -> a <> c0 /\ b <> c0.
Proof. intros H. split; intros ->; apply H; ring. Qed.
Lemma opelem_shift n (w : Z -> Z) d (op : op_t F) t s : wf_op n op -> shifts w d op -> opelem op t s <> c0 -> charge w t = charge w s + d.
Proof.
  intros [Hn Hw] Hc H. unfold opelem in H. apply csum_ne in H as ([p x] & Hi & Hp). cbn [fst snd] in Hp. apply mul_ne in Hp as [Hp1 Hp2].
  unfold pelem in *. destruct (proc_act p s) as [[t' sg]|] eqn:E; [|now elim Hp1 + elim Hp2]. destruct (list_eqb t t') eqn:Et; [|now elim Hp1 + elim Hp2].
  destruct (list_eqb_spec t t') as [<-|]; [|discriminate].
  apply (proc_charge w) in E.
  - rewrite E. rewrite (Hc p); [reflexivity|]. apply (in_map fst) in Hi. exact Hi.
  - rewrite Forall_forall in Hw. specialize (Hw _ Hi). cbn [fst] in Hw. eapply Forall_impl; [|exact Hw]. intros l [Hl _]. lia.
Qed.
Lemma image_sector n w d q (op : op_t F) rs swm psi psi' : wf_op n op -> shifts w d op -> cut_image n op rs swm psi psi' ->
  in_sector n w q (amp psi) -> in_sector n w (q + d) (amp psi').
Proof.
  intros Hw Hs (el & He & Hi) Hq t Ht Hne. destruct (Hi t Ht) as [H1 H2].
  assert (Ha : ~ ~ allowed_opt rs t) by (intros C; apply Hne, H2, C).
  assert (Hz : csum (fun s => el t s * amp psi s)%C (allcfg n) <> c0).
  { intros C. apply Ha. intros A. destruct (H1 A) as [E|[_ E]]; apply Hne; rewrite E; auto. }
  apply csum_ne in Hz as (s & Hsn & Hz). apply mul_ne in Hz as [Z1 Z2]. apply allcfg_In in Hsn.
  assert (Z3 : opelem op t s <> c0). { destruct (He t s Ht Hsn) as [E|[_ E]]; [rewrite <- E; auto|congruence]. }
  rewrite (opelem_shift n w d op t s); auto. rewrite (Hq s); auto.
Qed.
Lemma h_sector n w (op : op_t F) rs h t s : wf_op n op -> conserves w op -> restricted_op n op rs h -> length t = n -> length s = n -> h t s <> c0 -> charge w t = charge w s.
Proof.
  intros Hw Hc Hr Ht Hs Hne. destruct (Hr t s Ht Hs) as [R1 R2]. 
  assert (E : opelem op t s <> c0).
  { intros C. apply Hne. apply R2. intros L. apply Hne. rewrite R1; auto. }
  rewrite (opelem_shift n w 0 op t s); auto. lia.
Qed.
Lemma pow_sector n w q (op : op_t F) rs h psi : wf_op n op -> conserves w op -> restricted_op n op rs h -> in_sector n w q (amp psi) ->
  forall p, in_sector n w q (fpow n h p psi).
Proof.
  intros Hw Hc Hr Hq p. induction p as [|p IH]; [exact Hq|]. intros t Ht Hne. cbn [fpow] in Hne. apply csum_ne in Hne as (s & Hs & Hne). apply mul_ne in Hne as [N1 N2].
  apply allcfg_In in Hs. rewrite (h_sector n w op rs h t s); auto.
Qed.
(* the part of a vector in a sector *)
Definition proj (w : Z -> Z) (q : Z) v (t : config) : cx F := if charge w t =? q then v t else c0.
Lemma green_sector n w q (op : op_t F) rs h psi z x : wf_op n op -> conserves w op -> restricted_op n op rs h -> in_sector n w q (amp psi) ->
  fock_solves n z h x psi -> fock_solves n z h (proj w q x) psi.
Proof.
  intros Hw Hc Hr Hq Hx t Ht. unfold proj at 1.
  destruct (Z.eqb_spec (charge w t) q) as [E|E].
  - rewrite <- (Hx t Ht). f_equal. apply csum_ext. intros s Hs. apply allcfg_In in Hs. unfold proj. destruct (Z.eqb_spec (charge w s) q) as [E'|E']; auto.
    destruct (ceqb_spec (h t s) c0) as [E0|E0]; [rewrite E0; ring|]. exfalso. apply E'. rewrite <- (h_sector n w op rs h t s); auto.
  - transitivity (@c0 F). 2:{ destruct (ceqb_spec (amp psi t) c0) as [E0|E0]; [congruence|]. elim E. apply Hq; auto. }
    transitivity (z * c0 - c0)%C; [|ring]. f_equal. apply csum_zero. intros s Hs. apply allcfg_In in Hs. unfold proj.
    destruct (Z.eqb_spec (charge w s) q) as [E'|E']; [|ring].
    destruct (ceqb_spec (h t s) c0) as [E0|E0]; [rewrite E0; ring|]. exfalso. apply E. rewrite (h_sector n w op rs h t s); auto.
Qed.
Lemma fock_green_sector n w q (op : op_t F) rs h psi z g : wf_op n op -> conserves w op -> restricted_op n op rs h -> in_sector n w q (amp psi) ->
  fock_green n z h psi g -> exists x, fock_solves n z h x psi /\ in_sector n w q x /\ csum (fun t => cconj (amp psi t) * x t)%C (allcfg n) = g.
Proof.
  intros Hw Hc Hr Hq (x & Hx & Hg & Hu). exists (proj w q x). pose proof (green_sector n w q op rs h psi z x Hw Hc Hr Hq Hx) as Hp. split; [exact Hp|]. split.
  - intros t _ Hne. unfold proj in Hne. destruct (Z.eqb_spec (charge w t) q); auto. congruence.
  - rewrite <- Hg. apply csum_ext. intros t Ht. apply allcfg_In in Ht. rewrite (Hu _ Hp t Ht). reflexivity.
Qed.
(* only the matrix elements within the sector matter *)
Lemma only_sector n w q (op op' : op_t F) rs h h' psi z g g' : wf_op n op -> conserves w op -> restricted_op n op rs h ->
  wf_op n op' -> conserves w op' -> restricted_op n op' rs h' ->
  (forall t s, length t = n -> length s = n -> charge w t = q -> charge w s = q -> opelem op t s = opelem op' t s) ->
  in_sector n w q (amp psi) -> fock_green n z h psi g -> fock_green n z h' psi g' -> g' = g.
Proof.
  intros Hw Hc Hr Hw' Hc' Hr' HE Hq Hg Hg'. destruct (fock_green_sector n w q op rs h psi z g Hw Hc Hr Hq Hg) as (x & Hx & Sx & <-).
  destruct Hg' as (x' & Hx' & <- & Hu). apply csum_ext. intros t Ht. apply allcfg_In in Ht. f_equal. symmetry. apply Hu; auto. intros s Hs. rewrite <- (Hx s Hs). f_equal.
  apply csum_ext. intros r Hr0. apply allcfg_In in Hr0. destruct (ceqb_spec (x r) c0) as [E|E]; [rewrite E; ring|]. f_equal. pose proof (Sx r Hr0 E) as Er.
  destruct (Z.eq_dec (charge w s) q) as [Es|Es].
  - destruct (Hr s r Hs Hr0) as [R1 R2], (Hr' s r Hs Hr0) as [R1' R2'].
    destruct (ceqb_spec (h s r) c0) as [Z1|Z1].
    + destruct (ceqb_spec (h' s r) c0) as [Z2|Z2]; [congruence|]. exfalso. apply Z2. apply R2'. intros L. apply Z2. rewrite R1' by auto. rewrite <- HE by auto. rewrite <- R1; auto.
      destruct L as (A & B & C). split; [auto|]. split; [auto|]. rewrite HE; auto.
    + assert (L : ~ ~ linked n op rs r s) by (intros L; apply Z1, R2, L).
      destruct (ceqb_spec (h' s r) (h s r)) as [E2|E2]; [auto|]. exfalso. apply L. intros L'. apply E2. rewrite (R1 L'). rewrite (HE s r) by auto. apply R1'.
      destruct L' as (A & B & C). split; [auto|]. split; [auto|]. rewrite <- HE; auto.
  - transitivity (@c0 F).
    + destruct (ceqb_spec (h' s r) c0) as [Z2|Z2]; auto. elim Es. rewrite (h_sector n w op' rs h' s r); auto.
    + destruct (ceqb_spec (h s r) c0) as [Z2|Z2]; auto. elim Es. rewrite (h_sector n w op rs h s r); auto.
Qed.
(* reachable configurations *)
Lemma reach_charge n w q (op : op_t F) rs B : wf_op n op -> conserves w op -> (forall c, length c = n -> In (key c) B -> charge w c = q) ->
  forall c, Reach n op rs B c -> charge w c = q.
Proof.
  intros Hw Hc HB c H. induction H as [c Lc Hi|s t Hs IH (Lt & _ & Hl)]; [auto|].
  assert (E : opelem op t s <> c0).
  { intros C. rewrite C in Hl. revert Hl. assert (X : cabs2 (@c0 F) = 0%F) by (unfold cabs2, c0, creal; cbn; ring). rewrite X. intros Hl.
    pose proof (flt_le_trans _ _ _ L_Ham.eps12_pos Hl) as X0. rewrite flt_irrefl in X0. discriminate. }
  rewrite (opelem_shift n w 0 op t s); auto. lia.
Qed.
End D.
