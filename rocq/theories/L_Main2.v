(* Lemmas on the model of main: weight of truncated states, the energy cut and the file RIXS.bin. *)
From Verif Require Import M_Prelude M_Scalar M_PSR M_Ladder M_State M_Mpi M_Hamiltonian M_Basis M_Main S_Fock S_Ham S_Main.
From Verif Require Import L_Scalar L_Sum L_Dict L_Fock L_State L_Ham L_Ops L_Main.
From Coq Require Import Field Ring.
Local Open Scope Z_scope.

Section L.
Context {F : ofield}.
Add Field Ff : (f_field F).
Add Ring Cring : (@c_ring F).
Add Field Cf : (@c_field F).

Definition weight (v : list (cx F)) : F := fsum cabs2 v.
(* the stored entries, up to order *)
Lemma truncated_perm n cs (swm : F) v psi : Forall (fun c => length c = n) cs -> NoDup cs -> length v = length cs -> truncated cs swm v psi ->
  Permutation psi (filter (big swm) (combine (map key cs) v)).
Proof.
  intros Hc Hn Hl Ht. destruct (state_truncated n cs swm v Hc Hn Hl) as (psi' & E & Ht').
  rewrite state_of_column_eq in E; [|now apply NoDup_keys with n|now rewrite map_length]. injection E as <-.
  pose proof (truncated_unique cs swm v _ _ Ht Ht') as He. destruct Ht as [Hk _], Ht' as [Hk' _].
  apply NoDup_Permutation; [now apply NoDup_map_inv in Hk|now apply NoDup_map_inv in Hk'|].
  intros [k a]. split; intros Hin; apply dget_In; [rewrite <- He|rewrite He]; now apply In_dget.
Qed.
Lemma fsum_snd_combine {A} (f : cx F -> F) (l : list A) : forall v, length v = length l -> fsum (fun ka => f (snd ka)) (combine l v) = fsum f v.
Proof. induction l as [|x l IH]; intros [|a v] Hl; try discriminate; simpl; auto. now rewrite IH by (simpl in Hl; lia). Qed.
Lemma fsum_filter_split {A} (f : A -> F) p l : fsum f l = (fsum f (filter p l) + fsum f (filter (fun a => negb (p a)) l))%F.
Proof. induction l as [|a l IH]; simpl; [ring|]. rewrite IH. destruct (p a); simpl; ring. Qed.
Lemma fsum_bound {A} (f : A -> F) (b : F) l : (forall a, In a l -> (f a <= b)%F) -> (fsum f l <= fofZ (Z.of_nat (length l)) * b)%F.
Proof.
  induction l as [|a l IH]; intros H; simpl length; [simpl; replace (0 * b)%F with (0 : F)%F by ring; apply fle_refl|].
  rewrite Nat2Z.inj_succ, <- Z.add_1_l, fofZ_add. simpl fsum. replace (fofZ 1) with (1 : F)%F by reflexivity.
  replace ((1 + fofZ (Z.of_nat (length l))) * b)%F with (b + fofZ (Z.of_nat (length l)) * b)%F by ring.
  apply fadd_le; [apply H; left; auto|apply IH; intros; apply H; right; auto].
Qed.
Lemma filter_len_le {A} (p : A -> bool) l : (length (filter p l) <= length l)%nat.
Proof. induction l; simpl; auto. destruct (p a); simpl; lia. Qed.
Lemma fofZ_mono (a b : Z) : a <= b -> (@fofZ F a <= fofZ b)%F.
Proof.
  intros H. replace b with (a + Z.of_nat (Z.to_nat (b - a))) by lia. rewrite fofZ_add.
  assert (H0 : forall m, (0 <= @fofZ F (Z.of_nat m))%F).
  { induction m; [apply fle_refl|]. rewrite Nat2Z.inj_succ, <- Z.add_1_l, fofZ_add. apply fadd_nonneg; auto. apply flt_le, flt_0_1. }
  apply fsub_nonneg_inv. match goal with |- (0 <= ?x)%F => replace x with (@fofZ F (Z.of_nat (Z.to_nat (b - a)))) by ring end. apply H0.
Qed.
Lemma truncated_weight n cs (swm : F) v psi : Forall (fun c => length c = n) cs -> NoDup cs -> length v = length cs -> truncated cs swm v psi ->
  (norm2 psi <= weight v)%F /\ ((0 <= swm)%F -> (weight v <= norm2 psi + fofZ (Z.of_nat (length cs)) * swm)%F).
Proof.
  intros Hc Hn Hl Ht. rewrite norm2_fsum, (fsum_perm _ _ _ (truncated_perm n cs swm v psi Hc Hn Hl Ht)).
  assert (E : weight v = fsum (fun ka => cabs2 (snd ka)) (combine (map key cs) v)) by (symmetry; apply fsum_snd_combine; now rewrite map_length).
  rewrite E, (fsum_filter_split _ (big swm)). set (a := fsum _ (filter (big swm) _)). set (l := filter (fun _ => negb _) _). split.
  - apply fsub_nonneg_inv. match goal with |- (0 <= ?x)%F => replace x with (fsum (fun ka => cabs2 (snd ka)) l) by ring end. apply fsum_nonneg. intros. apply cabs2_nonneg.
  - intros Hs. apply fadd_le_l. apply fle_trans with (fofZ (Z.of_nat (length l)) * swm)%F.
    + apply fsum_bound. intros ka Hin. apply filter_In in Hin as [_ Hb]. unfold big in Hb. rewrite negb_involutive in Hb. now apply flt_le.
    + replace (fofZ (Z.of_nat (length l)) * swm)%F with (swm * fofZ (Z.of_nat (length l)))%F by ring.
      replace (fofZ (Z.of_nat (length cs)) * swm)%F with (swm * fofZ (Z.of_nat (length cs)))%F by ring.
      apply fmul_le_l; auto. apply fofZ_mono. assert (length l <= length cs)%nat; [|lia].
      unfold l. eapply Nat.le_trans; [apply filter_len_le|]. rewrite combine_length, map_length. lia.
Qed.

(* without cutoff the states are the eigenvectors *)
Lemma cut_nothing (swm x : F) : (swm <= 0)%F -> (0 <= x)%F -> (x <? swm)%F = false.
Proof. intros H H'. apply fle_trans with 0%F; auto. Qed.
Lemma truncated_nothing n cs (swm : F) v psi : Forall (fun c => length c = n) cs -> NoDup cs -> length v = length cs -> (swm <= 0)%F ->
  truncated cs swm v psi -> Permutation psi (combine (map key cs) v) /\ forall i c a, nth_error cs i = Some c -> nth_error v i = Some a -> dget psi (key c) = Some a.
Proof.
  intros Hc Hn Hl Hs Ht. split.
  - assert (E : filter (big swm) (combine (map key cs) v) = combine (map key cs) v).
    { generalize (combine (map key cs) v). induction l as [|ka l IH]; simpl; auto. unfold big at 1. rewrite cut_nothing; auto; [|apply cabs2_nonneg]. simpl. now rewrite IH. }
    rewrite <- E. now apply truncated_perm with n.
  - intros i c a Hi Ha. apply (proj2 Ht). exists i, c. repeat split; auto. apply cut_nothing; auto. apply cabs2_nonneg.
Qed.
Lemma inner_columns n cs (swm : F) v w psi phi : Forall (fun c => length c = n) cs -> NoDup cs -> length v = length cs -> length w = length cs -> (swm <= 0)%F ->
  truncated cs swm v psi -> truncated cs swm w phi -> inner psi phi = csum (fun i => cconj (nth i v c0) * nth i w c0)%C (seq 0 (length cs)).
Proof.
  intros Hc Hn Hv Hw Hs Hp Hq. destruct (truncated_nothing n cs swm v psi) as [_ Hg]; auto.
  destruct (truncated_nothing n cs swm w phi) as [Hperm _]; auto. rewrite inner_csum, (csum_perm _ _ _ Hperm).
  assert (E : combine (map key cs) w = map (fun i => (key (nth i cs []), nth i w c0)) (seq 0 (length cs))).
  { unfold config in *. set (g := fun i => (key (nth i cs []), nth i w c0)).
    apply (nth_ext _ _ (key [], c0) (g 0%nat)); [rewrite map_length, seq_length, combine_length, map_length; lia|].
    intros j Hj. rewrite combine_length, map_length in Hj. rewrite combine_nth by (rewrite map_length; lia). rewrite map_nth.
    rewrite (map_nth g), seq_nth by lia. reflexivity. }
  rewrite E, csum_map. apply csum_ext. intros i Hi. apply in_seq in Hi. simpl.
  rewrite (Hg i (nth i cs []) (nth i v c0)); auto; apply nth_error_nth'; lia.
Qed.
Lemma exact_states n (op : op_t F) cs (swm : F) es psis : Forall (fun c => length c = n) cs -> NoDup cs -> (swm <= 0)%F -> eigenstates op cs swm es psis ->
  forall k e psi, nth_error es k = Some e -> nth_error psis k = Some psi ->
    (forall c, In c cs -> csum (fun c' => cut12 (opelem op c c') * amp psi c')%C cs = (creal e * amp psi c)%C) /\
    forall l phi, nth_error psis l = Some phi -> inner psi phi = if Nat.eqb k l then c1 else c0.
Proof.
  intros Hc Hn Hs (_ & Hlp & vecs & Hlv & Ho & H) k e psi He Hp.
  assert (Hex : forall l phi, nth_error psis l = Some phi -> exists e v, nth_error es l = Some e /\ nth_error vecs l = Some v).
  { intros l phi Hl. assert (l < length psis)%nat by (apply nth_error_Some; congruence).
    destruct (nth_error es l) eqn:E1; [|apply nth_error_None in E1; lia]. destruct (nth_error vecs l) eqn:E2; [eauto|apply nth_error_None in E2; lia]. }
  destruct (Hex k psi Hp) as (e' & v & He' & Hv). assert (e' = e) as -> by congruence.
  destruct (H k e psi v He Hp Hv) as [[Lv Hev] Ht]. destruct (truncated_nothing n cs swm v psi) as [_ Hg]; auto.
  assert (Hamp : forall i c a, nth_error cs i = Some c -> nth_error v i = Some a -> amp psi c = a) by (intros i c a H1 H2; unfold amp; now rewrite (Hg i c a)).
  split.
  - intros c Hin. apply In_nth_error in Hin as [i Hi]. assert (Hne : nth_error cs i <> None) by (rewrite Hi; discriminate). apply nth_error_Some in Hne.
    destruct (nth_error v i) as [vi|] eqn:Ei; [|apply nth_error_None in Ei; unfold config in *; lia]. rewrite (Hamp i c vi), <- (Hev i c vi) by auto.
    clear - Hamp Lv. revert v Hamp Lv. induction cs as [|c' cs IH]; intros [|a v] Hamp Lv; try discriminate; simpl; auto.
    rewrite (Hamp 0%nat c' a) by reflexivity. f_equal. apply IH; [|simpl in Lv; lia]. intros i c0' a0 H1 H2. exact (Hamp (S i) c0' a0 H1 H2).
  - intros l phi Hl. destruct (Hex l phi Hl) as (f & w & Hf & Hw). destruct (H l f phi w Hf Hl Hw) as [[Lw _] Htw].
    rewrite (inner_columns n cs swm v w) by auto. now apply Ho.
Qed.

(* ---- the energy cut ---- *)
Lemma filter_prefix {A} (p : A -> bool) (l : list A) : (forall i j a b, (i <= j)%nat -> nth_error l i = Some a -> nth_error l j = Some b -> p b = true -> p a = true) ->
  exists k, (k <= length l)%nat /\ filter p l = firstn k l /\ forall i a, nth_error l i = Some a -> ((i < k)%nat <-> p a = true).
Proof.
  induction l as [|x l IH]; intros H; [exists 0%nat; repeat split; auto; destruct i; discriminate|].
  destruct (p x) eqn:Ex.
  - destruct IH as (k & Hk & E & Hi); [intros i j a b Hij Ha Hb; apply (H (S i) (S j)); auto; lia|].
    exists (S k). simpl. rewrite Ex, E. split; [lia|]. split; [auto|]. intros [|i] a Ha; simpl in Ha; [injection Ha as <-; rewrite Ex; split; auto; lia|].
    rewrite <- (Hi i a Ha). lia.
  - exists 0%nat. split; [lia|]. split.
    + simpl. rewrite Ex. assert (Hall : forall b, In b l -> p b = false).
      { intros b Hb. apply In_nth_error in Hb as [j Hj]. destruct (p b) eqn:Eb; auto. assert (p x = true) by (apply (H 0%nat (S j) x b); auto; lia). congruence. }
      clear - Hall. induction l; simpl; auto. rewrite Hall by (left; auto). apply IHl. intros; apply Hall; right; auto.
    + intros i a Ha. split; [lia|]. intros Hp. assert (p x = true) by (apply (H 0%nat i x a); auto; lia). congruence.
Qed.
Lemma map_res_firstn {A} (l : list A) k : (k <= length l)%nat -> map_res (nth_res l) (seq 0 k) = Ok (firstn k l).
Proof.
  intros Hk. destruct l as [|d l0] eqn:El; [assert (k = 0%nat) as -> by (simpl in Hk; lia); reflexivity|]. rewrite <- El in *.
  rewrite (map_res_nths l d) by (intros i Hi; apply in_seq in Hi; lia). f_equal.
  apply (nth_ext _ _ d d); [rewrite map_length, seq_length, firstn_length; lia|]. intros i Hi. rewrite map_length, seq_length in Hi.
  rewrite (nth_indep _ d (nth 0 l d)) by (rewrite map_length, seq_length; auto). rewrite (map_nth (fun i => nth i l d)), seq_nth by auto. simpl.
  rewrite <- (firstn_skipn k l) at 1. apply app_nth1. rewrite firstn_length. lia.
Qed.
Lemma low_energy_prefix (es : list F) (psis : list (psi_t F)) (cut : F) : ascending es -> (length es <= length psis)%nat ->
  exists k, low_energy es psis cut = Ok (firstn k es, firstn k psis) /\ (k <= length es)%nat /\
    forall e0 i e, nth_error es 0 = Some e0 -> nth_error es i = Some e -> ((i < k)%nat <-> (e - e0 < cut)%F).
Proof.
  intros Ha Hl. destruct es as [|e0 es0] eqn:Es; [exists 0%nat; repeat split; auto; discriminate|]. rewrite <- Es in *.
  destruct (filter_prefix (fun e => (e - e0 <? cut)%F) es) as (k & Hk & E & Hi).
  { intros i j a b Hij Hia Hjb Hb. pose proof (sorted_nth es Ha i j a b Hij Hia Hjb) as Hab. apply fle_lt_trans with (b - e0)%F; auto.
    replace (a - e0)%F with (a + - e0)%F by ring. replace (b - e0)%F with (b + - e0)%F by ring. now apply fadd_le_r. }
  exists k. unfold low_energy. rewrite Es at 1. cbn [bind]. rewrite E, firstn_length, Nat.min_l, map_res_firstn by lia. cbn [bind].
  split; [auto|]. split; [auto|]. intros e0' i e H0 He. assert (e0' = e0) as -> by (rewrite Es in H0; simpl in H0; congruence). exact (Hi i e He).
Qed.

(* ---- RIXS.bin ---- *)
Definition column (aSum : list (list F)) (i : nat) : list F := map (fun a => nth i a 0%F) aSum.
Lemma write_eq (f32 : F -> F) wIn wLoss aSum : length aSum = length wIn -> Forall (fun a => length a = length wLoss) aSum ->
  write_rixs f32 wIn wLoss aSum =
  Ok (concat ((f32 (fofZ (Z.of_nat (length wIn))) :: map f32 wIn) :: map (fun jw => f32 (snd jw) :: map f32 (column aSum (fst jw))) (enumerate wLoss))).
Proof.
  intros Ha Hl. unfold write_rixs. erewrite map_res_ok; [reflexivity|]. intros [j w] Hin. cbn [fst snd].
  assert (Hj : (j < length wLoss)%nat). { apply in_combine_l in Hin. apply in_seq in Hin. lia. }
  rewrite (map_res_ok _ (fun a => nth j a 0%F)).
  - cbn [bind]. rewrite map_length, Ha, Nat.eqb_refl. reflexivity.
  - intros a Hia. apply nth_res_eq. apply nth_error_nth'. rewrite Forall_forall in Hl. rewrite (Hl a); auto.
Qed.
Lemma rows_of_concat (c : nat) (rows : list (list F)) : Forall (fun r => length r = c) rows -> rows_of (length rows) c (concat rows) = rows.
Proof.
  induction 1 as [|r rows Hr Hrs IH]; simpl; auto. rewrite <- Hr. f_equal.
  - rewrite firstn_app, Nat.sub_diag, firstn_all. apply app_nil_r.
  - rewrite skipn_app, Nat.sub_diag, skipn_all, Hr. exact IH.
Qed.
Lemma concat_len {A} (c : nat) (rows : list (list A)) : Forall (fun r => length r = c) rows -> length (concat rows) = (length rows * c)%nat.
Proof. induction 1 as [|r rows Hr Hrs IH]; simpl; auto. rewrite app_length, IH. lia. Qed.
Lemma map_snd_enumerate {A} (l : list A) : map snd (enumerate l) = l.
Proof. unfold enumerate. generalize 0%nat. induction l; intros s; simpl; auto. now rewrite IHl. Qed.
Lemma map_fst_enumerate {A} (l : list A) : map fst (enumerate l) = seq 0 (length l).
Proof. unfold enumerate. generalize 0%nat. induction l; intros s; simpl; auto. now rewrite IHl. Qed.
Lemma rixs_round_trip (f32 : F -> F) (fint : F -> Z) wIn wLoss aSum : length aSum = length wIn -> Forall (fun a => length a = length wLoss) aSum ->
  fint (f32 (fofZ (Z.of_nat (length wIn)))) = Z.of_nat (length wIn) ->
  exists x rixs, write_rixs f32 wIn wLoss aSum = Ok x /\ read_rixs fint x = Ok (map f32 wLoss, map f32 wIn, rixs) /\
    length rixs = length wLoss /\ Forall (fun r => length r = length wIn) rixs /\
    forall i j, (i < length wLoss)%nat -> (j < length wIn)%nat -> nth j (nth i rixs []) 0%F = f32 (nth i (nth j aSum []) 0%F).
Proof.
  intros Ha Hl Hf. rewrite (write_eq f32 wIn wLoss aSum Ha Hl). set (h := f32 _ :: map f32 wIn). set (rows := map _ (enumerate wLoss)).
  assert (Lrows : length rows = length wLoss) by (unfold rows, enumerate; rewrite map_length, combine_length, seq_length; lia).
  assert (Hrows : Forall (fun r => length r = S (length wIn)) (h :: rows)).
  { constructor; [unfold h; simpl; now rewrite map_length|]. apply Forall_forall. intros r Hr. apply in_map_iff in Hr as (jw & <- & _). simpl.
    unfold column. now rewrite !map_length, Ha. }
  exists (concat (h :: rows)), (map (@tl F) rows). split; [reflexivity|]. split.
  - unfold read_rixs. assert (E0 : nth_res (concat (h :: rows)) 0 = Ok (f32 (fofZ (Z.of_nat (length wIn))))) by reflexivity.
    rewrite E0. cbn [bind]. rewrite Hf, (concat_len (S (length wIn)) (h :: rows) Hrows). cbv zeta.
    set (N := length wIn). assert (Hc : (Z.of_nat N + 1 =? 0) = false) by (apply Z.eqb_neq; lia). rewrite Hc.
    remember (length (h :: rows)) as R eqn:ER.
    assert (Hq : Z.quot (Z.of_nat (R * S N)) (Z.of_nat N + 1) = Z.of_nat R).
    { rewrite Nat2Z.inj_mul, Nat2Z.inj_succ. unfold Z.succ. apply Z.quot_mul. lia. }
    rewrite Hq. assert (Ht : ((Z.of_nat N + 1 <? 0) || negb (Z.of_nat R * (Z.of_nat N + 1) =? Z.of_nat (R * S N))) = false).
    { rewrite Nat2Z.inj_mul, !Nat2Z.inj_succ. unfold Z.succ. rewrite Z.eqb_refl, orb_false_r. apply Z.ltb_ge. lia. }
    rewrite Ht, Nat2Z.id. replace (Z.to_nat (Z.of_nat N + 1)) with (S N) by lia.
    subst R. rewrite (rows_of_concat (S N) (h :: rows) Hrows). cbn [tl h]. do 3 f_equal.
    unfold rows. rewrite map_map. rewrite <- (map_snd_enumerate wLoss) at 2. rewrite map_map. reflexivity.
  - split; [now rewrite map_length|]. split.
    + apply Forall_forall. intros r Hr. apply in_map_iff in Hr as (r' & <- & Hr'). inversion Hrows; subst. rewrite Forall_forall in H2.
      specialize (H2 r' Hr'). destruct r'; simpl in *; lia.
    + intros i j Hi Hj. unfold rows. rewrite map_map. cbn [tl].
      set (g := fun jw : nat * F => map f32 (column aSum (fst jw))).
      assert (Em : map g (enumerate wLoss) = map (fun i => map f32 (column aSum i)) (seq 0 (length wLoss))) by (rewrite <- map_fst_enumerate, map_map; reflexivity).
      rewrite Em. rewrite (nth_indep _ [] (map f32 (column aSum 0%nat))) by (rewrite map_length, seq_length; auto).
      rewrite (map_nth (fun i => map f32 (column aSum i))), seq_nth by auto. simpl. unfold column. rewrite map_map.
      rewrite (nth_indep _ 0%F (f32 (nth i [] 0%F))) by (rewrite map_length; lia). now rewrite (map_nth (fun a => f32 (nth i a 0%F))).
Qed.
End L.
