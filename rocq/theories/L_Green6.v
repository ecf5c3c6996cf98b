(* getGreen in mode dict: the theorems. *)
From Coq Require Import Lia List Bool Permutation Field Ring.
From Verif Require Import M_Prelude M_Scalar M_PSR M_Ladder M_State M_Mpi M_Hamiltonian M_Lanczos S_Fock S_Ham S_Ops S_Green S_Dict
  L_PSR L_Ladder L_Scalar L_Dict L_Sum L_Fock L_State L_ApplyOp L_Ops L_FockP L_Ham L_Expand L_ExpandP L_FromH L_HamP L_Vec L_CFrac L_Lanczos L_Lanczos2 L_Lanczos3 L_Green L_Green2 L_Green3 L_Green4 L_Green5.
Import ListNotations.
Local Open Scope cx_scope.

Local Lemma map_const_repeat {A B} (f : A -> B) b l : (forall a, In a l -> f a = b) -> map f l = repeat b (length l).
Proof. intros H. induction l; simpl; auto. rewrite H by (left; auto). f_equal. apply IHl. intros. apply H. right; auto. Qed.

Section LGreen6.
Context {F : ofield}.
Add Field Ff : (f_field F).
Add Ring Cring : (@c_ring F).
Add Field Cf : (@c_field F).
Variable fsqrt : F -> F.

Lemma full_coherent n (op : op_t F) swm rs h : wf_restr rs -> (swm <= 0)%F -> hdict_full n op rs h -> coherent n op swm rs h.
Proof.
  intros Hr Hs H k col E. destruct (H k col E) as (c & Lc & -> & Hv & Ht). exists c. split; auto. split; auto. split; [auto|]. split.
  - intros k' Hk. destruct (proj2 Hv k' Hk) as (d & Ld & ->). exists d. split; auto. split; auto. apply okr_allowed; auto. apply Ht; auto.
  - intros t Lt. rewrite (cut_swm swm Hs). destruct (okr rs t) eqn:Eo.
    + apply Ht; auto. apply okr_allowed; auto.
    + unfold amp. destruct (dget col (key t)) eqn:Eg; auto. exfalso.
      assert (A : allowed_opt rs t) by (apply Ht; auto; apply dget_Some_key; eauto). apply okr_allowed in A; auto. congruence.
Qed.

Section N.
Variable n : nat.
Variable op : op_t F.
Variable rs : option restrictions_t.
Variable psi : psi_t F.
Hypothesis HG : green_input n op rs psi.
Variable swm : F.
Hypothesis Hswm : (swm <= 0)%F.
Lemma psi_nonempty : psi <> [].
Proof. intros E. destruct HG as (_ & _ & _ & _ & Hn & _). rewrite E in Hn. unfold norm2 in Hn. simpl in Hn. apply (F_1_neq_0 (f_field F)). auto. Qed.
Lemma green_dict fuel ord e omega delta ks hs : 
  getGreen fsqrt fuel ord (Z.of_nat n) e psi op omega delta ks swm rs hs GDict Serial =
  map (fun h => let (h', r) := dict_krylov fsqrt (Z.of_nat n) op swm rs psi ks h in (h', rmap (green_mesh omega delta e) r)) hs.
Proof. unfold getGreen. pose proof psi_nonempty as H. destruct psi eqn:E; [congruence|]. rewrite <- E. reflexivity. Qed.
Variable cs : list config.
Hypothesis HC : closed_configs n op rs psi cs.

Lemma psi_inside : inside n cs psi.
Proof.
  destruct HG as (_ & _ & _ & Hv & _). split; auto. intros t Lt Ht. unfold amp. destruct (dget psi (key t)) eqn:E; auto. exfalso.
  apply Ht. apply HC; auto. apply dget_Some_key. eauto.
Qed.
Lemma cvec_vec i : (i < length cs)%nat -> vf (cvec cs psi) i = psi_vector psi cs i.
Proof. apply cvec_nth. Qed.
Lemma dict_small ks h : hdict_full n op rs h -> Z.le 1 ks -> Z.le ks (Z.of_nat (length cs)) ->
  exists h', dict_krylov fsqrt (Z.of_nat n) op swm rs psi ks h =
    (h', attr_err (krylov fsqrt (mdot (length cs) (op_matrix op cs)) (cvec cs psi) ks)).
Proof.
  intros Hf H1 Hk. destruct HG as (Hw & Hr & Hh & Hv & Hn & Hall). destruct HC as (C1 & C2 & C3 & C4).
  destruct (dict_krylov_small fsqrt n op rs Hw Hr swm Hswm cs C2 C1 C4 psi ks h psi_inside) as (h' & E & _); auto; [apply full_coherent; auto|].
  exists h'. exact E.
Qed.
Lemma dict_large ks h : sqrt_laws fsqrt -> hdict_full n op rs h -> Z.lt (Z.of_nat (length cs)) ks ->
  exists h', dict_krylov fsqrt (Z.of_nat n) op swm rs psi ks h = (h', Err AttributeError).
Proof.
  intros HS Hf Hk. destruct HG as (Hw & Hr & Hh & Hv & Hn & Hall). destruct HC as (C1 & C2 & C3 & C4).
  destruct (dict_krylov_large fsqrt n op rs Hw Hr swm Hswm cs C2 C1 C4 HS Hh psi ks h psi_inside) as (h' & E & _); auto; [apply full_coherent; auto|].
  exists h'. exact E.
Qed.
Lemma op_matrix_herm : hermitian (length cs) (op_matrix op cs).
Proof. intros i j _ _. apply herm_opelem; [apply HG|apply HG]. Qed.
Lemma vec_ip1 : ip (length cs) (vf (cvec cs psi)) (vf (cvec cs psi)) = c1.
Proof. apply (cvec_ip n rs cs); [apply HC|apply HC|apply psi_inside|apply HG]. Qed.
(* the projected operator *)
Variable hop : config -> config -> cx F.
Hypothesis HR : projected_op n op rs hop.
Variable z : cx F.
Hypothesis Hz : im z <> 0%F.
Lemma p_herm t s : length t = n -> length s = n -> allowed_opt rs t -> allowed_opt rs s -> hop t s = cconj (hop s t).
Proof.
  intros Lt Ls At As. rewrite (proj1 (HR t s Lt Ls) At), (proj1 (HR s t Ls Lt) As). apply herm_opelem; apply HG.
Qed.
Lemma p_amp t : length t = n -> ~ allowed_opt rs t -> amp psi t = c0.
Proof.
  intros Lt Ht. unfold amp. destruct (dget psi (key t)) as [a|] eqn:E; auto. exfalso. apply Ht. destruct HG as (_ & _ & _ & _ & _ & Hall).
  apply Hall; auto. apply dget_Some_key. eauto.
Qed.
Lemma p_sol x t : fock_solves n z hop x psi -> length t = n -> ~ allowed_opt rs t -> x t = c0.
Proof.
  intros Hx Lt Ht. specialize (Hx t Lt). rewrite p_amp in Hx by auto. assert (Hz0 : z <> c0) by (intros ->; apply Hz; reflexivity).
  rewrite csum_zero in Hx.
  - assert (E : z * x t = c0) by (rewrite <- Hx; ring). transitivity ((z * x t) / z); [field; auto|rewrite E; field; auto].
  - intros s Hs. apply allcfg_In in Hs. rewrite (proj2 (HR t s Lt Hs)) by auto. ring.
Qed.
Lemma p_unique x x' : fock_solves n z hop x psi -> fock_solves n z hop x' psi -> forall t, length t = n -> x t = x' t.
Proof.
  intros Hx Hx' t Lt. set (cc := allcfg n). set (c i := nth i cc []).
  set (M := fun i j => if allowed_opt_dec rs (c i) then if allowed_opt_dec rs (c j) then hop (c i) (c j) else c0 else c0).
  assert (Lc : forall i, (i < length cc)%nat -> length (c i) = n) by (intros i Hi; apply allcfg_In, nth_In; auto).
  assert (HM : hermitian (length cc) M).
  { intros i j Hi Hj. unfold M. destruct (allowed_opt_dec rs (c i)), (allowed_opt_dec rs (c j)); rewrite ?cconj_0; auto. apply p_herm; auto. }
  assert (G : forall y, fock_solves n z hop y psi -> solves (length cc) z M (fun i => y (c i)) (fun i => amp psi (c i))).
  { intros y Hy i Hi. rewrite <- Hy by auto. f_equal. unfold mv. fold cc. rewrite <- (csum_seq_nth (fun s => hop (c i) s * y s) cc []).
    apply csum_ext. intros j Hj. apply in_seq in Hj. fold (c j). unfold M. destruct (allowed_opt_dec rs (c i)).
    - destruct (allowed_opt_dec rs (c j)) as [|D]; auto. rewrite (p_sol y (c j)); auto; [ring|apply Lc; lia].
    - rewrite (proj2 (HR (c i) (c j) (Lc i Hi) ltac:(apply Lc; lia))); auto. }
  assert (Hin : In t cc) by (apply allcfg_In; auto). apply (In_nth _ _ []) in Hin as (i & Hi & <-).
  apply (solves_unique (length cc) M HM z (fun i => x' (c i)) (fun i => x (c i)) (fun i => amp psi (c i))); auto.
Qed.
Lemma index_of (t : config) : In t cs -> exists i, (i < length cs)%nat /\ nth i cs [] = t.
Proof. intros H. apply (In_nth _ _ []) in H as (i & Hi & E). eauto. Qed.
Fixpoint find (t : config) (l : list config) (i : nat) : option nat :=
  match l with [] => None | c :: l' => if cfg_dec c t then Some i else find t l' (S i) end.
Lemma find_spec t l : forall i, match find t l i with Some k => (i <= k)%nat /\ nth_error l (k - i) = Some t | None => ~ In t l end.
Proof.
  induction l as [|c l IH]; intros i; simpl; [auto|]. destruct (cfg_dec c t) as [->|Hne].
  - split; auto. rewrite Nat.sub_diag. reflexivity.
  - specialize (IH (S i)). destruct (find t l (S i)) as [k|].
    + destruct IH as [H1 H2]. split; [lia|]. replace (k - i)%nat with (S (k - S i)) by lia. exact H2.
    + intros [H|H]; auto.
Qed.
Definition plift (x : nat -> cx F) (t : config) : cx F := match find t cs 0 with Some i => x i | None => c0 end.
Lemma plift_in x i : (i < length cs)%nat -> plift x (nth i cs []) = x i.
Proof.
  intros Hi. unfold plift. pose proof (find_spec (nth i cs []) cs 0) as H. destruct (find (nth i cs []) cs 0) as [k|].
  - destruct H as [_ H]. rewrite Nat.sub_0_r in H. f_equal. destruct HC as (Hn & _). rewrite NoDup_nth_error in Hn. symmetry. apply Hn; auto.
    rewrite H. apply nth_error_nth'. auto.
  - exfalso. apply H, nth_In. auto.
Qed.
Lemma plift_out x t : ~ In t cs -> plift x t = c0.
Proof.
  intros Ht. unfold plift. pose proof (find_spec t cs 0) as H. destruct (find t cs 0) as [k|]; auto. exfalso. apply Ht.
  destruct H as [_ H]. eapply nth_error_In; eauto.
Qed.
Lemma p_resolvent g : resolvent (length cs) z (op_matrix op cs) (psi_vector psi cs) g -> fock_green n z hop psi g.
Proof.
  intros (x & Hx & Hg & _). destruct HC as (C1 & C2 & C3 & C4).
  assert (Hsum : forall f, csum (fun s => f s * plift x s) (allcfg n) = csum (fun i => f (nth i cs []) * x i) (seq 0 (length cs))).
  { intros f. rewrite (csum_cs n rs cs C2 C1) by (intros t _ Ht; rewrite plift_out by auto; ring).
    rewrite <- (csum_seq_nth (fun s => f s * plift x s) cs []). apply csum_ext. intros i Hi. apply in_seq in Hi. rewrite plift_in by lia. auto. }
  assert (HS : fock_solves n z hop (plift x) psi).
  { intros t Lt. rewrite Hsum. destruct (in_dec cfg_dec t cs) as [Hin|Hnin].
    - destruct (index_of t Hin) as (i & Hi & <-). rewrite plift_in by auto. change (amp psi (nth i cs [])) with (psi_vector psi cs i). rewrite <- (Hx i) by auto. f_equal. unfold mv.
      apply csum_ext. intros j Hj. apply in_seq in Hj. f_equal. apply HR; auto; apply C2; auto; apply nth_In; lia.
    - rewrite plift_out by auto. rewrite csum_zero.
      + rewrite (proj2 psi_inside t) by auto. ring.
      + intros j Hj. apply in_seq in Hj. assert (Hj' : In (nth j cs []) cs) by (apply nth_In; lia).
        destruct (HR t (nth j cs []) Lt ltac:(apply C2; auto)) as [H1 H2]. destruct (allowed_opt_dec rs t) as [A|A]; [|rewrite H2 by auto; ring].
        rewrite H1 by auto. destruct (c_dec (opelem op t (nth j cs [])) c0) as [->|Hne]; [ring|]. exfalso. apply Hnin. apply (C4 (nth j cs [])); auto. }
  exists (plift x). split; [exact HS|]. split.
  - rewrite (Hsum (fun t => cconj (amp psi t))). exact Hg.
  - intros x' Hx' t Lt. apply p_unique; auto.
Qed.
End N.

Lemma resolvent_ext N z (M : nat -> nat -> cx F) y y' g : (forall i, (i < N)%nat -> y i = y' i) -> resolvent N z M y g -> resolvent N z M y' g.
Proof.
  intros H (x & Hx & Hg & Hu). exists x. split; [intros i Hi; rewrite <- H by auto; apply Hx; auto|]. split.
  - rewrite <- Hg. unfold ip. apply csum_ext. intros i Hi. apply in_seq in Hi. rewrite H by lia. auto.
  - intros x' Hx'. apply Hu. intros i Hi. rewrite H by auto. apply Hx'; auto.
Qed.

(* C35 in mode dict *)
Lemma dict_tridiag : sqrt_laws fsqrt -> forall n op rs psi, green_input n op rs psi ->
  forall cs, closed_configs n op rs psi cs ->
  forall swm ks h h' al be, (swm <= 0)%F -> hdict_full n op rs h ->
  dict_krylov fsqrt (Z.of_nat n) op swm rs psi ks h = (h', Ok (al, be)) ->
  Z.le ks (Z.of_nat (length cs)) /\ tridiagonalises (length cs) (op_matrix op cs) (vf (map (amp psi) cs)) ks al be.
Proof.
  intros HS n op rs psi HG cs HC swm ks h h' al be Hswm Hf E.
  destruct (Z_lt_le_dec ks 1) as [H0|H1].
  { unfold dict_krylov in E. destruct (Z.ltb_spec ks 0); [discriminate|]. destruct (Z.eqb_spec ks 0); [discriminate|lia]. }
  destruct (Z_le_gt_dec ks (Z.of_nat (length cs))) as [Hk|Hk].
  2:{ destruct (dict_large n op rs psi HG swm Hswm cs HC ks h HS Hf) as (h2 & E2); [lia|]. congruence. }
  split; auto. destruct (dict_small n op rs psi HG swm Hswm cs HC ks h Hf) as (h2 & E2); auto. rewrite E2 in E.
  destruct (krylov fsqrt (mdot (length cs) (op_matrix op cs)) (cvec cs psi) ks) as [[al' be']|] eqn:Ek; [|discriminate].
  simpl in E. assert (al' = al /\ be' = be) as [-> ->] by (split; congruence).
  apply (krylov_tridiag fsqrt HS (length cs) (op_matrix op cs) (op_matrix_herm n op rs psi HG cs) (mdot (length cs) (op_matrix op cs))
      (fun v _ => mdot_len _ _ v) (fun v i _ Hi => mdot_nth _ _ v i Hi) (cvec cs psi) (cvec_len cs psi) (vec_ip1 n op rs psi HG cs HC) ks). auto.
Qed.
Lemma closed_exists n (op : op_t F) rs psi : green_input n op rs psi -> exists cs, closed_configs n op rs psi cs.
Proof.
  intros HG. exists (filter (fun c => if allowed_opt_dec rs c then true else false) (allcfg n)).
  assert (Hin : forall c, In c (filter (fun c => if allowed_opt_dec rs c then true else false) (allcfg n)) <-> length c = n /\ allowed_opt rs c).
  { intros c. rewrite filter_In, allcfg_In. destruct (allowed_opt_dec rs c); intuition discriminate. }
  split; [apply NoDup_filter, allcfg_NoDup|]. split; [intros c Hc; apply Hin; auto|]. split.
  - intros c Lc Hi. apply Hin. split; auto. apply HG; auto.
  - intros s t _ Lt At _. apply Hin. auto.
Qed.

(* C36 in mode dict *)
Lemma dict_exact : sqrt_laws fsqrt -> forall n op rs psi, green_input n op rs psi ->
  forall cs, closed_configs n op rs psi cs ->
  forall fuel ord e omega delta ks swm hs h, (swm <= 0)%F -> Forall (hdict_full n op rs) hs -> delta <> 0%F -> projected_op n op rs h ->
  Z.le (Z.of_nat (length cs)) ks -> forall h' g,
  In (h', Ok g) (getGreen fsqrt fuel ord (Z.of_nat n) e psi op omega delta ks swm rs hs GDict Serial) ->
  length g = length omega /\
  forall k, (k < length omega)%nat -> fock_green n (mkC (nth k omega 0 + e)%F delta) h psi (nth k g c0).
Proof.
  intros HS n op rs psi HG cs HC fuel ord e omega delta ks swm hs h Hswm Hf Hd HR Hk h' g Hin.
  rewrite (green_dict n op rs psi HG) in Hin. apply in_map_iff in Hin as (h0 & E & Hin0). rewrite Forall_forall in Hf. specialize (Hf _ Hin0).
  assert (Hpos : (1 <= length cs)%nat) by (destruct cs as [|]; [|simpl; lia]; pose proof (vec_ip1 n op rs psi HG [] HC) as Hip; unfold ip in Hip; simpl in Hip; exfalso; apply (@c1_neq_c0 F); auto).
  destruct (Z.eq_dec ks (Z.of_nat (length cs))) as [->|Hne].
  2:{ destruct (dict_large n op rs psi HG swm Hswm cs HC ks h0 HS Hf) as (h2 & E2); [lia|]. rewrite E2 in E. discriminate. }
  destruct (dict_small n op rs psi HG swm Hswm cs HC (Z.of_nat (length cs)) h0 Hf) as (h2 & E2); [lia|lia|]. rewrite E2 in E.
  destruct (krylov fsqrt (mdot (length cs) (op_matrix op cs)) (cvec cs psi) (Z.of_nat (length cs))) as [[al be]|] eqn:Ek; [|discriminate].
  simpl in E. injection E as _ <-. split; [apply mesh_len|]. intros k Hkk. rewrite mesh_nth by auto. cbn [fst snd].
  apply (p_resolvent n op rs psi HG cs HC); auto.
  apply (resolvent_ext _ _ _ (vf (cvec cs psi))); [intros; apply cvec_vec; auto|].
  apply (krylov_green fsqrt HS (length cs) (op_matrix op cs) (op_matrix_herm n op rs psi HG cs) (mdot (length cs) (op_matrix op cs))) with (ks := Z.of_nat (length cs)); auto.
  - intros; apply mdot_len.
  - intros; apply mdot_nth; auto.
  - apply cvec_len.
  - apply (vec_ip1 n op rs psi HG cs HC).
Qed.

(* C37 in mode dict *)
Lemma dict_ok_iff : sqrt_laws fsqrt -> forall n op rs psi, green_input n op rs psi ->
  forall cs, closed_configs n op rs psi cs ->
  forall fuel ord e omega delta ks swm hs, (swm <= 0)%F -> Forall (hdict_full n op rs) hs ->
  forall out, In out (getGreen fsqrt fuel ord (Z.of_nat n) e psi op omega delta ks swm rs hs GDict Serial) ->
  (is_ok (snd out) = true <-> Z.le 1 ks /\
     ~ exists d W, Z.lt (Z.of_nat d) ks /\ orthonormal (length cs) d W /\
         invariant (length cs) (op_matrix op cs) d W /\ in_span (length cs) d W (psi_vector psi cs)) /\
  (is_ok (snd out) = false -> snd out = Err (if (ks <? 0)%Z then ValueError else if (ks =? 0)%Z then IndexError else AttributeError)).
Proof.
  intros HS n op rs psi HG cs HC fuel ord e omega delta ks swm hs Hswm Hf out Hin.
  rewrite (green_dict n op rs psi HG) in Hin. apply in_map_iff in Hin as (h0 & E & Hin0). rewrite Forall_forall in Hf. specialize (Hf _ Hin0).
  assert (Hpos : (1 <= length cs)%nat) by (destruct cs as [|]; [|simpl; lia]; pose proof (vec_ip1 n op rs psi HG [] HC) as Hip; unfold ip in Hip; simpl in Hip; exfalso; apply (@c1_neq_c0 F); auto).
  assert (Hspan : forall d W, in_span (length cs) d W (psi_vector psi cs) <-> in_span (length cs) d W (vf (cvec cs psi))).
  { intros d W. split; apply span_ext; intros m Hm; [symmetry|]; apply cvec_vec; auto. }
  destruct (Z_lt_le_dec ks 1) as [H0|H1].
  { unfold dict_krylov in E. destruct (Z.ltb_spec ks 0) as [Hn|Hn].
    - subst out. simpl. split; [split; [discriminate|lia]|auto].
    - destruct (Z.eqb_spec ks 0); [|lia]. subst out. simpl. split; [split; [discriminate|lia]|auto]. }
  assert (EE : forall x : exc, Err (if (ks <? 0)%Z then ValueError else if (ks =? 0)%Z then IndexError else AttributeError) = @Err (vec F) AttributeError).
  { intros _. destruct (Z.ltb_spec ks 0); [lia|]. destruct (Z.eqb_spec ks 0); [lia|]. auto. }
  destruct (Z_le_gt_dec ks (Z.of_nat (length cs))) as [Hk|Hk].
  - destruct (dict_small n op rs psi HG swm Hswm cs HC ks h0 Hf) as (h2 & E2); [lia|lia|]. rewrite E2 in E.
    pose proof (krylov_ok_iff fsqrt HS (length cs) (op_matrix op cs) (op_matrix_herm n op rs psi HG cs) (mdot (length cs) (op_matrix op cs))
      (fun v _ => mdot_len _ _ v) (fun v i _ Hi => mdot_nth _ _ v i Hi) (cvec cs psi) (cvec_len cs psi) (vec_ip1 n op rs psi HG cs HC) ks) as HI.
    rewrite Z.min_l in HI by lia.
    subst out. cbn [snd]. destruct (krylov _ _ _ _) as [r|ex]; cbn [attr_err rmap is_ok] in *.
    + split; [|discriminate]. split; auto. intros _. destruct HI as [HI _]. destruct (HI eq_refl) as [_ HN]. split; auto.
      intros (d & W & A1 & A2 & A3 & A4). apply HN. exists d, W. rewrite <- Hspan. auto.
    + split; [|intros _; rewrite (EE AttributeError); auto]. split; [discriminate|]. intros [_ HN]. destruct HI as [_ HI]. apply HI. split; auto.
      intros (d & W & A1 & A2 & A3 & A4). apply HN. exists d, W. rewrite Hspan. auto.
  - destruct (dict_large n op rs psi HG swm Hswm cs HC ks h0 HS Hf) as (h2 & E2); [lia|]. rewrite E2 in E. subst out. cbn [rmap snd is_ok].
    split; [|intros _; rewrite (EE AttributeError); auto]. split; [discriminate|]. intros [_ HN]. exfalso. apply HN.
    exists (length cs), (fun i m => if Nat.eqb m i then c1 else c0). split; [lia|].
    assert (Hall : forall x : nat -> cx F, in_span (length cs) (length cs) (fun i m => if Nat.eqb m i then c1 else c0) x).
    { intros x. exists x. intros m Hm. rewrite (csum_ext _ (fun a => x a * (if Nat.eqb a m then c1 else c0))) by (intros a _; rewrite Nat.eqb_sym; auto).
      symmetry. apply (csum_mul_delta (fun _ => c0) x). auto. }
    split; [|split; [intros a _; apply Hall|apply Hall]].
    intros i j Hi Hj. unfold ip. rewrite (csum_ext _ (fun m => (if Nat.eqb j m then c1 else c0) * (if Nat.eqb m i then c1 else c0))).
    + rewrite (csum_mul_delta (fun _ => c0) (fun m => if Nat.eqb j m then c1 else c0)) by auto. rewrite Nat.eqb_sym. auto.
    + intros m _. rewrite (Nat.eqb_sym m j). destruct (Nat.eqb m i); rewrite ?cconj_1, ?cconj_0; ring.
Qed.

(* mode dict against the matrix modes *)
Lemma dict_matrix : sqrt_laws fsqrt -> forall n op rs psi, green_input n op rs psi -> no_small n op ->
  forall fuel ord e omega delta ks swm hs swm' h mode, (swm <= 0)%F -> mode = GDense \/ mode = GSparse ->
  Forall (hdict_full n op rs) hs -> hdict_exact n op rs h -> (2 ^ n < fuel)%nat -> Z.le 1 ks ->
  exists basis, is_closure n op rs (dkeys psi) basis /\
    forall r, map snd (getGreen fsqrt fuel ord (Z.of_nat n) e psi op omega delta ks swm' rs [h] mode Serial) = [r] ->
    map snd (getGreen fsqrt fuel ord (Z.of_nat n) e psi op omega delta ks swm rs hs GDict Serial) =
      repeat (if (ks <=? Z.of_nat (length basis))%Z then class_attr r else Err AttributeError) (length hs).
Proof.
  intros HS n op rs psi HG Hns fuel ord e omega delta ks swm hs swm' h mode Hswm Hmode Hf Hh Hfuel H1.
  pose proof HG as (Hw & Hr & Hhe & Hv & Hn1 & Hall).
  destruct (green_serial fsqrt n op rs Hw Hr psi Hv (psi_nonempty n op rs psi HG) fuel ord e omega delta ks swm' [h] mode Hmode) as (basis & m & v & HCl & HE & Hm & Lv & Hva & HF2); auto; [discriminate|].
  exists basis. split; auto. intros r Er.
  inversion HF2 as [|x1 out1 x2 l2 HX Hnil E1 E2]. destruct HX as (_ & HX1 & Eout). inversion Hnil. subst l2. rewrite <- E2 in Er. cbn [map] in Er. match type of Er with [?a] = [?b] => assert (Er2 : a = b) by (injection Er; auto) end. clear Er. rename Er2 into Er. pose proof (eq_trans (eq_sym Eout) Er) as Er2; clear Er; rename Er2 into Er.
  destruct (configs_of n basis (closure_valid _ _ _ _ _ HCl)) as (cs & Eb & Hcs). rewrite Forall_forall in Hcs.
  pose proof HCl as (_ & Hnd & HRe).
  assert (Lb : length basis = length cs) by (rewrite Eb; apply map_length).
  assert (Ekey : forall i, (i < length cs)%nat -> nth_error basis i = Some (key (nth i cs []))).
  { intros i Hi. rewrite Eb, (nth_error_nth' _ (key [])) by (rewrite map_length; auto). f_equal. apply map_nth. }
  assert (Hmem : forall t, length t = n -> In (key t) basis -> In t cs).
  { intros t Lt Hi. rewrite Eb in Hi. apply in_map_iff in Hi as (c & E & Hc). apply key_inj in E; [subst; auto|rewrite Hcs; auto]. }
  assert (HReach : forall c, In c cs -> Reach n op rs (dkeys psi) c).
  { intros c Hc. assert (Hk : In (key c) basis) by (rewrite Eb; apply in_map; auto). apply HRe in Hk as (c' & Ek & Hre).
    assert (Lc' : length c' = n) by (inversion Hre; subst; auto; unfold linked in *; tauto).
    apply key_inj in Ek; [subst; auto|rewrite Hcs; auto]. }
  assert (Hallow : forall c, In c cs -> allowed_opt rs c).
  { intros c Hc. specialize (HReach c Hc). inversion HReach; subst; auto. unfold linked in *. tauto. }
  assert (HC : closed_configs n op rs psi cs).
  { split; [rewrite Eb in Hnd; apply NoDup_map_inv in Hnd; auto|]. split; [auto|]. split.
    - intros c Lc Hi. apply Hmem; auto. apply (closure_in n op rs psi basis HCl). auto.
    - intros s t Hs Lt At Hne. apply Hmem; auto. apply HRe. exists t. split; auto. apply (ReachS n op rs (dkeys psi) s); auto.
      split; auto. split; auto. destruct (Hns t s Lt (Hcs s Hs)) as [|]; [congruence|auto]. }
  rewrite (green_dict n op rs psi HG), map_map.
  assert (Ev : v = cvec cs psi).
  { apply list_vf_ext; [rewrite cvec_len; congruence|]. intros i Hi. rewrite Hva. rewrite cvec_nth by lia. unfold amp_at. rewrite Ekey by lia. reflexivity. }
  assert (Ekr : krylov fsqrt (mdot (length basis) m) v ks = krylov fsqrt (mdot (length cs) (op_matrix op cs)) (cvec cs psi) ks).
  { rewrite Ev, Lb. apply (krylov_ext fsqrt (length cs)); [|intros; apply mdot_len|apply cvec_len]. intros w _. apply mdot_ext.
    intros i j Hi Hj. assert (Ii : In (nth i cs []) cs) by (apply nth_In; auto). assert (Ij : In (nth j cs []) cs) by (apply nth_In; auto).
    destruct (Hm i j (nth i cs []) (nth j cs [])) as [M1 M2]; auto.
    unfold op_matrix. destruct (linked_dec n op rs (nth j cs []) (nth i cs [])) as [D|D]; [apply M1; auto|].
    assert (Eo : opelem op (nth i cs []) (nth j cs []) = c0); [|rewrite Eo; apply M2; auto].
    destruct (Hns (nth i cs []) (nth j cs []) (Hcs _ Ii) (Hcs _ Ij)) as [|Hbig]; auto.
    exfalso. apply D. split; [apply Hcs; auto|]. split; auto. }
  rewrite Ekr in Er. apply map_const_repeat. intros h0 Hin0. rewrite Forall_forall in Hf. specialize (Hf _ Hin0).
  destruct (Z.leb_spec ks (Z.of_nat (length basis))) as [Hk|Hk].
  - destruct (dict_small n op rs psi HG swm Hswm cs HC ks h0 Hf) as (h2 & E3); [lia|lia|]. rewrite E3. cbn [snd]. rewrite <- Er.
    match goal with |- rmap _ (attr_err ?X) = _ => destruct X; reflexivity end.
  - destruct (dict_large n op rs psi HG swm Hswm cs HC ks h0 HS Hf) as (h2 & E3); [lia|]. rewrite E3. reflexivity.
Qed.
End LGreen6.
