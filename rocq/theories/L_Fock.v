(* Fock-space facts and the link between the bit-level code and the specification. *)
From Coq Require Import Permutation Ring.
From Verif Require Import M_Prelude M_Scalar M_PSR M_Ladder M_State S_Occ S_Routes S_Fock.
From Verif Require Import L_Scalar L_Sum L_Dict L_PSR L_PSR2 L_Ladder L_Ladder2.
Local Open Scope Z_scope.

Lemma upd_set_nth c i v : (i < length c)%nat -> upd c i v = set_nth c i v.
Proof. intros Hi. rewrite set_nth_app by auto. reflexivity. Qed.
Lemma upd_length c i v : (i < length c)%nat -> length (upd c i v) = length c.
Proof. intros Hi. rewrite upd_set_nth by auto. apply set_nth_length. Qed.
Lemma nth_upd c i v k d : (i < length c)%nat -> nth k (upd c i v) d = if Nat.eqb k i then v else nth k c d.
Proof. intros Hi. rewrite upd_set_nth by auto. apply nth_set_nth; auto. Qed.
Lemma nth_error_upd_same c i v : (i < length c)%nat -> nth_error (upd c i v) i = Some v.
Proof.
  intros Hi. rewrite (nth_error_nth' _ v) by (rewrite upd_length; auto).
  rewrite nth_upd, Nat.eqb_refl by auto. reflexivity.
Qed.
Lemma nth_error_upd_other c i v k : (i < length c)%nat -> k <> i -> nth_error (upd c i v) k = nth_error c k.
Proof.
  intros Hi Hk. destruct (lt_dec k (length c)) as [Hl|Hl].
  - rewrite !(nth_error_nth' _ v) by (rewrite ?upd_length; auto).
    rewrite nth_upd by auto. destruct (Nat.eqb_spec k i); [lia|reflexivity].
  - rewrite !(proj2 (nth_error_None _ _)); auto; rewrite ?upd_length; lia || auto.
Qed.
Lemma nelec_bcount c : nelec c = bcount c.
Proof. unfold bcount. induction c as [|[|] c IH]; simpl; auto. Qed.
Lemma nelec_app c d : nelec (c ++ d) = (nelec c + nelec d)%nat.
Proof. induction c as [|[|] c IH]; simpl; auto. Qed.
Lemma jw_sign_fermi c i : (i <= length c)%nat -> jw_sign i c = fermi_sign (fun k => nth k c false) i.
Proof.
  intros Hi. unfold jw_sign, fermi_sign. rewrite nelec_bcount.
  rewrite (bits_as_obits c) at 1. rewrite bcount_below by auto. reflexivity.
Qed.
Lemma jw_sign_cases i c : jw_sign i c = 1 \/ jw_sign i c = -1.
Proof. unfold jw_sign. destruct (Nat.even _); auto. Qed.
Lemma jw_sign_sq i c : jw_sign i c * jw_sign i c = 1.
Proof. destruct (jw_sign_cases i c) as [-> | ->]; reflexivity. Qed.

Lemma obits_upd c i v : (i < length c)%nat ->
  obits (length c) (occ_set (fun k => nth k c false) i v) = upd c i v.
Proof.
  intros Hi. rewrite obits_set by auto. rewrite upd_set_nth by auto. rewrite <- bits_as_obits. reflexivity.
Qed.

Lemma create_ubitarray_cre c i : (i < length c)%nat ->
  create_ubitarray (Z.of_nat i) c = Ok (match cre i c with Some r => r | None => (c, 0) end).
Proof.
  intros Hi. pose proof (create_ubitarray_eq (length c) (fun k => nth k c false) i Hi) as E.
  rewrite <- bits_as_obits, obits_upd, <- jw_sign_fermi in E by (auto; lia).
  rewrite E. f_equal. unfold cre. rewrite (nth_error_nth' _ false) by auto.
  destruct (nth i c false); reflexivity.
Qed.
Lemma remove_ubitarray_ann c i : (i < length c)%nat ->
  remove_ubitarray (Z.of_nat i) c = Ok (match ann i c with Some r => r | None => (c, 0) end).
Proof.
  intros Hi. pose proof (remove_ubitarray_eq (length c) (fun k => nth k c false) i Hi) as E.
  rewrite <- bits_as_obits, obits_upd, <- jw_sign_fermi in E by (auto; lia).
  rewrite E. f_equal. unfold ann. rewrite (nth_error_nth' _ false) by auto.
  destruct (nth i c false); reflexivity.
Qed.

Lemma cre_length i c c' s : cre i c = Some (c', s) -> length c' = length c.
Proof.
  unfold cre. destruct (nth_error c i) as [[|]|] eqn:E; try discriminate. intros [= <- <-].
  apply upd_length. apply nth_error_Some. congruence.
Qed.
Lemma ann_length i c c' s : ann i c = Some (c', s) -> length c' = length c.
Proof.
  unfold ann. destruct (nth_error c i) as [[|]|] eqn:E; try discriminate. intros [= <- <-].
  apply upd_length. apply nth_error_Some. congruence.
Qed.
Lemma lad_length l c c' s : lad l c = Some (c', s) -> length c' = length c.
Proof. unfold lad. destruct (Ascii.eqb _ _); eauto using cre_length, ann_length. Qed.
Lemma lad_sign l c c' s : lad l c = Some (c', s) -> s = 1 \/ s = -1.
Proof.
  unfold lad, cre, ann.
  destruct (Ascii.eqb _ _), (nth_error _ _) as [[|]|]; try discriminate; intros [= <- <-]; apply jw_sign_cases.
Qed.
Lemma proc_act_length p : forall c c' s, proc_act p c = Some (c', s) -> length c' = length c.
Proof.
  induction p as [|l p IH]; intros c c' s; simpl; [intros [= <- <-]; auto|].
  destruct (proc_act p c) as [[c1 s1]|] eqn:E1; [|discriminate].
  destruct (lad l c1) as [[c2 s2]|] eqn:E2; [|discriminate]. intros [= <- <-].
  apply lad_length in E2. rewrite E2. eauto.
Qed.
Lemma proc_act_sign p : forall c c' s, proc_act p c = Some (c', s) -> s = 1 \/ s = -1.
Proof.
  induction p as [|l p IH]; intros c c' s; simpl; [intros [= <- <-]; auto|].
  destruct (proc_act p c) as [[c1 s1]|] eqn:E1; [|discriminate].
  destruct (lad l c1) as [[c2 s2]|] eqn:E2; [|discriminate]. intros [= <- <-].
  apply lad_sign in E2. apply IH in E1. destruct E1 as [-> | ->], E2 as [-> | ->]; auto.
Qed.
Lemma proc_act_app p q c : proc_act (p ++ q) c =
  match proc_act q c with
  | None => None
  | Some (c', s') => match proc_act p c' with None => None | Some (c'', s) => Some (c'', s * s') end
  end.
Proof.
  induction p as [|l p IH]; simpl.
  - destruct (proc_act q c) as [[c' s']|]; auto. destruct s'; reflexivity.
  - rewrite IH. destruct (proc_act q c) as [[c' s']|]; auto.
    destruct (proc_act p c') as [[c1 s1]|]; auto.
    destruct (lad l c1) as [[c2 s2]|]; auto. f_equal. f_equal. lia.
Qed.

(* the process loop of applyOp *)
Lemma proc_loop_correct n : forall l b st sign, Forall (wf_ladder n) l -> length b = n ->
  exists sign', proc_loop l b st sign =
    Ok (sign', match proc_act (rev l) b with Some (b', s) => Some (b', st * s) | None => None end).
Proof.
  induction l as [|[i a] l IH]; intros b st sign Hwf Hb.
  - simpl. exists sign. rewrite Z.mul_1_r. reflexivity.
  - apply Forall_cons_iff in Hwf as [[Hi Ha] Hwf]. simpl in Hi, Ha.
    cbn [rev proc_loop]. rewrite proc_act_app. cbn [proc_act].
    assert (Hi' : (Z.to_nat i < length b)%nat) by lia.
    assert (Hiz : i = Z.of_nat (Z.to_nat i)) by lia.
    assert (Hcase : exists s b', lad (i, a) b = match s with 0 => None | _ => Some (b', s) end /\
      (if Ascii.eqb a lab_a then do (b', s) <- remove_ubitarray i b; Ok (Some s, b')
       else if Ascii.eqb a lab_c then do (b', s) <- create_ubitarray i b; Ok (Some s, b')
       else Ok (sign, b)) = Ok (Some s, b') /\ (s <> 0 -> length b' = n)).
    { unfold lad. simpl fst; simpl snd.
      destruct Ha as [-> | ->].
      - change (Ascii.eqb "a" lab_a) with true. change (Ascii.eqb "a" lab_c) with false.
        cbn iota. pose proof (remove_ubitarray_ann b _ Hi') as R; rewrite <- Hiz in R; rewrite R; clear R.
        destruct (ann (Z.to_nat i) b) as [[b' s]|] eqn:E; cbn [bind].
        + exists s, b'. split; [|split; auto].
          * unfold ann in E. destruct (nth_error _ _) as [[|]|]; try discriminate. injection E as <- <-.
            destruct (jw_sign_cases (Z.to_nat i) b) as [-> | ->]; reflexivity.
          * intros _. apply ann_length in E. lia.
        + exists 0, b. repeat split; auto.
      - change (Ascii.eqb "c" lab_a) with false. change (Ascii.eqb "c" lab_c) with true.
        cbn iota. pose proof (create_ubitarray_cre b _ Hi') as R; rewrite <- Hiz in R; rewrite R; clear R.
        destruct (cre (Z.to_nat i) b) as [[b' s]|] eqn:E; cbn [bind].
        + exists s, b'. split; [|split; auto].
          * unfold cre in E. destruct (nth_error _ _) as [[|]|]; try discriminate. injection E as <- <-.
            destruct (jw_sign_cases (Z.to_nat i) b) as [-> | ->]; reflexivity.
          * intros _. apply cre_length in E. lia.
        + exists 0, b. repeat split; auto. }
    destruct Hcase as (s & b' & El & Ec & Hl). match goal with |- context [bind ?e _] =>
      replace e with (Ok (Some s, b')) by (symmetry; exact Ec) end.
    cbn [bind]. rewrite El.
    destruct (Z.eqb_spec s 0) as [->|Hs].
    + eexists. reflexivity.
    + destruct (IH b' (st * s) (Some s) Hwf (Hl Hs)) as [sign' E]. exists sign'. rewrite E.
      destruct s as [|p|p]; [congruence| |];
        (destruct (proc_act (rev l) b') as [[b'' s']|]; [|reflexivity]; do 4 f_equal; lia).
Qed.

(* ---- keys ---- *)
Lemma key_inj c d : length c = length d -> key c = key d -> c = d.
Proof. apply tobytes_inj. Qed.
Lemma key_bits c : bytes2bitarray (key c) (Z.of_nat (length c)) = c.
Proof. apply bytes2bitarray_tobytes. Qed.

(* ---- all configurations ---- *)
Lemma allcfg_In n c : In c (allcfg n) <-> length c = n.
Proof.
  revert c; induction n as [|n IH]; intros c; simpl.
  - split; [intros [<-|[]]; auto|]. destruct c; simpl; auto; lia.
  - rewrite in_app_iff, !in_map_iff. split.
    + intros [(d & <- & Hd)|(d & <- & Hd)]; apply IH in Hd; simpl; lia.
    + destruct c as [|[|] c]; simpl; intros Hl; [lia| |].
      * right. exists c. split; auto. apply IH; lia.
      * left. exists c. split; auto. apply IH; lia.
Qed.
Lemma NoDup_app_intro {A} (l m : list A) : NoDup l -> NoDup m -> (forall x, In x l -> ~ In x m) -> NoDup (l ++ m).
Proof.
  induction l as [|a l IH]; simpl; intros Hl Hm Hx; auto.
  apply NoDup_cons_iff in Hl as [Ha Hl]. constructor.
  - intros Hi. apply in_app_or in Hi as [Hi|Hi]; [auto|]. apply (Hx a); auto.
  - apply IH; auto.
Qed.
Lemma allcfg_NoDup n : NoDup (allcfg n).
Proof.
  induction n as [|n IH]; simpl; [repeat constructor; auto|].
  apply NoDup_app_intro.
  - apply FinFun.Injective_map_NoDup; auto. intros x y [= ->]; auto.
  - apply FinFun.Injective_map_NoDup; auto. intros x y [= ->]; auto.
  - intros x Hx Hy. apply in_map_iff in Hx as (d & <- & _). apply in_map_iff in Hy as (e & E & _). discriminate.
Qed.
Lemma NoDup_map_on {A B} (f : A -> B) l :
  (forall x y, In x l -> In y l -> f x = f y -> x = y) -> NoDup l -> NoDup (map f l).
Proof.
  induction l as [|a l IH]; simpl; intros Hinj Hn; [constructor|].
  apply NoDup_cons_iff in Hn as [Ha Hn]. constructor.
  - intros Hi. apply in_map_iff in Hi as (b & E & Hb). apply Ha. rewrite (Hinj a b); auto.
  - apply IH; auto.
Qed.
Lemma allkeys_NoDup n : NoDup (map key (allcfg n)).
Proof.
  apply NoDup_map_on; [|apply allcfg_NoDup].
  intros x y Hx Hy E. apply allcfg_In in Hx, Hy. apply key_inj; congruence.
Qed.

Section Sums.
Context {F : ofield}.
Add Ring Cring : (@c_ring F).

(* sum over the items of a dictionary = sum over a list of keys containing all of them *)
Lemma csum_dict {K V} `{EqB K} (d : dict K V) (l : list K) (f : K -> V -> cx F) :
  NoDup (dkeys d) -> NoDup l -> incl (dkeys d) l ->
  csum (fun kv => f (fst kv) (snd kv)) d =
  csum (fun k => match dget d k with Some v => f k v | None => c0 end) l.
Proof.
  revert l. induction d as [|[k0 v0] d IH]; intros l Hd Hl Hin.
  - simpl. symmetry. apply csum_zero. auto.
  - simpl in Hd. apply NoDup_cons_iff in Hd as [Hk0 Hd].
    assert (Hi0 : In k0 l) by (apply Hin; left; auto).
    apply in_split in Hi0 as (l1 & l2 & ->).
    rewrite (csum_perm _ _ _ (Permutation_sym (Permutation_middle l1 l2 k0))).
    cbn [csum fst snd]. rewrite (IH (l1 ++ l2)); auto.
    + simpl dget at 2. rewrite eqb_refl. f_equal. apply csum_ext. intros k Hk.
      simpl. rewrite eqb_neq; auto. intros ->. apply NoDup_remove_2 in Hl. auto.
    + apply NoDup_remove_1 in Hl. auto.
    + intros k Hk. assert (Hk' : In k (l1 ++ k0 :: l2)) by (apply Hin; right; auto).
      apply in_app_or in Hk' as [Hk'|[->|Hk']]; [apply in_or_app; auto|exfalso; auto|apply in_or_app; auto].
Qed.

Lemma csum_psi n (psi : psi_t F) (f : pybytes -> cx F) : valid_psi n psi ->
  csum (fun ka => f (fst ka) * snd ka)%C psi = csum (fun s => f (key s) * amp psi s)%C (allcfg n).
Proof.
  intros [Hn Hv].
  rewrite (csum_dict psi (map key (allcfg n)) (fun k a => f k * a)%C).
  - rewrite csum_map. apply csum_ext. intros s Hs. unfold amp. destruct (dget psi (key s)); auto. ring.
  - auto.
  - apply allkeys_NoDup.
  - intros k Hk. destruct (Hv k Hk) as (c & Hc & ->). apply in_map. apply allcfg_In. auto.
Qed.

(* ---- accumulating contributions ---- *)
Definition foldadd {K} `{EqB K} (l : list (K * cx F)) (d : dict K (cx F)) : dict K (cx F) :=
  fold_left (fun d kv => dadd d (fst kv) (snd kv)) l d.
Definition ksum {K} `{EqB K} (l : list (K * cx F)) (k : K) : cx F :=
  csum (fun kv => if eqb k (fst kv) then snd kv else c0) l.

Section Fold.
Context {K : Type} `{EqB K}.
Implicit Types (l : list (K * cx F)) (d : dict K (cx F)).

Lemma dget_dadd d k v k' : dget (dadd d k v) k' =
  if eqb k' k then Some (match dget d k with Some w => w + v | None => v end)%C else dget d k'.
Proof. unfold dadd. destruct (dget d k); rewrite dget_dset; reflexivity. Qed.
Lemma NoDup_dadd d k v : NoDup (dkeys d) -> NoDup (dkeys (dadd d k v)).
Proof. unfold dadd. destruct (dget d k); apply NoDup_dset. Qed.
Lemma NoDup_foldadd l : forall d, NoDup (dkeys d) -> NoDup (dkeys (foldadd l d)).
Proof. induction l as [|[k v] l IH]; simpl; intros d Hd; auto. apply IH, NoDup_dadd; auto. Qed.
Lemma foldadd_app l m d : foldadd (l ++ m) d = foldadd m (foldadd l d).
Proof. apply fold_left_app. Qed.
Lemma ksum_app l m k : ksum (l ++ m) k = (ksum l k + ksum m k)%C.
Proof. apply csum_app. Qed.

Lemma dget_foldadd l : forall d k, dget (foldadd l d) k =
  match dget d k with
  | Some w => Some (w + ksum l k)%C
  | None => if inb k (map fst l) then Some (ksum l k) else None
  end.
Proof.
  induction l as [|[k0 v0] l IH]; intros d k.
  - simpl. destruct (dget d k); auto. f_equal. unfold ksum; simpl. ring.
  - change (foldadd ((k0, v0) :: l) d) with (foldadd l (dadd d k0 v0)). rewrite IH, dget_dadd.
    unfold ksum. cbn [csum fst snd map].
    change (inb k (k0 :: map fst l)) with (eqb k k0 || inb k (map fst l)).
    destruct (eqb_spec k k0) as [->|Hne].
    + destruct (dget d k0); cbn [orb]; f_equal; ring.
    + cbn [orb]. destruct (dget d k); [f_equal; ring|].
      destruct (inb k (map fst l)); auto. f_equal. ring.
Qed.
Lemma dget_foldadd_nil l k : dget (foldadd l []) k = if inb k (map fst l) then Some (ksum l k) else None.
Proof. rewrite dget_foldadd. reflexivity. Qed.
Lemma ksum_notin l k : inb k (map fst l) = false -> ksum l k = c0.
Proof.
  intros Hn. apply inb_false in Hn. apply csum_zero. intros [k' v] Hi. simpl.
  destruct (eqb_spec k k') as [->|]; auto. exfalso. apply Hn. apply (in_map fst) in Hi. exact Hi.
Qed.
Lemma ksum_scale l c k : ksum (map (fun kv => (fst kv, c * snd kv)%C) l) k = (c * ksum l k)%C.
Proof.
  unfold ksum. rewrite csum_map. rewrite <- csum_mul_l. apply csum_ext. intros [k' v] _. simpl.
  destruct (eqb k k'); ring.
Qed.
Lemma keys_foldadd l d k : In k (dkeys (foldadd l d)) <-> In k (dkeys d) \/ In k (map fst l).
Proof.
  rewrite dget_Some_key, dget_foldadd. rewrite (dget_Some_key d). destruct (dget d k) as [w|].
  - split; eauto.
  - rewrite <- (inb_In k (map fst l)). destruct (inb k (map fst l)).
    + split; eauto.
    + split; [intros [v Hv]; discriminate|intros [[v Hv]|E]; discriminate].
Qed.
End Fold.
End Sums.
