(* combinations, product, sorting, get_basis. *)
From Coq Require Import Sorting.Permutation.
From Verif Require Import M_Prelude M_PSR M_Basis S_Occ S_Fock S_Basis.
From Verif Require Import L_PSR L_Dict L_Fock L_Ham L_ExpandP L_FromH L_Index.
Local Open Scope Z_scope.

(* ---- combinations ---- *)
Section Comb.
Context {A : Type} `{EqB A}.
Implicit Types l s : list A.

Definition inl_ s : A -> bool := fun x => inb x s.
Lemma inl_spec s x : inl_ s x = true <-> In x s. Proof. apply inb_In. Qed.

Lemma filter_ext_in' (f g : A -> bool) l : (forall x, In x l -> f x = g x) -> filter f l = filter g l.
Proof. apply filter_ext_in. Qed.
Lemma filter_none (f : A -> bool) l : (forall x, In x l -> f x = false) -> filter f l = [].
Proof. induction l as [|a l IH]; intros Hf; simpl; auto. rewrite (Hf a) by (left; auto). apply IH. intros; apply Hf; right; auto. Qed.
Lemma filter_all (f : A -> bool) l : (forall x, In x l -> f x = true) -> filter f l = l.
Proof. induction l as [|a l IH]; intros Hf; simpl; auto. rewrite (Hf a) by (left; auto). f_equal. apply IH. intros; apply Hf; right; auto. Qed.

Lemma combs_sub l : forall r s, In s (combs l r) -> incl s l.
Proof.
  induction l as [|a l IH]; intros [|r] s Hs; simpl in Hs.
  - destruct Hs as [<-|[]]. intros x [].
  - destruct Hs.
  - destruct Hs as [<-|[]]. intros x [].
  - apply in_app_iff in Hs as [Hs|Hs].
    + apply in_map_iff in Hs as (s' & <- & Hs'). intros x [<-|Hx]; [left; auto|right; eapply IH; eauto].
    + intros x Hx. right. eapply IH; eauto.
Qed.
Lemma combs_filter f l : forall r, length (filter f l) = r -> In (filter f l) (combs l r).
Proof.
  induction l as [|a l IH]; intros r Hr; simpl in *.
  - subst r. left. auto.
  - destruct (f a) eqn:E; simpl in Hr.
    + subst r. simpl. apply in_app_iff. left. apply in_map. apply IH. auto.
    + destruct r; simpl.
      * left. destruct (filter f l); [auto|discriminate].
      * apply in_app_iff. right. apply IH. auto.
Qed.
Lemma combs_In l r s : NoDup l -> In s (combs l r) <-> s = filter (inl_ s) l /\ length s = r.
Proof.
  intros Hn. split.
  - revert r s. induction l as [|a l IH]; intros [|r] s Hs; simpl in Hs.
    + destruct Hs as [<-|[]]. auto.
    + destruct Hs.
    + destruct Hs as [<-|[]]. split; auto. symmetry. apply filter_none. auto.
    + apply NoDup_cons_iff in Hn as [Ha Hn]. apply in_app_iff in Hs as [Hs|Hs].
      * apply in_map_iff in Hs as (s' & <- & Hs'). destruct (IH Hn _ _ Hs') as [E L]. split; [|simpl; auto].
        cbn [filter]. assert (Ea : inl_ (a :: s') a = true) by (apply inl_spec; left; auto). rewrite Ea. f_equal.
        rewrite E at 1. apply filter_ext_in'. intros x Hx. apply Bool.eq_iff_eq_true. rewrite !inl_spec. split; intros; [right; auto|].
        destruct H0 as [->|]; [contradiction|auto].
      * destruct (IH Hn _ _ Hs) as [E L]. split; auto. cbn [filter]. destruct (inl_ s a) eqn:Ea; auto.
        exfalso. apply Ha. apply (combs_sub _ _ _ Hs). apply inl_spec. auto.
  - intros [E L]. rewrite E. apply combs_filter. rewrite <- E. auto.
Qed.
Lemma combs_NoDup l : NoDup l -> forall r, NoDup (combs l r).
Proof.
  induction 1 as [|a l Ha Hn IH]; intros [|r]; simpl; try (constructor; auto; constructor).
  apply NoDup_app_intro.
  - apply FinFun.Injective_map_NoDup; [intros x y [= E]; auto|auto].
  - auto.
  - intros s Hs Hs'. apply in_map_iff in Hs as (s' & <- & _). apply Ha. apply (combs_sub _ _ _ Hs'). left. auto.
Qed.
Lemma combs_length l : forall r, length (combs l r) = binom (length l) r.
Proof.
  induction l as [|a l IH]; intros [|r]; simpl; auto. rewrite app_length, map_length, !IH. reflexivity.
Qed.
End Comb.

(* ---- list lemmas ---- *)
Lemma NoDup_flat_map_intro {A B} (f : A -> list B) l : NoDup l -> (forall a, In a l -> NoDup (f a)) ->
  (forall a b x, In a l -> In b l -> In x (f a) -> In x (f b) -> a = b) -> NoDup (flat_map f l).
Proof.
  induction 1 as [|a l Ha Hn IH]; intros Hf Hd; simpl; [constructor|]. apply NoDup_app_intro.
  - apply Hf; left; auto.
  - apply IH; [intros; apply Hf; right; auto|]. intros b c x Hb Hc. apply Hd; right; auto.
  - intros x Hx Hx'. apply in_flat_map in Hx' as (b & Hb & Hxb). assert (a = b) by (apply (Hd a b x); auto; [left; auto|right; auto]). congruence.
Qed.
Lemma app_inj_len {A} (a b c d : list A) : length a = length c -> a ++ b = c ++ d -> a = c /\ b = d.
Proof.
  revert c. induction a as [|x a IH]; intros [|y c] Hl E; simpl in *; try discriminate; auto.
  injection E as -> E. destruct (IH c ltac:(lia) E) as [-> ->]. auto.
Qed.
Lemma product_In {A} (ls : list (list A)) : forall c, In c (product ls) <-> Forall2 (@In A) c ls.
Proof.
  induction ls as [|l ls IH]; intros c; simpl.
  - split; [intros [<-|[]]; constructor|intros H; inversion H; auto].
  - rewrite in_flat_map. split.
    + intros (a & Ha & Hc). apply in_map_iff in Hc as (c' & <- & Hc'). constructor; auto. apply IH; auto.
    + intros H. inversion H as [|a l' c' ls' Ha Hc']; subst. exists a. split; auto. apply in_map. apply IH; auto.
Qed.
Lemma product_NoDup {A} (ls : list (list A)) : Forall (@NoDup A) ls -> NoDup (product ls).
Proof.
  induction 1 as [|l ls Hl HF IH]; simpl; [repeat constructor; auto|]. apply NoDup_flat_map_intro; auto.
  - intros a _. apply FinFun.Injective_map_NoDup; auto. intros x y [= E]; auto.
  - intros a b x _ _ Ha Hb. apply in_map_iff in Ha as (x' & <- & _). apply in_map_iff in Hb as (y' & [= ->] & _). auto.
Qed.
Definition nprod (l : list nat) : nat := fold_right Nat.mul 1%nat l.
Lemma product_length {A} (ls : list (list A)) : length (product ls) = nprod (map (@length A) ls).
Proof.
  induction ls as [|l ls IH]; simpl; auto. rewrite <- IH. clear IH. induction l as [|a l IH]; simpl; auto.
  rewrite app_length, map_length, IH. lia.
Qed.

(* ---- sorting ---- *)
Lemma zinsert_perm x l : Permutation (zinsert x l) (x :: l).
Proof.
  induction l as [|y l IH]; simpl; auto. destruct (y <? x); auto.
  eapply perm_trans; [apply perm_skip, IH|]. apply perm_swap.
Qed.
Lemma zsorted_perm l : Permutation (zsorted l) l.
Proof. induction l as [|x l IH]; simpl; auto. eapply perm_trans; [apply zinsert_perm|]. apply perm_skip; auto. Qed.
Lemma zinsert_sorted x l : StronglySorted Z.lt l -> ~ In x l -> StronglySorted Z.lt (zinsert x l).
Proof.
  induction 1 as [|y l Hs IH HF]; intros Hx; simpl; [repeat constructor|]. destruct (Z.ltb_spec y x).
  - constructor; [apply IH; intros Hi; apply Hx; right; auto|]. apply Forall_forall. intros z Hz.
    apply (Permutation_in _ (zinsert_perm x l)) in Hz as [<-|Hz]; auto. rewrite Forall_forall in HF; auto.
  - assert (y <> x) by (intros ->; apply Hx; left; auto). constructor; [constructor; auto|].
    constructor; [lia|]. eapply Forall_impl; [|exact HF]. intros; simpl in *; lia.
Qed.
Lemma zsorted_sorted l : NoDup l -> StronglySorted Z.lt (zsorted l).
Proof.
  induction 1 as [|x l Hx Hn IH]; simpl; [constructor|]. apply zinsert_sorted; auto.
  intros Hi. apply Hx. apply (Permutation_in _ (zsorted_perm l)). auto.
Qed.

(* ---- from a set of indices to the key ---- *)
Definition cfg_of (N : nat) (t : list Z) : config := obits N (fun k => inb (Z.of_nat k) t).
Lemma cfg_of_length N t : length (cfg_of N t) = N. Proof. apply obits_length. Qed.
Lemma cfg_of_occupied N t x : Forall (fun x => 0 <= x < Z.of_nat N) t -> occupied (cfg_of N t) x = inb x t.
Proof.
  intros HF. unfold occupied, cfg_of. destruct (Z.leb_spec 0 x); simpl.
  - destruct (lt_dec (Z.to_nat x) N).
    + rewrite obits_nth by auto. rewrite Z2Nat.id by auto. reflexivity.
    + rewrite nth_overflow by (rewrite obits_length; lia). symmetry. apply Bool.not_true_is_false. intros E.
      apply inb_In in E. rewrite Forall_forall in HF. specialize (HF _ E). lia.
  - symmetry. apply Bool.not_true_is_false. intros E. apply inb_In in E. rewrite Forall_forall in HF. specialize (HF _ E). lia.
Qed.
Lemma tuple2bytes_cfg N t : NoDup t -> Forall (fun x => 0 <= x < Z.of_nat N) t ->
  tuple2bytes (zsorted t) (Z.of_nat N) = Ok (key (cfg_of N t)).
Proof.
  intros Hn HF. assert (HR : rep_tuple N (fun k => inb (Z.of_nat k) t) (zsorted t)).
  { split; [apply zsorted_sorted; auto|]. intros x. split.
    - intros Hx. apply (Permutation_in _ (zsorted_perm t)) in Hx. pose proof (proj1 (Forall_forall _ _) HF x Hx) as Hr. cbv beta in Hr.
      exists (Z.to_nat x). rewrite Z2Nat.id by lia. repeat split; [lia|]. apply inb_In; auto.
    - intros (k & Hk & -> & E). apply inb_In in E. apply (Permutation_in _ (Permutation_sym (zsorted_perm t))); auto. }
  apply rep_tuple_iff in HR. rewrite HR. pose proof (c_tuple2bytes (obits N (fun k => inb (Z.of_nat k) t))) as E.
  cbv zeta in E. rewrite obits_length in E. exact E.
Qed.
