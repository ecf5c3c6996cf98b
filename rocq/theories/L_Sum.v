(* Finite sums of complex numbers. *)
From Coq Require Import Permutation Ring.
From Verif Require Import M_Prelude M_Scalar L_Scalar.

Section Sum.
Context {F : ofield}.
Add Ring Cring : (@c_ring F).
Local Open Scope cx_scope.

Fixpoint csum {A} (f : A -> cx F) (l : list A) : cx F :=
  match l with [] => c0 | a :: l' => f a + csum f l' end.

Lemma csum_app {A} (f : A -> cx F) l m : csum f (l ++ m) = csum f l + csum f m.
Proof. induction l as [|a l IH]; simpl; [ring|rewrite IH; ring]. Qed.
Lemma csum_ext {A} (f g : A -> cx F) l : (forall a, In a l -> f a = g a) -> csum f l = csum g l.
Proof.
  induction l as [|a l IH]; simpl; intros Hx; auto. rewrite Hx by auto. rewrite IH; auto.
Qed.
Lemma csum_zero {A} (f : A -> cx F) l : (forall a, In a l -> f a = c0) -> csum f l = c0.
Proof.
  induction l as [|a l IH]; simpl; intros Hx; auto. rewrite Hx by auto. rewrite IH; auto. ring.
Qed.
Lemma csum_add {A} (f g : A -> cx F) l : csum (fun a => f a + g a) l = csum f l + csum g l.
Proof. induction l as [|a l IH]; simpl; [ring|rewrite IH; ring]. Qed.
Lemma csum_sub {A} (f g : A -> cx F) l : csum (fun a => f a - g a) l = csum f l - csum g l.
Proof. induction l as [|a l IH]; simpl; [ring|rewrite IH; ring]. Qed.
Lemma csum_opp {A} (f : A -> cx F) l : csum (fun a => - f a) l = - csum f l.
Proof. induction l as [|a l IH]; simpl; [ring|rewrite IH; ring]. Qed.
Lemma csum_mul_l {A} (c : cx F) (f : A -> cx F) l : csum (fun a => c * f a) l = c * csum f l.
Proof. induction l as [|a l IH]; simpl; [ring|rewrite IH; ring]. Qed.
Lemma csum_mul_r {A} (c : cx F) (f : A -> cx F) l : csum (fun a => f a * c) l = csum f l * c.
Proof. induction l as [|a l IH]; simpl; [ring|rewrite IH; ring]. Qed.
Lemma csum_conj {A} (f : A -> cx F) l : csum (fun a => cconj (f a)) l = cconj (csum f l).
Proof. induction l as [|a l IH]; simpl; [rewrite cconj_0; auto|rewrite IH, cconj_add; auto]. Qed.
Lemma csum_map {A B} (g : A -> B) (f : B -> cx F) l : csum f (map g l) = csum (fun a => f (g a)) l.
Proof. induction l as [|a l IH]; simpl; auto. rewrite IH; auto. Qed.
Lemma csum_flat_map {A B} (g : A -> list B) (f : B -> cx F) l :
  csum f (flat_map g l) = csum (fun a => csum f (g a)) l.
Proof. induction l as [|a l IH]; simpl; auto. rewrite csum_app, IH; auto. Qed.
Lemma csum_swap {A B} (f : A -> B -> cx F) l m :
  csum (fun a => csum (fun b => f a b) m) l = csum (fun b => csum (fun a => f a b) l) m.
Proof.
  induction l as [|a l IH]; simpl.
  - symmetry. apply csum_zero. auto.
  - rewrite IH. rewrite <- csum_add. reflexivity.
Qed.
Lemma csum_perm {A} (f : A -> cx F) l m : Permutation l m -> csum f l = csum f m.
Proof. induction 1; simpl; auto; [congruence|ring|congruence]. Qed.
Lemma csum_filter {A} (p : A -> bool) (f : A -> cx F) l :
  csum f (filter p l) = csum (fun a => if p a then f a else c0) l.
Proof. induction l as [|a l IH]; simpl; auto. destruct (p a); simpl; rewrite IH; auto. ring. Qed.
Lemma csum_single {A} (f : A -> cx F) l a : NoDup l -> In a l -> (forall b, In b l -> b <> a -> f b = c0) ->
  csum f l = f a.
Proof.
  induction l as [|b l IH]; simpl; [tauto|]. intros Hn Hi Hz.
  apply NoDup_cons_iff in Hn as [Hb Hn].
  destruct Hi as [->|Hi].
  - rewrite csum_zero; [ring|]. intros x Hx. apply Hz; auto. intros ->. auto.
  - rewrite IH; auto.
    + rewrite (Hz b) by (auto; intros ->; auto). ring.
Qed.
Lemma csum_creal {A} (f : A -> F) l :
  csum (fun a => creal (f a)) l = creal (fold_right (fun a s => (f a + s)%F) 0%F l).
Proof. induction l as [|a l IH]; simpl; auto. rewrite IH, creal_add. auto. Qed.
Lemma fold_left_csum {A} (f : A -> cx F) l acc :
  fold_left (fun s a => s + f a) l acc = acc + csum f l.
Proof. revert acc; induction l as [|a l IH]; intros acc; simpl; [ring|rewrite IH; ring]. Qed.

(* real sums *)
Add Field Ffield : (f_field F).
Fixpoint fsum {A} (f : A -> F) (l : list A) : F :=
  match l with [] => 0%F | a :: l' => (f a + fsum f l')%F end.
Lemma fsum_nonneg {A} (f : A -> F) l : (forall a, In a l -> (0 <= f a)%F) -> (0 <= fsum f l)%F.
Proof.
  induction l as [|a l IH]; simpl; intros Hx; [apply fle_refl|]. apply fadd_nonneg; auto.
Qed.
Lemma fsum_le {A} (f g : A -> F) l : (forall a, In a l -> (f a <= g a)%F) -> (fsum f l <= fsum g l)%F.
Proof.
  induction l as [|a l IH]; simpl; intros Hx; [apply fle_refl|]. apply fadd_le; auto.
Qed.
Lemma fsum_ext {A} (f g : A -> F) l : (forall a, In a l -> f a = g a) -> fsum f l = fsum g l.
Proof. induction l as [|a l IH]; simpl; intros Hx; auto. rewrite Hx by auto. rewrite IH; auto. Qed.
Lemma fsum_zero_inv {A} (f : A -> F) l : (forall a, In a l -> (0 <= f a)%F) -> fsum f l = 0%F ->
  forall a, In a l -> f a = 0%F.
Proof.
  induction l as [|b l IH]; simpl; intros Hx Hs a Hi; [tauto|].
  assert (H1 : (0 <= fsum f l)%F) by (apply fsum_nonneg; auto).
  assert (Hb : f b = 0%F).
  { apply fle_antisym; [|apply Hx; auto].
    replace (f b) with (- fsum f l)%F.
    - replace 0%F with (- 0 : F)%F by ring. apply fopp_le; auto.
    - replace (- fsum f l)%F with (0 - fsum f l)%F by ring. rewrite <- Hs. ring. }
  destruct Hi as [->|Hi]; auto. apply IH; auto. rewrite Hb in Hs. rewrite <- Hs. ring.
Qed.
Lemma csum_creal_fsum {A} (f : A -> F) l : csum (fun a => creal (f a)) l = creal (fsum f l).
Proof. induction l as [|a l IH]; simpl; auto. rewrite IH, creal_add. auto. Qed.
Lemma fold_left_fsum {A} (f : A -> F) l acc :
  fold_left (fun s a => (s + f a)%F) l acc = (acc + fsum f l)%F.
Proof. revert acc; induction l as [|a l IH]; intros acc; simpl; [ring|rewrite IH; ring]. Qed.
Lemma fsum_app {A} (f : A -> F) l m : fsum f (l ++ m) = (fsum f l + fsum f m)%F.
Proof. induction l as [|a l IH]; simpl; [ring|rewrite IH; ring]. Qed.
Lemma fsum_add {A} (f g : A -> F) l : fsum (fun a => (f a + g a)%F) l = (fsum f l + fsum g l)%F.
Proof. induction l as [|a l IH]; simpl; [ring|rewrite IH; ring]. Qed.
Lemma fsum_mul_l {A} (c : F) (f : A -> F) l : fsum (fun a => (c * f a)%F) l = (c * fsum f l)%F.
Proof. induction l as [|a l IH]; simpl; [ring|rewrite IH; ring]. Qed.
Lemma fsum_perm {A} (f : A -> F) l m : Permutation l m -> fsum f l = fsum f m.
Proof. induction 1; simpl; auto; [congruence|ring|congruence]. Qed.
Lemma fsum_map {A B} (g : A -> B) (f : B -> F) l : fsum f (map g l) = fsum (fun a => f (g a)) l.
Proof. induction l as [|a l IH]; simpl; auto. rewrite IH; auto. Qed.
End Sum.
