(* Gaussian elimination: an exact_solver exists *)
From Coq Require Import Lia List Bool Field Ring.
From Verif Require Import M_Prelude M_Scalar M_State S_Fock S_Green S_RIXS L_Scalar L_Sum L_Vec.
Import ListNotations.
Local Open Scope cx_scope.

Section Gauss.
Context {F : ofield}.
Add Field Ff : (f_field F).
Add Ring Cring : (@c_ring F).
Add Field Cf : (@c_field F).

Fixpoint dot (r x : list (cx F)) : cx F :=
  match r, x with a :: r', b :: x' => a * b + dot r' x' | _, _ => c0 end.
Lemma dot_vf r : forall x, length x = length r -> dot r x = csum (fun j => vf r j * vf x j) (seq 0 (length r)).
Proof.
  induction r as [|a r IH]; intros [|b x] L; try discriminate; [reflexivity|].
  cbn [dot length]. rewrite csum_seq_S. cbn [vf nth]. rewrite IH by (simpl in L; lia). reflexivity.
Qed.
Lemma dot_zero r k : dot r (repeat c0 k) = c0.
Proof. revert k. induction r as [|a r IH]; intros [|k]; cbn [dot repeat]; auto. rewrite IH. ring. Qed.

Fixpoint pivot (sys : list (list (cx F) * cx F)) : option ((list (cx F) * cx F) * list (list (cx F) * cx F)) :=
  match sys with
  | [] => None
  | ry :: sys' => if ceqb (hd c0 (fst ry)) c0 then option_map (fun pr => (fst pr, ry :: snd pr)) (pivot sys') else Some (ry, sys')
  end.
Definition lin (t : cx F) (r p : list (cx F)) : list (cx F) := map (fun ab => fst ab - t * snd ab) (combine r p).
Definition reduce (p : list (cx F)) (b : cx F) (ry : list (cx F) * cx F) : list (cx F) * cx F :=
  let t := hd c0 (fst ry) / hd c0 p in (lin t (tl (fst ry)) (tl p), snd ry - t * b).
Fixpoint elim (k : nat) (sys : list (list (cx F) * cx F)) : list (cx F) :=
  match k with
  | O => []
  | S k' => match pivot sys with
            | None => repeat c0 k
            | Some ((p, b), rest) =>
                let xs := elim k' (map (reduce p b) rest) in (b - dot (tl p) xs) / hd c0 p :: xs
            end
  end.
Definition gauss (rows : list (list (cx F))) (y : list (cx F)) : list (cx F) := elim (length rows) (combine rows y).

Lemma pivot_none sys : pivot sys = None -> forall ry, In ry sys -> hd c0 (fst ry) = c0.
Proof.
  induction sys as [|ry sys IH]; intros E r []; cbn [pivot] in E; destruct (ceqb_spec (hd c0 (fst ry)) c0) as [Ec|Ec]; try discriminate.
  - subst. auto.
  - destruct (pivot sys); [discriminate|]. auto.
Qed.
Lemma pivot_some sys p rest : pivot sys = Some (p, rest) -> hd c0 (fst p) <> c0 /\ length sys = S (length rest) /\ forall ry, In ry sys <-> ry = p \/ In ry rest.
Proof.
  revert p rest. induction sys as [|ry sys IH]; intros p rest E; cbn [pivot] in E; [discriminate|]. destruct (ceqb_spec (hd c0 (fst ry)) c0) as [Ec|Ec].
  - destruct (pivot sys) as [[p' rest']|] eqn:Ep; [|discriminate]. cbn [option_map fst snd] in E. injection E as <- <-. destruct (IH _ _ eq_refl) as (A & B & C).
    split; [auto|]. split; [cbn [length]; lia|]. intros r. cbn [In]. rewrite C. intuition.
  - injection E as <- <-. split; [auto|]. split; auto. intros r. cbn [In]. intuition.
Qed.
Lemma dot_lin t : forall r p x, length r = length x -> length p = length x -> dot (lin t r p) x = dot r x - t * dot p x.
Proof.
  unfold lin. induction r as [|a r IH]; intros [|b p] [|c x] L1 L2; try discriminate; cbn [combine map dot fst snd]; [ring|].
  simpl in L1, L2. rewrite IH by lia. ring.
Qed.
Lemma elim_ok k : forall sys, length sys = k -> (forall ry, In ry sys -> length (fst ry) = k) ->
  (forall x, length x = k -> (forall ry, In ry sys -> dot (fst ry) x = c0) -> x = repeat c0 k) ->
  length (elim k sys) = k /\ forall ry, In ry sys -> dot (fst ry) (elim k sys) = snd ry.
Proof.
  induction k as [|k IH]; intros sys HL HR HI.
  - destruct sys; [|discriminate]. split; auto. intros ? [].
  - cbn [elim]. destruct (pivot sys) as [[[p b] rest]|] eqn:Ep.
    + apply pivot_some in Ep as (Hp & Hl & Hin). cbn [fst] in Hp.
      assert (Lp : length p = S k) by (apply (HR (p, b)); apply Hin; auto). destruct p as [|p0 p]; [discriminate|]. cbn [hd tl] in *. simpl in Lp.
      assert (Hrow : forall r y, In (r, y) rest -> exists r0 r', r = r0 :: r' /\ length r' = k).
      { intros r y H. assert (L : length r = S k) by (apply (HR (r, y)); apply Hin; auto). destruct r as [|r0 r']; [discriminate|]. exists r0, r'. split; auto. }
      destruct (IH (map (reduce (p0 :: p) b) rest)) as [IL IE].
      * rewrite map_length. lia.
      * intros ry H. apply in_map_iff in H as ([r y] & <- & H). apply Hrow in H as (r0 & r' & -> & L). cbn [reduce fst tl]. unfold lin. rewrite map_length, combine_length. lia.
      * intros xs Lx Hx. assert (E : (- (dot p xs)) / p0 :: xs = repeat c0 (S k)).
        { apply HI; [simpl; lia|]. intros ry H. apply Hin in H as [->|H]; cbn [fst dot]; [field; auto|]. destruct ry as [r y].
          destruct (Hrow r y H) as (r0 & r' & -> & L). specialize (Hx _ (in_map _ _ _ H)). cbn [reduce fst tl hd] in Hx. rewrite dot_lin in Hx by lia. cbn [fst dot].
          transitivity (dot r' xs - r0 / p0 * dot p xs); [field; auto|exact Hx]. }
        cbn [repeat] in E. injection E. auto.
      * set (xs := elim k (map (reduce (p0 :: p) b) rest)) in *. split; [simpl; lia|]. intros ry H. apply Hin in H as [->|H]; cbn [fst snd dot]; [field; auto|].
        destruct ry as [r y]. destruct (Hrow r y H) as (r0 & r' & -> & L). specialize (IE _ (in_map _ _ _ H)). cbn [reduce fst snd tl hd] in IE. rewrite dot_lin in IE by lia. cbn [fst snd dot].
        transitivity (dot r' xs - r0 / p0 * dot p xs + r0 / p0 * b); [field; auto|]. rewrite IE. ring.
    + exfalso. pose proof (pivot_none _ Ep) as Hz. assert (E : c1 :: repeat c0 k = repeat (@c0 F) (S k)).
      { apply HI; [simpl; rewrite repeat_length; auto|]. intros ry H. pose proof (Hz ry H) as H0. pose proof (HR ry H) as HLr. destruct ry as [[|r0 r'] y]; [discriminate|].
        cbn [fst hd dot] in *. rewrite H0, dot_zero. ring. }
      cbn [repeat] in E. injection E as E1. exact (F_1_neq_0 (f_field F) E1).
Qed.
Lemma in_combine_ex {A B} (a : A) (l : list A) : forall (m : list B), length m = length l -> In a l -> exists b, In (a, b) (combine l m).
Proof.
  induction l as [|x l IH]; intros [|y m] L []; try discriminate; cbn [combine In].
  - subst. eauto.
  - destruct (IH m) as (b & Hb); [simpl in L; lia|auto|eauto].
Qed.
Lemma gauss_exact : exact_solver gauss.
Proof.
  intros rows y Hsq Ly Hinj. unfold gauss. destruct (elim_ok (length rows) (combine rows y)) as [L E].
  - rewrite combine_length. lia.
  - intros [r b] H. apply in_combine_l in H. cbn [fst]. auto.
  - intros x Lx Hx. apply Hinj. split; [auto|]. intros i Hi.
    assert (Hr : In (nth i rows []) rows) by (apply nth_In; auto).
    destruct (in_combine_ex (nth i rows []) rows y Ly Hr) as (b & Hb). apply Hx in Hb. cbn [fst] in Hb.
    rewrite dot_vf in Hb by (rewrite (Hsq _ Hr); exact Lx). rewrite (Hsq _ Hr) in Hb. rewrite Hb. unfold vf. rewrite nth_repeat. reflexivity.
  - split; [exact L|]. intros i Hi. assert (Hr : In (nth i rows []) rows) by (apply nth_In; auto).
    assert (D : dot (nth i rows []) (elim (length rows) (combine rows y)) = csum (fun j => vf (nth i rows []) j * vf (elim (length rows) (combine rows y)) j) (seq 0 (length rows))) by (rewrite dot_vf, (Hsq _ Hr) by (rewrite (Hsq _ Hr); exact L); reflexivity).
    rewrite <- D.
    assert (Hb : In (nth i rows [], vf y i) (combine rows y)) by (unfold vf; rewrite <- combine_nth by auto; apply nth_In; rewrite combine_length; lia).
    exact (E _ Hb).
Qed.
End Gauss.
