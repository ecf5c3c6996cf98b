(* The program: well-formed transition operators and eigenstates; eigensystem does not depend on the number of ranks *)
From Coq Require Import Lia List Bool Permutation Field Ring String.
From Verif Require Import M_Prelude M_Scalar M_PSR M_Ladder M_State M_Mpi M_Hamiltonian M_Lanczos M_Basis M_Average M_Expect M_Operators M_Spectra M_Simulate M_RIXS M_Main M_Program
  S_Fock S_Basis S_Ham S_Ops S_Expect S_Green S_Thermal S_Main S_Program
  L_PSR L_Ladder L_Scalar L_Dict L_Sum L_Fock L_State L_Ops L_Ham L_Index L_Basis4 L_RIXS L_Main L_Main3.
Import ListNotations.
Local Open Scope Z_scope.

(* ---- operators ---- *)
Lemma coord_dec nb x : coord_ok nb x \/ ~ coord_ok nb x.
Proof.
  destruct x as [l s m|k b]; cbn [coord_ok].
  - destruct (in_dec Z.eq_dec l (angs nb)); [|tauto]. destruct (Z.eq_dec s 0), (Z.eq_dec s 1), (Z_le_dec (- l) m), (Z_le_dec m l); tauto || (left; split; [auto|split; [auto|lia]]).
  - destruct (existsb (fun kn => eqb k (fst kn) && ((0 <=? b) && (b <? snd kn))) nb) eqn:E.
    + left. apply existsb_exists in E as ([k' n'] & Hi & H). cbn [fst snd] in H. apply andb_prop in H as [H1 H2]. apply andb_prop in H2 as [H2 H3].
      destruct (eqb_spec k k') as [Hk|]; [|discriminate]. subst k'. exists n'. split; auto. lia.
    + right. intros (n' & Hi & Hb). assert (existsb (fun kn => eqb k (fst kn) && ((0 <=? b) && (b <? snd kn))) nb = true); [|congruence].
      apply existsb_exists. exists (k, n'). split; auto. cbn [fst snd]. rewrite L_Dict.eqb_refl. cbn [andb]. destruct (Z.leb_spec 0 b), (Z.ltb_spec b n'); auto; lia.
Qed.
Lemma c2i_range nb x i : wf_nbaths nb -> c2i nb x = Ok i -> 0 <= i < Z.of_nat (n_orb nb).
Proof.
  intros W E. destruct (coord_dec nb x) as [H|H]; [|rewrite c2i_err in E by auto; discriminate].
  destruct (c2i_P nb x W H) as (E' & R & _). assert (i = coord_index nb x) by congruence. subst i. unfold n_orb. lia.
Qed.

Section Ops.
Context {F : ofield}.
Lemma wf_dset n (op : op_t F) p v : wf_op n op -> Forall (wf_ladder n) p -> wf_op n (dset op p v).
Proof.
  intros [H1 H2] Hp. split; [apply NoDup_dset; auto|]. apply Forall_forall. intros [p' v'] Hi. cbn [fst].
  apply (in_map fst) in Hi. cbn [fst] in Hi. change (map fst (dset op p v)) with (dkeys (dset op p v)) in Hi. apply in_dkeys_dset in Hi as [->|Hi]; auto.
  unfold dkeys in Hi. apply in_map_iff in Hi as ([p2 v2] & <- & Hi). rewrite Forall_forall in H2. apply (H2 _ Hi).
Qed.
Lemma wf_dadd n (op : op_t F) p v : wf_op n op -> Forall (wf_ladder n) p -> wf_op n (dadd op p v).
Proof. intros. unfold dadd. destruct (dget op p); apply wf_dset; auto. Qed.
Lemma wf_nil n : @wf_op F n [].
Proof. split; constructor. Qed.
Variable nb : nbaths_t.
Hypothesis W : wf_nbaths nb.
Lemma wf_two x y i j : c2i nb x = Ok i -> c2i nb y = Ok j -> Forall (wf_ladder (n_orb nb)) [(i, lab_c); (j, lab_a)].
Proof. intros Ei Ej. constructor; [|constructor; [|constructor]]; (split; [eapply c2i_range; eauto|]); [right|left]; reflexivity. Qed.
Variables fsqrt arccos fsin : F -> F.
Variable pi : F.
Variable gaunt : Z -> Z -> Z -> Z -> Z -> Z -> F.
Variable spherical_jn : Z -> F -> F.
Variable sph_harm : Z -> Z -> F -> F -> cx F.
Lemma map_res_all {A B} (f : A -> res B) (P : B -> Prop) l r : (forall a b, In a l -> f a = Ok b -> P b) -> map_res f l = Ok r -> Forall P r.
Proof.
  revert r. induction l as [|a l IH]; intros r H E; cbn [map_res] in E; [injection E as <-; constructor|].
  destruct (f a) as [b|] eqn:Ef; [|discriminate]. cbn [bind] in E. destruct (map_res f l) as [bs|] eqn:Er; [|discriminate]. cbn [bind] in E. injection E as <-.
  constructor; [apply (H a); auto; left; auto|]. apply IH; auto. intros; eapply H; eauto. right; auto.
Qed.
Lemma pes_wf label l (ops : list (op_t F)) : label = lab_a \/ label = lab_c -> getPESOperators label nb l = Ok ops -> Forall (wf_op (n_orb nb)) ops.
Proof.
  intros Hl E. eapply map_res_all; [|exact E]. intros [s m] op _ Eo. cbn [fst snd] in Eo. destruct (c2i _ _) as [i|] eqn:Ei; [|discriminate]. injection Eo as <-.
  apply (wf_dset _ [] [(i, label)]); [apply wf_nil|]. constructor; [|constructor]. split; [eapply c2i_range; eauto|destruct Hl as [->| ->]; auto].
Qed.
Lemma dip_wf v (op : op_t F) : getDipoleOperator fsqrt pi gaunt nb v = Ok op -> wf_op (n_orb nb) op.
Proof.
  unfold getDipoleOperator. destruct (py_nth v 0) as [n0|]; [|discriminate]. cbn [bind]. destruct (py_nth v 1) as [n1|]; [|discriminate]. cbn [bind].
  destruct (py_nth v 2) as [n2|]; [|discriminate]. cbn [bind]. destruct (dkeys nb) as [|k1 [|k2 [|]]]; try discriminate. destruct k2, k1; try discriminate.
  apply (fold_res_inv' _ (wf_op (n_orb nb))); [|apply wf_nil]. intros s1 m s2 H1 _. revert H1. apply (fold_res_inv' _ (wf_op (n_orb nb))). clear s1 s2.
  intros s1 mp s2 H1 _. revert H1. apply (fold_res_inv' _ (wf_op (n_orb nb))). clear s1 s2. intros s1 s s2 H1 _.
  destruct (Z.abs (m - mp) <=? 1); [|congruence]. destruct (pol _ _ _ _ _) as [nd|]; [|discriminate]. cbn [bind]. destruct (negb _); [|congruence].
  destruct (c2i nb (SImp _ s m)) as [i|] eqn:Ei; [|discriminate]. cbn [bind]. destruct (c2i nb (SImp _ s mp)) as [j|] eqn:Ej; [|discriminate]. cbn [bind]. intros E. injection E as <-.
  apply wf_dset; auto. eapply wf_two; eauto.
Qed.
Lemma dagger_wf n (op d : op_t F) : wf_op n op -> daggerOp op = Ok d -> wf_op n d.
Proof.
  intros [Hn Hf] E. apply daggerOp_ok_inv in E as [Hg ->]; auto. split; [apply NoDup_dagl; auto|].
  unfold dagl. apply Forall_forall. intros [p v] Hi. apply in_map_iff in Hi as ([p0 v0] & E & Hi). cbn [fst snd] in E. injection E as <- _. cbn [fst].
  rewrite Forall_forall in Hf. specialize (Hf _ Hi). cbn [fst] in Hf. rewrite Forall_forall in Hf. unfold dag. apply Forall_forall. intros x Hx.
  apply in_map_iff in Hx as (y & <- & Hy). apply in_rev in Hy. apply Hf in Hy as [Hy1 Hy2]. split; [exact Hy1|]. cbn [dag_ladder snd]. destruct (Ascii.eqb (snd y) "a"); auto.
Qed.
Lemma dips_wf vs (ops : list (op_t F)) : getDipoleOperators fsqrt pi gaunt nb vs = Ok ops -> Forall (wf_op (n_orb nb)) ops.
Proof. intros E. eapply map_res_all; [|exact E]. intros v op _. apply dip_wf. Qed.
Lemma ddips_wf vs (ops : list (op_t F)) : getDaggeredDipoleOperators fsqrt pi gaunt nb vs = Ok ops -> Forall (wf_op (n_orb nb)) ops.
Proof.
  unfold getDaggeredDipoleOperators. intros E. eapply map_res_all; [|exact E]. intros v d _ Hd. cbn beta in Hd.
  destruct (getDipoleOperator fsqrt pi gaunt nb v) as [op|] eqn:Ed; [|discriminate]. cbn [bind] in Hd. eapply dagger_wf; eauto. eapply dip_wf; eauto.
Qed.
Lemma nixs_wf qs li lj radial (ops : list (op_t F)) :
  getNIXSOperators fsqrt arccos fsin pi gaunt spherical_jn sph_harm nb qs li lj radial = Ok ops -> Forall (wf_op (n_orb nb)) ops.
Proof.
  intros E. eapply map_res_all; [|exact E]. intros [[q0 q1] q2] op _. unfold getNIXSOperator.
  apply (fold_res_inv' _ (wf_op (n_orb nb))); [|apply wf_nil]. intros s1 k s2 H1 _. destruct (_ =? 0)%Z; [|congruence]. revert H1.
  apply (fold_res_inv' _ (wf_op (n_orb nb))). clear s1 s2. intros s1 mi s2 H1 _. revert H1.
  apply (fold_res_inv' _ (wf_op (n_orb nb))). clear s1 s2. intros s1 mj s2 H1 _. destruct (_ <=? k)%Z; [|congruence]. destruct (negb _); [|congruence]. revert H1.
  apply (fold_res_inv' _ (wf_op (n_orb nb))). clear s1 s2. intros s1 s s2 H1 _.
  destruct (c2i nb (SImp li s mi)) as [i|] eqn:Ei; [|discriminate]. cbn [bind]. destruct (c2i nb (SImp lj s mj)) as [j|] eqn:Ej; [|discriminate]. cbn [bind]. intros H. injection H as <-.
  apply wf_dadd; auto. eapply wf_two; eauto.
Qed.
End Ops.
