(* getGreen as a whole *)
From Coq Require Import Lia List Bool Permutation Field Ring.
From Verif Require Import M_Prelude M_Scalar M_PSR M_Ladder M_State M_Mpi M_Hamiltonian M_Lanczos S_Fock S_Ham S_Ops S_Green
  L_PSR L_Ladder L_Scalar L_Dict L_Sum L_Fock L_State L_Ham L_Expand L_ExpandP L_FromH L_HamP L_Vec L_CFrac L_Lanczos L_Lanczos2 L_Lanczos3 L_Green.
Import ListNotations.
Local Open Scope cx_scope.

Section LGreen2.
Context {F : ofield}.
Add Field Ff : (f_field F).
Add Ring Cring : (@c_ring F).
Add Field Cf : (@c_field F).
Variable fsqrt : F -> F.

Definition matrix_mode (mode : gmode) : Prop := mode = GDense \/ mode = GSparse.
Lemma Forall2_map_r {A B C} (P : A -> C -> Prop) (f : B -> C) l m : Forall2 (fun a b => P a (f b)) l m -> Forall2 P l (map f m).
Proof. induction 1; simpl; constructor; auto. Qed.
Lemma Forall2_imp {A B} (P Q : A -> B -> Prop) l m : (forall a b, P a b -> Q a b) -> Forall2 P l m -> Forall2 Q l m.
Proof. intros H HF. induction HF; constructor; auto. Qed.

Section N.
Variable n : nat.
Variable op : op_t F.
Variable rs : option restrictions_t.
Hypothesis Hw : wf_op n op.
Hypothesis Hr : wf_restr rs.
Variable psi : psi_t F.
Hypothesis Hpsi : valid_psi n psi.
Hypothesis Hne : psi <> [].

Lemma keys_valid : Forall (valid_key n) (dkeys psi).
Proof. apply Forall_forall. apply Hpsi. Qed.
Lemma closure_in basis : is_closure n op rs (dkeys psi) basis -> forall k, In k (dkeys psi) -> In k basis.
Proof. intros ((new & ->) & _) k Hk. apply in_app_iff. auto. Qed.

Lemma green_serial fuel ord e omega delta ks swm (hs : list (hdict_t F)) mode : matrix_mode mode ->
  Forall (hdict_exact n op rs) hs -> (2 ^ n < fuel)%nat -> hs <> [] ->
  exists basis m v, is_closure n op rs (dkeys psi) basis /\ Exp n op rs (dkeys psi) 0 basis /\ restricted_matrix n op rs basis m /\
    length v = length basis /\ (forall i, vf v i = amp_at basis psi i) /\
    Forall2 (fun h out => hdict_exact n op rs (fst out) /\ hext h (fst out) /\
                snd out = rmap (green_mesh omega delta e) (krylov fsqrt (mdot (length basis) m) v ks)) hs
      (getGreen fsqrt fuel ord (Z.of_nat n) e psi op omega delta ks swm rs hs mode Serial).
Proof.
  intros Hm HF Hf Hh. destruct (ebh_serial n op rs Hw Hr fuel ord (dkeys psi) hs HF (proj1 Hpsi) keys_valid) as (basis & HC & HE & HF2); [lia|auto|].
  assert (exists m, restricted_matrix n op rs basis m) as (m & HRm).
  { destruct hs; [congruence|]. inversion HF2 as [|? ? ? ? (h' & m & _ & _ & _ & Hmm)]. eauto. }
  destruct (psi_vec_ok basis psi) as (v & Ev & Lv & Hv); [apply HC|apply Hpsi|apply closure_in; auto|].
  exists basis, m, v. split; [auto|]. split; [auto|]. split; [auto|]. split; [auto|]. split; [auto|].
  unfold getGreen. destruct psi as [|p0 psi'] eqn:Epsi; [congruence|]. rewrite <- Epsi in *.
  assert (EE : forall X Y W : list (hdict_t F * res (vec F)), match mode with GDict => X | GDense => Y | GSparse => Y | GOther => W end = Y) by (intros; destruct Hm; subst mode; auto).
  rewrite EE. cbv zeta. apply Forall2_map_r. eapply Forall2_imp; [|exact HF2].
  intros h out (h' & m' & -> & Hx & Hex & Hm'). cbn [fst snd bind]. rewrite Ev. cbn [bind].
  split; [auto|]. split; [auto|]. f_equal. unfold get_tridiagonal_krylov_vectors.
  apply (krylov_ext fsqrt (length v)); auto; [|intros; apply mdot_len].
  intros w _. rewrite Lv. apply mdot_ext. intros i j Hi Hj. apply (restricted_matrix_fun n op rs basis m' m); auto.
  eapply closure_valid; eauto.
Qed.

(* what the ranks other than 0 return *)
Definition other_rank (omega : list F) (delta e : F) (k : Z) (r : res (list F * list F)) : res (vec F) :=
  if (k <? 1)%Z then Err ValueError else
  match r with
  | Ok _ => Ok (green_mesh omega delta e (repeat 0%F (Z.to_nat k), repeat 0%F (Z.to_nat (k - 1))))
  | Err _ => Err Deadlock
  end.
Lemma green_hbuild fuel ord e omega delta ks swm (hs : list (hdict_t F)) mode : matrix_mode mode ->
  (forall r l, Permutation (ord r l) l) -> Forall (hdict_exact n op rs) hs -> NoDup (flat_map dkeys hs) -> (2 ^ n < fuel)%nat -> hs <> [] ->
  exists basis m v hs', is_closure n op rs (dkeys psi) basis /\ Exp n op rs (dkeys psi) 0 basis /\ restricted_matrix n op rs basis m /\
    length v = length basis /\ (forall i, vf v i = amp_at basis psi i) /\
    Forall (hdict_exact n op rs) hs' /\ NoDup (flat_map dkeys hs') /\ Forall2 hext hs hs' /\
    let r := krylov fsqrt (mdot (length basis) m) v ks in
    getGreen fsqrt fuel ord (Z.of_nat n) e psi op omega delta ks swm rs hs mode HBuild =
      combine hs' (rmap (green_mesh omega delta e) r ::
                   repeat (other_rank omega delta e (Z.min ks (Z.of_nat (length basis))) r) (length hs - 1)).
Proof.
  intros Hm Hord HF Hnd Hf Hh.
  destruct (ebh_hbuild n op rs Hw Hr fuel ord (dkeys psi) hs Hord Hh HF Hnd (proj1 Hpsi) keys_valid) as (basis & hs' & m & ms & HC & HE & Hx & Hex & Hnd' & Lms & _ & E & HRm & Hsum); [lia|].
  destruct (psi_vec_ok basis psi) as (v & Ev & Lv & Hv); [apply HC|apply Hpsi|apply closure_in; auto|].
  exists basis, m, v, hs'. split; [auto|]. split; [auto|]. split; [auto|]. split; [auto|]. split; [auto|]. split; [auto|]. split; [auto|]. split; [auto|].
  cbv zeta.
  unfold getGreen. destruct psi as [|p0 psi'] eqn:Epsi; [congruence|]. rewrite <- Epsi in *.
  assert (EE : forall X Y W : list (hdict_t F * res (vec F)), match mode with GDict => X | GDense => Y | GSparse => Y | GOther => W end = Y) by (intros; destruct Hm; subst mode; auto).
  rewrite EE. cbv zeta. rewrite E.
  assert (Lhs : length hs' = length hs) by (symmetry; eapply Forall2_len; eauto).
  assert (Hst : map (fun x : hdict_t F * res (mat F * dict pybytes nat) => do (h, idx) <- snd x; do psi0 <- psi_vec idx psi; Ok (h, psi0))
     (map (fun hm => (fst hm, Ok (snd hm, basis_index basis))) (combine hs' ms)) = map (fun mr => Ok (mr, v)) ms).
  { rewrite map_map. cbn [snd bind]. rewrite (map_ext _ (fun hm : hdict_t F * mat F => Ok (snd hm, v))) by (intros; rewrite Ev; auto).
    rewrite <- (map_map snd (fun mr => Ok (mr, v))). f_equal. assert (HL : length hs' = length ms) by lia.
    clear -HL. revert ms HL. induction hs' as [|h hs' IH]; intros [|m ms] HL; simpl in *; try lia; auto. f_equal. apply IH. lia. }
  assert (Hfst : map fst (map (fun hm : dict pybytes (psi_t F) * mat F => (fst hm, Ok (snd hm, basis_index basis))) (combine hs' ms)) = hs').
  { rewrite map_map. cbn [fst]. assert (HL : length hs' = length ms) by lia.
    clear -HL. revert ms HL. induction hs' as [|h hs' IH]; intros [|m ms] HL; simpl in *; try lia; auto. f_equal. apply IH. lia. }
  rewrite Hst.
  assert (Hall : forallb is_ok (map (fun mr : mat F => Ok (mr, v)) ms) = true) by (clear; induction ms; simpl; auto).
  assert (Hoks : map fst (oks (map (fun mr : mat F => Ok (mr, v)) ms)) = ms) by (clear; induction ms; simpl; auto; f_equal; auto).
  destruct ms as [|m0 ms0] eqn:Ems; [destruct hs; simpl in *; congruence|]. rewrite <- Ems in *.
  assert (HH : forall T (l : list (mat F)) (a : T) (g : vec F -> T), l <> [] -> match map (fun mr => @Ok (mat F * vec F) (mr, v)) l with Ok (_, psi0) :: _ => g psi0 | _ => a end = g v)
    by (intros T [|x l] a g Hl; [congruence|reflexivity]).
  rewrite HH by (rewrite Ems; discriminate). rewrite Hall.
  transitivity (combine hs' (map (rmap (green_mesh omega delta e)) (get_tridiagonal_krylov_vectors_local fsqrt (map fst (oks (map (fun mr : mat F => Ok (mr, v)) ms))) v ks))).
  { f_equal. exact Hfst. }
  rewrite Hoks. f_equal. unfold get_tridiagonal_krylov_vectors_local. rewrite Lv. unfold other_rank.
  assert (Lms0 : length ms0 = (length hs - 1)%nat) by (rewrite Ems in Lms; simpl in Lms; lia).
  assert (Ek : krylov fsqrt (reduce_dot ms (length basis)) v ks = krylov fsqrt (mdot (length basis) m) v ks).
  { apply (krylov_ext fsqrt (length basis)); auto; [|intros; apply reduce_dot_len]. intros w _. apply reduce_mdot. auto. }
  assert (Hmc : forall A B (b : B) (l : list A), map (fun _ => b) l = repeat b (length l)) by (induction l; simpl; congruence).
  destruct (Z.ltb_spec (Z.min ks (Z.of_nat (length basis))) 1) as [H1|H1].
  - rewrite map_map, Ems. cbn [map rmap]. rewrite Hmc, Lms0. f_equal. unfold krylov. rewrite Lv.
    destruct (Z.ltb_spec (Z.min ks (Z.of_nat (length basis))) 1); [|lia]. reflexivity.
  - rewrite Ek, Ems. destruct (krylov fsqrt (mdot (length basis) m) v ks) as [r|ex]; cbn [map rmap]; rewrite map_map, Hmc, Lms0; reflexivity.
Qed.
End N.
End LGreen2.
