(* getGreen seen from its callers: the value does not depend on h_dict and set orders *)
From Coq Require Import Lia List Bool Permutation Field Ring.
From Verif Require Import M_Prelude M_Scalar M_PSR M_Ladder M_State M_Mpi M_Hamiltonian M_Lanczos M_Spectra S_Fock S_Ham S_Ops S_Green
  L_PSR L_Ladder L_Scalar L_Dict L_Sum L_Fock L_State L_Ham L_Expand L_ExpandP L_FromH L_HamP L_Vec L_CFrac L_Lanczos L_Lanczos2 L_Lanczos3 L_Green L_Green2 L_Green3 L_Green4.
Import ListNotations.
Local Open Scope cx_scope.

Section LSpectra.
Context {F : ofield}.
Add Field Ff : (f_field F).
Add Ring Cring : (@c_ring F).
Add Field Cf : (@c_field F).
Variable fsqrt : F -> F.
Variable n : nat.
Variable op : op_t F.
Variable rs : option restrictions_t.
Hypothesis Hw : wf_op n op.
Hypothesis Hr : wf_restr rs.
Variable fuel : nat.
Hypothesis Hf : (2 ^ n < fuel)%nat.
Variable omega : list F.
Variable delta : F.
Variable ks : Z.
Variable swm : F.

Definition GG ord e psi hs pm := getGreen fsqrt fuel ord (Z.of_nat n) e psi op omega delta ks swm rs hs GSparse pm.
Definition good_hs (hs : list (hdict_t F)) : Prop := Forall (hdict_exact n op rs) hs /\ NoDup (flat_map dkeys hs).
(* what the ranks other than 0 return in H_build mode *)
Definition free_green (e : F) (psi : psi_t F) : vec F :=
  match psi with [] => repeat c0 (length omega) | _ => map (fun w => c1 / mkC (w + e)%F delta) omega end.

Lemma green_canon e (psi : psi_t F) : valid_psi n psi -> exists r other,
  (forall ord hs, Forall (hdict_exact n op rs) hs ->
     Forall2 (fun (h : hdict_t F) out => hdict_exact n op rs (fst out) /\ snd out = r) hs (GG ord e psi hs Serial)) /\
  (forall (ord : nat -> set_order) hs, (forall q l, Permutation (ord q l) l) -> good_hs hs -> hs <> [] ->
     good_hs (map fst (GG ord e psi hs HBuild)) /\ length (GG ord e psi hs HBuild) = length hs /\
     map snd (GG ord e psi hs HBuild) = r :: repeat other (length hs - 1)) /\
  is_ok other = is_ok r /\ (delta <> 0%F -> is_ok r = true -> other = Ok (free_green e psi)).
Proof.
  intros Hpsi. destruct psi as [|p0 psi'] eqn:Epsi.
  { exists (Ok (repeat c0 (length omega))), (Ok (repeat c0 (length omega))). unfold GG. cbn [getGreen]. split; [|split; [|split]]; auto.
    - intros _ hs HF. induction HF; simpl; constructor; auto.
    - intros _ hs _ HG Hh. rewrite !map_map. cbn [fst snd]. rewrite map_id, map_length. split; [auto|]. split; [auto|].
      destruct hs as [|h hs]; [congruence|]. cbn [map length]. rewrite Nat.sub_succ, Nat.sub_0_r. f_equal.
      clear. induction hs; simpl; congruence. }
  rewrite <- Epsi in *. assert (Hne : psi <> []) by congruence.
  destruct (green_serial fsqrt n op rs Hw Hr psi Hpsi Hne fuel (fun _ l => l) e omega delta ks swm [[]] GSparse) as (basis & m & v & HC & HE & HRm & Lv & Hv & _); auto; [right; auto|repeat constructor; intros k col Ek; discriminate|discriminate|].
  set (k0 := krylov fsqrt (mdot (length basis) m) v ks).
  assert (Ek : forall m', restricted_matrix n op rs basis m' -> krylov fsqrt (mdot (length basis) m') v ks = k0).
  { intros m' Hm'. apply (krylov_ext fsqrt (length basis)); auto; [|intros; apply mdot_len].
    intros w _. apply mdot_ext. apply (restricted_matrix_fun n op rs basis); auto. eapply closure_valid; eauto. }
  exists (rmap (green_mesh omega delta e) k0), (other_rank omega delta e (Z.min ks (Z.of_nat (length basis))) k0).
  split; [|split; [|split]].
  - intros ord hs HF. destruct hs as [|h hs0] eqn:Ehs.
    { unfold GG, getGreen. destruct psi; [congruence|]. constructor. }
    rewrite <- Ehs in *.
    destruct (green_serial fsqrt n op rs Hw Hr psi Hpsi Hne fuel ord e omega delta ks swm hs GSparse) as (basis' & m' & v' & HC' & HE' & HRm' & Lv' & Hv' & HF2); auto; [right; auto|congruence|].
    assert (basis' = basis) by (eapply Exp_fun; eauto). subst basis'.
    assert (v' = v) by (apply list_vf_ext; [congruence|intros; rewrite Hv, Hv'; auto]). subst v'.
    rewrite Ek in HF2 by auto. eapply Forall2_imp; [|exact HF2]. cbv beta. tauto.
  - intros ord hs Hord [HF Hnd] Hh.
    destruct (green_hbuild fsqrt n op rs Hw Hr psi Hpsi Hne fuel ord e omega delta ks swm hs GSparse) as (basis' & m' & v' & hs' & HC' & HE' & HRm' & Lv' & Hv' & Hx & Hnd' & Hex & E); auto; [right; auto|].
    assert (basis' = basis) by (eapply Exp_fun; eauto). subst basis'.
    assert (v' = v) by (apply list_vf_ext; [congruence|intros; rewrite Hv, Hv'; auto]). subst v'.
    cbv zeta in E. rewrite Ek in E by auto. unfold GG. rewrite E.
    assert (Lhs : length hs' = length hs) by (symmetry; eapply Forall2_len; eauto).
    set (l := _ :: repeat _ _). assert (Ll : length l = length hs').
    { unfold l. cbn [length]. rewrite repeat_length. destruct hs; [congruence|]. simpl in *. lia. }
    assert (HH : forall A B (x : list A) (y : list B), length y = length x -> map fst (combine x y) = x /\ map snd (combine x y) = y).
    { clear. induction x as [|a x IH]; intros [|b y] H; simpl in *; try lia; auto. destruct (IH y) as [-> ->]; auto. }
    destruct (HH _ _ hs' l Ll) as [H1 H2]. split; [exact (eq_ind_r (fun x => good_hs x) (conj Hx Hnd') H1)|]. split; [rewrite combine_length; lia|]. exact H2.
  - unfold other_rank. destruct (Z.ltb_spec (Z.min ks (Z.of_nat (length basis))) 1) as [Hk|Hk].
    + unfold k0, krylov. rewrite Lv. destruct (Z.ltb_spec (Z.min ks (Z.of_nat (length basis))) 1); [reflexivity|lia].
    + destruct k0; reflexivity.
  - intros Hd Hok. unfold other_rank. destruct (Z.ltb_spec (Z.min ks (Z.of_nat (length basis))) 1) as [Hk|Hk].
    { exfalso. unfold k0, krylov in Hok. rewrite Lv in Hok. destruct (Z.ltb_spec (Z.min ks (Z.of_nat (length basis))) 1); [discriminate|lia]. }
    destruct k0 as [ab|]; [|discriminate]. f_equal. unfold free_green. destruct psi; [congruence|]. unfold green_mesh. apply map_ext. intros w. cbn [fst snd].
    replace (Z.to_nat (Z.min ks (Z.of_nat (length basis)))) with (S (Z.to_nat (Z.min ks (Z.of_nat (length basis)) - 1))) by lia.
    apply cf_zeros. intros E. apply Hd. injection E as _ E. auto.
Qed.

Definition gval (e : F) (psi : psi_t F) : res (vec F) :=
  match GG (fun _ l => l) e psi [[]] Serial with [(_, r)] => r | _ => Err GenericException end.
Lemma exact_nil : hdict_exact n op rs [].
Proof. intros k col E. discriminate. Qed.
Lemma Forall2_one {A B} (P : A -> B -> Prop) a l : Forall2 P [a] l -> exists b, l = [b] /\ P a b.
Proof. intros H. inversion H as [|? b ? ? Hp Hq]; subst. inversion Hq; subst. eauto. Qed.
Lemma gval_eq e psi r : Forall2 (fun (h : hdict_t F) out => hdict_exact n op rs (fst out) /\ snd out = r) [[]] (GG (fun _ l => l) e psi [[]] Serial) -> gval e psi = r.
Proof. intros H. apply Forall2_one in H as ([h' r'] & E & _ & Er). unfold gval. rewrite E. exact Er. Qed.
Lemma GG_serial ord e psi h : valid_psi n psi -> hdict_exact n op rs h ->
  exists h', GG ord e psi [h] Serial = [(h', gval e psi)] /\ hdict_exact n op rs h'.
Proof.
  intros Hpsi Hx. destruct (green_canon e psi Hpsi) as (r & other & H & _).
  rewrite (gval_eq e psi r) by (apply H; constructor; [apply exact_nil|auto]).
  destruct (Forall2_one _ _ _ (H ord [h] ltac:(auto))) as ([h' r'] & E & Ha & Hb). exists h'. cbn [fst snd] in *. subst r'. auto.
Qed.
Lemma GG_hbuild (ord : nat -> set_order) e psi hs : valid_psi n psi -> (forall q l, Permutation (ord q l) l) -> good_hs hs -> hs <> [] ->
  exists other, good_hs (map fst (GG ord e psi hs HBuild)) /\ length (GG ord e psi hs HBuild) = length hs /\
    map snd (GG ord e psi hs HBuild) = gval e psi :: repeat other (length hs - 1) /\ is_ok other = is_ok (gval e psi) /\
    (delta <> 0%F -> is_ok (gval e psi) = true -> other = Ok (free_green e psi)).
Proof.
  intros Hpsi Hord HG Hh. destruct (green_canon e psi Hpsi) as (r & other & H & HB & Ho & Hd).
  rewrite (gval_eq e psi r) by (apply H; constructor; [apply exact_nil|auto]).
  exists other. destruct (HB ord hs Hord HG Hh) as (Ha & Hb & Hc). auto.
Qed.
End LSpectra.
