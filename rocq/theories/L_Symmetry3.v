(* The parts of the Hamiltonian as sums of products of ladder operators. *)
From Coq Require Import Ring Field.
From Verif Require Import M_Prelude M_Scalar M_PSR M_State M_Basis M_Expect M_Operators S_Fock S_Ops S_Basis S_Expect S_Operators S_Symmetry.
From Verif Require Import L_Scalar L_Sum L_Dict L_Fock L_State L_Ops L_Index L_Expect L_Expect2 L_Expect4 L_Expect5 L_Operators L_Operators2 L_Operators3 L_Operators4 L_Operators5 L_Symmetry L_Symmetry2.
Local Open Scope Z_scope.

Lemma NoDup_list_prod {A B} (l : list A) (m : list B) : NoDup l -> NoDup m -> NoDup (list_prod l m).
Proof.
  intros Hl Hm. induction Hl as [|a l Ha Hl IH]; cbn; [constructor|]. apply NoDup_app_intro; auto.
  - apply NoDup_map_on; auto. intros b b' _ _ E. congruence.
  - intros [x y] H1 H2. apply in_map_iff in H1 as (b & E & _). injection E as <- <-. apply in_prod_iff in H2. tauto.
Qed.
Section A.
Context {F : ofield}.
Add Field Ff : (f_field F).
Add Ring Cring : (@c_ring F).
Lemma dict_sum {A} {EA : EqB A} (g : list (A * ascii) -> cx F) (d : gop A F) : NoDup (dkeys d) ->
  csum (fun kv => snd kv * g (fst kv))%C d = csum (fun k => val d k * g k)%C (dkeys d).
Proof.
  intros Hn. unfold dkeys. rewrite csum_map. apply csum_ext. intros [k v] Hi. cbn [fst snd]. unfold val.
  rewrite (In_dget d k v); auto.
Qed.
Lemma dict_sum_over {A} {EA : EqB A} (g : list (A * ascii) -> cx F) (d : gop A F) K : NoDup (dkeys d) -> NoDup K -> incl (dkeys d) K ->
  csum (fun kv => snd kv * g (fst kv))%C d = csum (fun k => val d k * g k)%C K.
Proof.
  intros Hn HK Hi. rewrite dict_sum by auto. symmetry. apply csum_incl; auto. intros k _ Hk.
  unfold val. destruct (dget d k) as [v|] eqn:E; [|ring]. exfalso. apply Hk. apply dget_Some_key. eauto.
Qed.
Lemma csum_addOps {A} {EA : EqB A} (g : list (A * ascii) -> cx F) (ops : list (gop A F)) :
  csum (fun kv => snd kv * g (fst kv))%C (addOps ops) = csum (fun op => csum (fun kv => snd kv * g (fst kv))%C op) ops.
Proof.
  rewrite addOps_foldadd, (csum_foldadd g). rewrite csum_filter. cbn [csum].
  etransitivity; [|apply (csum_concat (fun ph : list (A * ascii) * cx F => snd ph * g (fst ph))%C ops)].
  rewrite <- (csum_ext (fun ph => snd ph * g (fst ph))%C (fun a => if negb (ceqb (snd a) c0) then (snd a * g (fst a))%C else c0)).
  - ring.
  - intros [p h] _. cbn [fst snd]. destruct (ceqb_spec h c0) as [->|]; cbn [negb]; auto. ring.
Qed.
Variable nb : nbaths_t.
Hypothesis Hwf : wf_nbaths nb.
Let n := n_orb nb.
Definition sv (op : sop_t F) (v : config -> cx F) (t : config) : cx F := csum (fun kv => snd kv * pvec (pidx nb (fst kv)) v t)%C op.
Lemma indexed_vec (op : sop_t F) v t : good_labels op -> length t = n -> opv n (indexed nb op) v t = sv op v t.
Proof.
  intros Hg Ht. rewrite (opv_pvec n); auto.
  - unfold indexed. rewrite csum_map. reflexivity.
  - unfold good_labels, indexed in *. apply Forall_map. eapply Forall_impl; [|exact Hg]. intros [p h] Hp. cbn [fst] in *.
    unfold pidx. apply Forall_map. eapply Forall_impl; [|exact Hp]. intros [x a] Ha. exact Ha.
Qed.
Lemma sv_addOps ops v t : sv (addOps ops) v t = csum (fun op => sv op v t) ops.
Proof. apply (csum_addOps (fun p => pvec (pidx nb p) v t)). Qed.

(* the orbitals of a shell *)
Definition shell (l : Z) : list spinorb := map (orb l) (sites l).
Lemma shell_In l x : In x (shell l) <-> in_shell l x.
Proof.
  unfold shell. rewrite in_map_iff. split.
  - intros ([s m] & <- & H). apply sites_In in H. exists s, m. split; [reflexivity|]. tauto.
  - intros (s & m & -> & H). exists (s, m). split; auto. apply sites_In. auto.
Qed.
Lemma shell_NoDup l : NoDup (shell l).
Proof. apply NoDup_map_on; [|apply sites_NoDup]. intros [s m] [s' m'] _ _ E. injection E as -> ->. reflexivity. Qed.
Lemma hop2_inj x y x' y' : hop2 x y = hop2 x' y' -> x = x' /\ y = y'.
Proof. unfold hop2. intros E. injection E as -> ->. auto. Qed.
Lemma hop4_inj x y z t x' y' z' t' : hop4 x y z t = hop4 x' y' z' t' -> x = x' /\ y = y' /\ z = z' /\ t = t'.
Proof. unfold hop4. intros E. injection E as -> -> -> ->. auto. Qed.
Lemma one_body_vec l (op : sop_t F) h v t : NoDup (dkeys op) -> one_body_op l op h -> sv op v t = B2 nb (shell l) (shell l) h v t.
Proof.
  intros Hn [HK HV]. unfold sv.
  rewrite (dict_sum_over (fun p => pvec (pidx nb p) v t) op (map (fun xy => hop2 (fst xy) (snd xy)) (list_prod (shell l) (shell l)))); auto.
  - rewrite csum_map, csum_list_prod. unfold B2. apply csum_ext. intros x Hx. apply csum_ext. intros y Hy. cbn [fst snd].
    apply shell_In in Hx, Hy. rewrite HV by auto. reflexivity.
  - apply NoDup_map_on; [|apply NoDup_list_prod; apply shell_NoDup]. intros [x y] [x' y'] _ _ E. cbn in E. apply hop2_inj in E as [-> ->]. auto.
  - intros p Hp. destruct (HK p Hp) as (x & y & -> & Hx & Hy). apply in_map_iff. exists (x, y). split; auto.
    apply in_prod; apply shell_In; auto.
Qed.
(* two creations or two annihilations of the same orbital *)
Lemma CC_zero i (v : config -> cx F) t : C_ i (C_ i v) t = c0.
Proof. unfold C_. rewrite vpull_vpull. unfold vpull. rewrite flip_twice. reflexivity. Qed.
Lemma AA_zero i (v : config -> cx F) t : A_ i (A_ i v) t = c0.
Proof. unfold A_. rewrite vpull_vpull. unfold vpull. rewrite flip_twice. reflexivity. Qed.
Lemma T4_xx x z t (v : config -> cx F) s : T4 nb x x z t v s = c0.
Proof. apply CC_zero. Qed.
Lemma T4_zz x y z (v : config -> cx F) s : T4 nb x y z z v s = c0.
Proof.
  unfold T4, C_, vpull. destruct (flip false (ix nb x) s) as [[s1 a]|]; auto. destruct (flip false (ix nb y) s1) as [[s2 b]|]; [|ring].
  change (A_ (ix nb z) (A_ (ix nb z) v) s2 * cofZ b * cofZ a = c0)%C. rewrite AA_zero. ring.
Qed.
(* Coulomb matrix elements with spin *)
Definition Wc (ck : Z -> Z -> Z -> Z -> Z -> F) (R : list F) (x y z t : spinorb) : cx F :=
  match x, y, z, t with
  | SImp l1 s1 m1, SImp l2 s2 m2, SImp l3 s3 m3, SImp l4 s4 m4 =>
      if (s1 =? s4) && (s2 =? s3) then creal (slater ck R (l1, m1) (l2, m2) (l3, m3) (l4, m4) / fofZ 2)%F else c0
  | _, _, _, _ => c0
  end.
Variable fsqrt : F -> F.
Variable pi : F.
Variable gaunt : Z -> Z -> Z -> Z -> Z -> Z -> F.
Let ck := gauntC fsqrt pi gaunt.
Lemma u_val l1 l2 l3 l4 R x y z t : in_shell l1 x -> in_shell l2 y -> in_shell l3 z -> in_shell l4 t ->
  val (getUop fsqrt pi gaunt l1 l2 l3 l4 R) (hop4 x y z t) = if eqb x y || eqb z t then c0 else Wc ck R x y z t.
Proof.
  intros Hx Hy Hz Ht. unfold val. destruct (dget (getUop fsqrt pi gaunt l1 l2 l3 l4 R) (hop4 x y z t)) as [v|] eqn:E.
  - apply u_elements in E as (m1 & m2 & m3 & m4 & s & sp & _ & _ & _ & _ & H1 & H2 & H3 & H4 & H5).
    apply hop4_inj in H4 as (-> & -> & -> & ->).
    destruct (eqb_spec (SImp l1 s m1) (SImp l2 sp m2)); [congruence|]. destruct (eqb_spec (SImp l3 sp m3) (SImp l4 s m4)); [congruence|]. cbn [Datatypes.orb].
    unfold Wc. rewrite !Z.eqb_refl. cbn [andb]. exact H5.
  - destruct (eqb_spec x y) as [|N1]; auto. destruct (eqb_spec z t) as [|N2]; auto. cbn [Datatypes.orb]. cbv iota.
    pose proof Hx as (s1 & m1 & -> & _). pose proof Hy as (s2 & m2 & -> & _). pose proof Hz as (s3 & m3 & -> & _). pose proof Ht as (s4 & m4 & -> & _).
    unfold Wc. destruct (Z.eqb_spec s1 s4) as [<-|]; auto. destruct (Z.eqb_spec s2 s3) as [<-|]; auto. cbn [andb].
    destruct (feqb_spec (slater ck R (l1, m1) (l2, m2) (l3, m3) (l4, m4)) 0%F) as [->|Hu].
    + replace (0 / fofZ 2)%F with (0%F : F); [reflexivity|]. rewrite (Fdiv_def (f_field F)). ring.
    + exfalso. assert (X : dget (getUop fsqrt pi gaunt l1 l2 l3 l4 R) (hop4 (SImp l1 s1 m1) (SImp l2 s2 m2) (SImp l3 s2 m3) (SImp l4 s1 m4)) =
        Some (creal (slater ck R (l1, m1) (l2, m2) (l3, m3) (l4, m4) / fofZ 2)%F)).
      { apply u_elements. exists m1, m2, m3, m4, s1, s2. cbv zeta. repeat split; auto. }
      congruence.
Qed.
Lemma u_vec l1 l2 l3 l4 R v s : sv (getUop fsqrt pi gaunt l1 l2 l3 l4 R) v s = B4 nb (shell l1) (shell l2) (shell l3) (shell l4) (Wc ck R) v s.
Proof.
  unfold sv.
  rewrite (dict_sum_over (fun p => pvec (pidx nb p) v s) _ (map (fun q => let '(((x, y), z), t) := q in hop4 x y z t)
    (list_prod (list_prod (list_prod (shell l1) (shell l2)) (shell l3)) (shell l4)))).
  - rewrite csum_map, !csum_list_prod. unfold B4. apply csum_ext. intros x Hx. apply csum_ext. intros y Hy. apply csum_ext. intros z Hz. apply csum_ext. intros t Ht.
    apply shell_In in Hx, Hy, Hz, Ht. rewrite u_val by auto.
    change (pvec (pidx nb (hop4 x y z t)) v s) with (T4 nb x y z t v s).
    destruct (eqb_spec x y) as [->|]; cbn [Datatypes.orb]; [rewrite T4_xx; ring|]. destruct (eqb_spec z t) as [->|]; [rewrite T4_zz; ring|]. reflexivity.
  - apply u_NoDup.
  - apply NoDup_map_on.
    + intros [[[x y] z] t] [[[x' y'] z'] t'] _ _ E. apply hop4_inj in E as (-> & -> & -> & ->). reflexivity.
    + repeat apply NoDup_list_prod; apply shell_NoDup.
  - intros p Hp. apply dget_Some_key in Hp as [w Hp]. apply u_elements in Hp as (m1 & m2 & m3 & m4 & s' & sp & Hx & Hy & Hz & Ht & _ & _ & _ & -> & _).
    apply in_map_iff. eexists (((_, _), _), _). split; [reflexivity|]. repeat apply in_prod; apply shell_In; auto.
Qed.
End A.
