(* Helpers for the concrete examples: rational constants and small tactics. *)
From Coq Require Import QArith Qcanon.
From Verif Require Import M_Prelude M_Scalar M_PSR M_Ladder M_State S_Fock L_PSR L_Dict L_Fock.
Local Open Scope Z_scope.

Definition q (a : Z) (b : positive) : QcF := Q2Qc (a # b).
Definition qr (a : Z) (b : positive) : cx QcF := mkC (q a b) (q 0 1).
Definition qi (a : Z) (b : positive) (c : Z) (d : positive) : cx QcF := mkC (q a b) (q c d).

Definition psi_eqb (p r : psi_t QcF) : bool := dict_eqb p r.
Definition res_psi_is (r : res (psi_t QcF)) (p : psi_t QcF) : bool :=
  match r with Ok r => psi_eqb r p | Err _ => false end.


(* boolean checkers used to discharge the well-formedness hypotheses of examples *)
Fixpoint nodupb {A} `{EqB A} (l : list A) : bool :=
  match l with [] => true | x :: l => negb (inb x l) && nodupb l end.
Lemma nodupb_ok {A} `{EqB A} (l : list A) : nodupb l = true -> NoDup l.
Proof.
  induction l as [|x l IH]; simpl; intros E; constructor; apply andb_prop in E; destruct E as [E1 E2]; auto.
  intros Hin. apply inb_In in Hin. rewrite Hin in E1. discriminate.
Qed.
Definition valid_psib {F : ofield} (n : nat) (psi : psi_t F) : bool :=
  nodupb (dkeys psi) && forallb (fun k => inb k (map key (allcfg n))) (dkeys psi).
Lemma valid_psib_ok {F : ofield} n (psi : psi_t F) : valid_psib n psi = true -> valid_psi n psi.
Proof.
  unfold valid_psib. intros E. apply andb_prop in E. destruct E as [E1 E2]. split; [apply nodupb_ok; exact E1|].
  intros k Hk. rewrite forallb_forall in E2. apply E2 in Hk. apply inb_In in Hk.
  apply in_map_iff in Hk. destruct Hk as [c [<- Hc]]. exists c. split; auto. apply allcfg_In. exact Hc.
Qed.
Definition wf_ladderb (n : nat) (l : ladder) : bool :=
  (0 <=? fst l) && (fst l <? Z.of_nat n) && (eqb (snd l) "a"%char || eqb (snd l) "c"%char).
Definition wf_opb {F : ofield} (n : nat) (op : op_t F) : bool :=
  nodupb (dkeys op) && forallb (fun ph => forallb (wf_ladderb n) (fst ph)) op.
Lemma wf_opb_ok {F : ofield} n (op : op_t F) : wf_opb n op = true -> wf_op n op.
Proof.
  unfold wf_opb. intros E. apply andb_prop in E. destruct E as [E1 E2]. split; [apply nodupb_ok; exact E1|].
  rewrite forallb_forall in E2. apply Forall_forall. intros ph Hp. apply E2 in Hp.
  rewrite forallb_forall in Hp. apply Forall_forall. intros l Hl. apply Hp in Hl. unfold wf_ladderb in Hl.
  apply andb_prop in Hl. destruct Hl as [Hl1 Hl2]. apply andb_prop in Hl1. destruct Hl1 as [H0 H1].
  split; [apply Z.leb_le in H0; apply Z.ltb_lt in H1; auto|].
  apply orb_prop in Hl2. destruct (eqb_spec (snd l) "a"%char), (eqb_spec (snd l) "c"%char); auto.
  destruct Hl2; discriminate.
Qed.
Ltac valid_ex := apply valid_psib_ok; vm_compute; reflexivity.
Ltac wf_op_ex := apply wf_opb_ok; vm_compute; reflexivity.

(* Splitting an applyOp result without reading values back (the proofs inside Qc are large). *)
Definition get_cache (x : option (dict pybytes (psi_t QcF)) * res (psi_t QcF)) := match fst x with Some c => c | None => [] end.
Definition get_psi (x : option (dict pybytes (psi_t QcF)) * res (psi_t QcF)) := match snd x with Ok r => r | Err _ => [] end.
Definition is_plain (x : option (dict pybytes (psi_t QcF)) * res (psi_t QcF)) : bool :=
  match x with (None, Ok _) => true | _ => false end.
Definition is_cached (x : option (dict pybytes (psi_t QcF)) * res (psi_t QcF)) : bool :=
  match x with (Some _, Ok _) => true | _ => false end.
Lemma plain_eta x : is_plain x = true -> x = (None, Ok (get_psi x)).
Proof. destruct x as [[|] [|]]; try discriminate; reflexivity. Qed.
Lemma cached_eta x : is_cached x = true -> x = (Some (get_cache x), Ok (get_psi x)).
Proof. destruct x as [[|] [|]]; try discriminate; reflexivity. Qed.
(* square root, exact on the squares of rationals *)
Definition qsqrt (x : QcF) : QcF := Q2Qc (Z.sqrt (Qnum (this x)) # Pos.sqrt (Qden (this x))).
Definition vec_eqb (x y : list (cx QcF)) : bool := Nat.eqb (length x) (length y) && forallb (fun p => ceqb (fst p) (snd p)) (combine x y).
Definition res_vec_is (r : res (list (cx QcF))) (y : list (cx QcF)) : bool := match r with Ok x => vec_eqb x y | Err _ => false end.
