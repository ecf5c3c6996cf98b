(* Communication of dictionaries: useless chunk sizes. *)
From Verif Require Import M_Prelude M_Comm L_Dict L_Comm.
Local Open Scope Z_scope.

Section C.
Context {K V : Type} `{EqB K}.
Lemma ceil_neg len c : 0 <= len -> c < 0 -> exists n, ceil_div len c = Ok n /\ n <= 0.
Proof.
  intros Hl Hc. unfold ceil_div. destruct (c =? 0) eqn:E; [lia|]. exists (- (- len / c)). split; [reflexivity|].
  assert (0 <= - len / c); [|lia]. rewrite <- (Z.opp_involutive c), Z.div_opp_opp by lia. apply Z.div_pos; lia.
Qed.
Lemma chunks_zero (datas : list (dict K V)) root r : (r < length datas)%nat ->
  nth_error (dict_chunks_from_one_MPI_rank datas 0 root) r = Some (Err (if Nat.eqb r root then ZeroDivisionError else Deadlock)).
Proof.
  intros Hr. unfold dict_chunks_from_one_MPI_rank, ceil_div. cbn [Z.eqb]. rewrite nth_error_map.
  rewrite (nth_error_nth' (seq 0 (length datas)) 0%nat) by (rewrite seq_length; auto). rewrite seq_nth by auto. reflexivity.
Qed.
Lemma chunks_neg (datas : list (dict K V)) c root : c < 0 -> dict_chunks_from_one_MPI_rank datas c root = map (fun _ => Ok []) datas.
Proof.
  intros Hc. unfold dict_chunks_from_one_MPI_rank. destruct (ceil_neg (Z.of_nat (length (nth root datas []))) c) as (n & -> & Hn); [lia|lia|].
  replace (Z.to_nat n) with 0%nat by lia. cbn [chunks repeat]. cbn [rmap map].
  generalize 0%nat. induction datas as [|d ds IH]; intros i; [reflexivity|]. cbn [length seq map]. f_equal; [destruct (Nat.eqb i root); reflexivity|apply IH].
Qed.
Lemma allgather_neg (datas totals : list (dict K V)) c : c < 0 -> length totals = length datas -> allgather_dict true datas totals c = map Ok totals.
Proof.
  intros Hc Hl. unfold allgather_dict. 
  assert (0 <= fold_right Z.max 0 (map (fun d : dict K V => Z.of_nat (length d)) datas)) by (induction datas in |- *; cbn; lia).
  destruct (_ <=? c) eqn:E; [lia|]. 
  assert (HR : forall rs, Forall (fun r => (r < length datas)%nat) rs -> fold_left (allgather_round datas c) rs (map Ok totals) = map Ok totals).
  { induction 1 as [|r rs Hr _ IH]; [reflexivity|]. cbn [fold_left]. rewrite <- IH at 2. f_equal. unfold allgather_round. rewrite chunks_neg by auto. cbv zeta.
    rewrite (nth_indep _ (Err Deadlock) (Ok [])) by (rewrite map_length; auto). rewrite (map_nth (fun _ : dict K V => Ok []) datas [] r).
    clear - Hl. revert totals Hl. induction datas as [|d ds IHd]; intros [|t ts] Hl; try discriminate; [reflexivity|]. cbn. f_equal. apply IHd. cbn in Hl. lia. }
  apply HR. apply Forall_forall. intros r Hr. apply in_seq in Hr. lia.
Qed.
(* chunk size 0: if some rank has something to send, the first rank stops and the others wait *)
Lemma allgather_zero (datas totals : list (dict K V)) : length totals = length datas -> Exists (fun d => d <> []) datas ->
  allgather_dict true datas totals 0 = Err ZeroDivisionError :: map (fun _ => Err Deadlock) (tl totals).
Proof.
  intros Hl HE. unfold allgather_dict.
  assert (0 < fold_right Z.max 0 (map (fun d : dict K V => Z.of_nat (length d)) datas)) by (clear Hl; induction HE as [d ds Hd|d ds _ IH]; cbn; [destruct d; [congruence|cbn; lia]|lia]).
  destruct (_ <=? 0) eqn:E; [lia|]. destruct datas as [|d ds]; [inversion HE|]. clear HE E H0. destruct totals as [|t ts]; [discriminate|]. cbn [length seq fold_left].
  assert (E1 : allgather_round (d :: ds) 0 (map Ok (t :: ts)) 0 = Err ZeroDivisionError :: map (fun _ => Err Deadlock) ts).
  { unfold allgather_round, dict_chunks_from_one_MPI_rank, ceil_div. cbn [Z.eqb length seq map nth Nat.eqb combine bind fst snd]. f_equal.
    injection Hl as Hl. clear - Hl. assert (G : forall i, (0 < i)%nat -> map (fun yt : res (list (option (dict K V))) * res (dict K V) => bind (snd yt) (fun _ => match fst yt with Ok _ => Err Deadlock | Err e => Err e end : res (dict K V)))
      (combine (map (fun r => Err (if Nat.eqb r 0 then ZeroDivisionError else Deadlock) : res (list (option (dict K V)))) (seq i (length ds))) (map Ok ts)) = map (fun _ => Err Deadlock) ts); [|apply G; lia].
    revert ts Hl. induction ds as [|x ds IH]; intros [|t ts] Hl i Hi; try discriminate; [reflexivity|]. cbn [length seq map combine bind fst snd]. destruct i; [lia|]. cbn [Nat.eqb]. f_equal. apply IH; [cbn in Hl; lia|lia]. }
  rewrite E1.
  assert (HS : forall (y : list (res (dict K V))) r, length y = length (d :: ds) -> Forall (fun z => exists e, z = Err e) y -> allgather_round (d :: ds) 0 y r = y).
  { intros y r Hy HF. unfold allgather_round. cbv zeta.
    assert (Ly : length (dict_chunks_from_one_MPI_rank (d :: ds) 0 r) = length y) by (unfold dict_chunks_from_one_MPI_rank, ceil_div; cbn [Z.eqb]; rewrite map_length, seq_length; auto).
    revert Ly. generalize (dict_chunks_from_one_MPI_rank (d :: ds) 0 r) at 1 3 4. intros ys Ly.
    destruct (nth r _ _); (clear - HF Ly; revert ys Ly; induction HF as [|z y [e ->] _ IH]; intros [|u ys] Ly; try discriminate; [reflexivity|]; cbn [combine map fst snd bind]).
    - f_equal. apply IH. cbn in Ly. lia.
    - f_equal. apply IH. cbn in Ly. lia. }
  assert (HF : Forall (fun z : res (dict K V) => exists e, z = Err e) (Err ZeroDivisionError :: map (fun _ => Err Deadlock) ts)).
  { constructor; [eauto|]. apply Forall_forall. intros z Hz. apply in_map_iff in Hz as (? & <- & _). eauto. }
  assert (E2 : forall rs, fold_left (allgather_round (d :: ds) 0) rs (Err ZeroDivisionError :: map (fun _ => Err Deadlock) ts) = Err ZeroDivisionError :: map (fun _ => Err Deadlock) ts).
  { induction rs as [|r rs IH]; [reflexivity|]. cbn [fold_left]. rewrite HS; [exact IH| |exact HF]. cbn [length] in *. rewrite map_length. lia. }
  rewrite E2. reflexivity.
Qed.
End C.
