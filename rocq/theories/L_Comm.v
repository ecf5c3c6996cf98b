(* mpi_comm.py *)
From Verif Require Import M_Prelude M_Comm.
From Verif Require Import L_Dict L_Ham L_Fock L_ExpandP.
Local Open Scope Z_scope.

Lemma nth_error_map_seq {A} (f : nat -> A) n : forall z r y, nth_error (map f (seq z n)) r = Some y -> y = f (z + r)%nat /\ (r < n)%nat.
Proof.
  induction n as [|n IH]; intros z [|r] y E; simpl in E; try discriminate.
  - injection E as <-. rewrite Nat.add_0_r. split; [auto|lia].
  - apply IH in E as [-> Hr]. split; [f_equal; lia|lia].
Qed.

Section Comm.
Context {K V : Type} `{EqB K}.
Implicit Types (d t data : dict K V).

Lemma dupdate_app (e1 e2 d : dict K V) : dupdate d (e1 ++ e2) = dupdate (dupdate d e1) e2.
Proof. unfold dupdate. apply fold_left_app. Qed.
Lemma dupdate_concat (es : list (dict K V)) : forall d, fold_left dupdate es d = dupdate d (concat es).
Proof. induction es as [|e es IH]; intros d; simpl; auto. rewrite IH, dupdate_app. auto. Qed.
Lemma dupdate_fresh (e : dict K V) : forall d, NoDup (dkeys d ++ dkeys e) -> dupdate d e = d ++ e.
Proof.
  induction e as [|[k v] e IH]; intros d Hn; [rewrite app_nil_r; auto|]. unfold dupdate in *. cbn [fold_left fst snd]. unfold dkeys in Hn. cbn [map fst] in Hn.
  rewrite dset_notin by (intros Hk; exact (NoDup_app_disj _ _ k Hn Hk (or_introl eq_refl))).
  rewrite IH.
  - rewrite <- app_assoc. auto.
  - unfold dkeys. rewrite map_app, <- app_assoc. exact Hn.
Qed.

(* the list of chunks of data *)
Fixpoint chunk_list (c : nat) (data : dict K V) (n : nat) : list (dict K V) :=
  match n with O => [] | S n' => firstn c data :: chunk_list c (skipn c data) n' end.
Lemma chunk_build data ks : NoDup (dkeys data) -> forall pre suf, data = pre ++ ks ++ suf ->
  fold_res (fun d k => do v <- dgetitem data k; Ok (dset d k v)) (dkeys ks) [] = Ok ks.
Proof.
  intros Hn pre suf E.
  assert (G : forall ks2 ks1 pre, data = pre ++ ks1 ++ ks2 ++ suf ->
     fold_res (fun d k => do v <- dgetitem data k; Ok (dset d k v)) (dkeys ks2) ks1 = Ok (ks1 ++ ks2)).
  { induction ks2 as [|[k v] ks2 IH]; intros ks1 pre' E'; [unfold dkeys; simpl; rewrite app_nil_r; auto|].
    assert (Ek : dget data k = Some v). { apply In_dget; auto. rewrite E'. rewrite !in_app_iff. right; right; left. left. auto. }
    unfold dkeys. cbn [map fst fold_res]. unfold dgetitem at 1. rewrite Ek. cbn [bind].
    assert (Hk : ~ In k (dkeys ks1)).
    { intros Hk. rewrite E' in Hn. unfold dkeys in Hn. rewrite map_app in Hn. apply NoDup_app_r in Hn. rewrite map_app in Hn.
      apply (NoDup_app_disj _ _ k Hn Hk). rewrite map_app. apply in_app_iff. left. left. auto. }
    rewrite dset_notin by auto.
    etransitivity; [apply (IH (ks1 ++ [(k, v)]) pre')|].
    - rewrite E', <- !app_assoc. reflexivity.
    - rewrite <- app_assoc. reflexivity. }
  apply (G ks [] pre). exact E.
Qed.
Lemma chunks_ok data c n : NoDup (dkeys data) -> 0 <= c -> forall pre suf, data = pre ++ suf ->
  chunks data (dkeys suf) c n = Ok (chunk_list (Z.to_nat c) suf n).
Proof.
  intros Hn Hc. induction n as [|n IH]; intros pre suf E; [reflexivity|]. cbn [chunks chunk_list]. destruct (Z.ltb_spec c 0); [lia|].
  unfold dkeys. rewrite firstn_map, skipn_map. fold (dkeys (firstn (Z.to_nat c) suf)) (dkeys (skipn (Z.to_nat c) suf)).
  rewrite (chunk_build data (firstn (Z.to_nat c) suf) Hn pre (skipn (Z.to_nat c) suf)) by (rewrite firstn_skipn; auto). cbn [bind].
  rewrite (IH (pre ++ firstn (Z.to_nat c) suf)) by (rewrite <- app_assoc, firstn_skipn; auto). reflexivity.
Qed.
Lemma chunk_list_concat c n : forall data, (length data <= n * c)%nat -> concat (chunk_list c data n) = data.
Proof.
  induction n as [|n IH]; intros data Hl; simpl.
  - destruct data; auto. simpl in Hl. lia.
  - rewrite IH, firstn_skipn; auto. rewrite skipn_length. simpl in Hl. lia.
Qed.
Lemma chunk_list_sizes c n : forall data, (1 <= c)%nat -> (n * c < length data + c)%nat -> Forall (fun x => (1 <= length x <= c)%nat) (chunk_list c data n).
Proof.
  induction n as [|n IH]; intros data Hc Hl; simpl; constructor.
  - rewrite firstn_length. simpl in Hl. lia.
  - apply IH; auto. rewrite skipn_length. simpl in Hl. nia.
Qed.
Lemma chunk_list_length c n : forall data, length (chunk_list c data n) = n.
Proof. induction n as [|n IH]; intros data; simpl; auto. Qed.

Definition nch (len c : Z) : Z := (len + c - 1) / c.
Lemma ceil_div_eq len c : 1 <= c -> ceil_div len c = Ok (nch len c).
Proof.
  intros Hc. unfold ceil_div, nch. destruct (Z.eqb_spec c 0); [lia|]. f_equal.
  pose proof (Z.div_mod (- len) c ltac:(lia)) as D. pose proof (Z.mod_pos_bound (- len) c ltac:(lia)) as B.
  apply (Z.div_unique_pos _ _ _ (c - 1 - (- len) mod c)); lia.
Qed.
Lemma nch_bounds len c : 1 <= c -> 0 <= len -> 0 <= nch len c /\ len <= nch len c * c < len + c.
Proof.
  intros Hc Hl. unfold nch. pose proof (Z.div_mod (len + c - 1) c ltac:(lia)) as D. pose proof (Z.mod_pos_bound (len + c - 1) c ltac:(lia)) as B.
  split; [apply Z.div_pos; lia|]. lia.
Qed.
Definition the_chunks (data : dict K V) (c : Z) : list (dict K V) := chunk_list (Z.to_nat c) data (Z.to_nat (nch (Z.of_nat (length data)) c)).
Lemma gen_eq (datas : list (dict K V)) c root : 1 <= c -> NoDup (dkeys (nth root datas [])) ->
  dict_chunks_from_one_MPI_rank datas c root =
  map (fun r => Ok (if Nat.eqb r root then map Some (the_chunks (nth root datas []) c)
                    else repeat None (length (the_chunks (nth root datas []) c)))) (seq 0 (length datas)).
Proof.
  intros Hc Hn. unfold dict_chunks_from_one_MPI_rank. rewrite ceil_div_eq by auto. apply map_ext. intros r. destruct (Nat.eqb r root).
  - rewrite (chunks_ok (nth root datas []) c _ Hn ltac:(lia) [] (nth root datas []) eq_refl). reflexivity.
  - unfold the_chunks. rewrite chunk_list_length. reflexivity.
Qed.
Lemma the_chunks_concat data c : 1 <= c -> concat (the_chunks data c) = data.
Proof.
  intros Hc. apply chunk_list_concat. destruct (nch_bounds (Z.of_nat (length data)) c Hc ltac:(lia)) as (H1 & H2 & H3). nia.
Qed.
Lemma gen_P (datas : list (dict K V)) c root data : 1 <= c -> nth_error datas root = Some data -> NoDup (dkeys data) ->
  exists cs, concat cs = data /\ Forall (fun x => (1 <= length x)%nat /\ Z.of_nat (length x) <= c) cs /\
    Z.of_nat (length cs) = (Z.of_nat (length data) + c - 1) / c /\
    length (dict_chunks_from_one_MPI_rank datas c root) = length datas /\
    forall r y, nth_error (dict_chunks_from_one_MPI_rank datas c root) r = Some y ->
      y = Ok (if Nat.eqb r root then map Some cs else repeat None (length cs)).
Proof.
  intros Hc E Hn. exists (the_chunks data c). destruct (nch_bounds (Z.of_nat (length data)) c Hc ltac:(lia)) as (H1 & H2 & H3).
  assert (En : nth root datas [] = data) by (apply nth_error_nth; auto).
  split; [apply the_chunks_concat; auto|]. split.
  - eapply Forall_impl; [|apply chunk_list_sizes]; [cbv beta; intros; lia|lia|nia].
  - split; [unfold the_chunks; rewrite chunk_list_length; unfold nch in *; lia|].
    rewrite gen_eq by (rewrite ?En; auto). rewrite En. split; [rewrite map_length, seq_length; auto|].
    intros r y Hy. apply nth_error_map_seq in Hy as [-> _]. reflexivity.
Qed.

Lemma fold_update (cs : list (dict K V)) : forall t, fold_res update_chunk (map Some cs) t = Ok (dupdate t (concat cs)).
Proof. induction cs as [|c cs IH]; intros t; [reflexivity|]. cbn [map fold_res update_chunk bind concat]. rewrite IH, dupdate_app. reflexivity. Qed.
Lemma round_ok (datas totals : list (dict K V)) c root : 1 <= c -> NoDup (dkeys (nth root datas [])) -> (root < length datas)%nat ->
  length totals = length datas ->
  allgather_round datas c (map Ok totals) root = map Ok (map (fun t => dupdate t (nth root datas [])) totals).
Proof.
  intros Hc Hn Hr HL. unfold allgather_round. rewrite gen_eq by auto. set (cs := the_chunks (nth root datas []) c).
  set (f := fun r => Ok (if Nat.eqb r root then map Some cs else repeat None (length cs)) : res (list (option (dict K V)))).
  assert (E : nth root (map f (seq 0 (length datas))) (Err Deadlock) = Ok (map Some cs)).
  { rewrite (nth_indep _ _ (f 0%nat)) by (rewrite map_length, seq_length; auto). rewrite map_nth, seq_nth by auto. simpl. unfold f. rewrite Nat.eqb_refl. auto. }
  rewrite E. rewrite <- HL. clear E HL Hr. generalize 0%nat as z. induction totals as [|t totals IH]; intros z; [reflexivity|].
  cbn [length seq map combine fst snd]. f_equal; [|apply IH].
  assert (EL : length (if Nat.eqb z root then map Some cs else repeat None (length cs)) = length (map Some cs)).
  { destruct (Nat.eqb z root); auto. rewrite repeat_length, map_length. auto. }
  unfold f at 1. cbn [bind]. rewrite EL, Nat.eqb_refl, fold_update. unfold cs. rewrite the_chunks_concat by auto. reflexivity.
Qed.
Lemma rounds_ok (datas : list (dict K V)) c roots : 1 <= c -> Forall (fun d => NoDup (dkeys d)) datas -> (forall r, In r roots -> (r < length datas)%nat) ->
  forall totals, length totals = length datas ->
  fold_left (allgather_round datas c) roots (map Ok totals) =
  map (fun t => Ok (fold_left dupdate (map (fun r => nth r datas []) roots) t)) totals.
Proof.
  intros Hc Hn. induction roots as [|r roots IH]; intros Hr totals HL; [reflexivity|]. cbn [fold_left].
  assert (Hnr : NoDup (dkeys (nth r datas []))).
  { rewrite Forall_forall in Hn. apply Hn. apply nth_In. apply Hr. left; auto. }
  rewrite round_ok by (auto; apply Hr; left; auto).
  rewrite IH by (rewrite ?map_length; auto; intros; apply Hr; right; auto). rewrite map_map. reflexivity.
Qed.
Lemma nth_seq_all (datas : list (dict K V)) : map (fun r => nth r datas []) (seq 0 (length datas)) = datas.
Proof.
  induction datas as [|d datas IH]; [reflexivity|]. cbn [length seq map nth]. f_equal. rewrite <- seq_shift, map_map. exact IH.
Qed.
Lemma allgather_eq (datas totals : list (dict K V)) c : 1 <= c -> Forall (fun d => NoDup (dkeys d)) datas -> length totals = length datas ->
  allgather_dict true datas totals c = map (fun t => Ok (dupdate t (concat datas))) totals.
Proof.
  intros Hc Hn HL. unfold allgather_dict. destruct (_ <=? c).
  - apply map_ext. intros t. rewrite dupdate_concat. auto.
  - rewrite rounds_ok by (auto; intros r Hr; apply in_seq in Hr; lia). apply map_ext. intros t. rewrite nth_seq_all, dupdate_concat. auto.
Qed.
Lemma allgather_P (datas totals : list (dict K V)) c : 1 <= c -> Forall (fun d => NoDup (dkeys d)) datas -> length totals = length datas ->
  Forall (fun t => NoDup (dkeys t ++ flat_map dkeys datas)) totals ->
  allgather_dict true datas totals c = map (fun t => Ok (t ++ concat datas)) totals.
Proof.
  intros Hc Hn HL HF. rewrite allgather_eq by auto. apply map_ext_in. intros t Ht. f_equal. apply dupdate_fresh.
  rewrite Forall_forall in HF. specialize (HF t Ht).
  replace (dkeys (concat datas)) with (flat_map dkeys datas); auto.
  clear. induction datas as [|d datas IH]; [reflexivity|]. cbn [flat_map concat]. unfold dkeys at 3. rewrite map_app. f_equal. exact IH.
Qed.
Lemma dget_concat (datas : list (dict K V)) k : Forall (fun d => NoDup (dkeys d)) datas -> forall t,
  dget (dupdate t (concat datas)) k = fold_left (fun o d => match dget d k with Some v => Some v | None => o end) datas (dget t k).
Proof.
  induction 1 as [|d datas Hd HF IH]; intros t; [reflexivity|]. cbn [concat fold_left]. rewrite dupdate_app, IH, dget_dupdate by auto. reflexivity.
Qed.
Lemma allgather_general_P (datas totals : list (dict K V)) c : 1 <= c -> Forall (fun d => NoDup (dkeys d)) datas -> length totals = length datas ->
  exists totals' : list (dict K V), allgather_dict true datas totals c = map (fun t => Ok t) totals' /\
    Forall2 (fun t t' => forall k, dget t' k = fold_left (fun o d => match dget d k with Some v => Some v | None => o end) datas (dget t k)) totals totals'.
Proof.
  intros Hc Hn HL. exists (map (fun t => dupdate t (concat datas)) totals). rewrite allgather_eq, map_map by auto. split; auto.
  clear HL. induction totals as [|t totals IH]; simpl; constructor; auto. intros k. apply dget_concat; auto.
Qed.
End Comm.
