(* Model of the state algebra and of operator application in impurityModel/ed/finite.py. *)
From Verif Require Import M_Prelude M_Scalar M_PSR M_Ladder.
Local Open Scope Z_scope.

(* Multi-configurational state: product states (bytes) with complex amplitudes. *)
Definition psi_t (F : ofield) := dict pybytes (cx F).
(* One ladder operator (orbital, label), a process, an operator.  Simplified: a label is one
   character; the only labels with a meaning are "a" and "c". *)
Definition ladder := (Z * ascii)%type.
Definition process := list ladder.
Definition op_t (F : ofield) := dict process (cx F).
(* The same with any kind of orbital label A instead of an index, e.g. (l,s,m) tuples. *)
Definition gop (A : Type) (F : ofield) := dict (list (A * ascii)) (cx F).
Definition lab_a : ascii := "a"%char.
Definition lab_c : ascii := "c"%char.

(* finite.py:27-55.  ranks = 0 gives ZeroDivisionError. *)
Definition get_job_tasks {A} (rank ranks : nat) (tasks_tot : list A) : res (list A) :=
  if Nat.eqb ranks 0 then Err ZeroDivisionError else
  let n_tot := length tasks_tot in
  let nj := Nat.div n_tot ranks in
  let rest := Nat.modulo n_tot ranks in
  let get i := match nth_error tasks_tot i with Some x => Ok x | None => Err IndexError end in
  do tasks <- map_res get (seq (nj * rank) nj);
  if Nat.ltb rank rest then
    do x <- get (n_tot - rest + rank)%nat; Ok (tasks ++ [x])
  else Ok tasks.

Section State.
Context {F : ofield}.

(* "if k in d: d[k] += v else: d[k] = v" *)
Definition dadd {K} `{EqB K} (d : dict K (cx F)) (k : K) (v : cx F) : dict K (cx F) :=
  match dget d k with
  | Some w => dset d k (w + v)%C
  | None => dset d k v
  end.

(* finite.py:377-394 *)
Definition inner (a b : psi_t F) : cx F :=
  fold_left (fun acc sb =>
    match dget a (fst sb) with
    | Some x => (acc + cconj x * snd sb)%C
    | None => acc
    end) b c0.

(* finite.py:397-419 (returns the updated psi1) *)
Definition addToFirst (psi1 psi2 : psi_t F) (mul : cx F) : psi_t F :=
  fold_left (fun p sa => dadd p (fst sa) (snd sa * mul)%C) psi2 psi1.

(* finite.py:1998-2020 *)
Definition add (psi1 psi2 : psi_t F) (mul : cx F) : psi_t F :=
  fold_left (fun p sa => dadd p (fst sa) (mul * snd sa)%C) psi2 psi1.

(* finite.py:2023-2033 *)
Definition norm2 (psi : psi_t F) : F :=
  fold_left (fun acc sa => (acc + cabs2 (snd sa))%F) psi 0%F.

(* finite.py:422-446 *)
Definition op_a (n i : Z) (psi : psi_t F) : res (psi_t F) :=
  fold_res (fun ret sa =>
    do (state_new, sign) <- remove_ubytes n i (fst sa);
    Ok (if negb (sign =? 0) then dset ret state_new (snd sa * cofZ sign)%C else ret)) psi [].

(* finite.py:449-473 *)
Definition op_c (n i : Z) (psi : psi_t F) : res (psi_t F) :=
  fold_res (fun ret sa =>
    do (state_new, sign) <- create_ubytes n i (fst sa);
    Ok (if negb (sign =? 0) then dset ret state_new (snd sa * cofZ sign)%C else ret)) psi [].

(* finite.py:271-287.  Works on processes over any kind of orbital label. *)
Definition dagger_process {A} (p : list (A * ascii)) : res (list (A * ascii)) :=
  map_res (fun e => if Ascii.eqb (snd e) lab_a then Ok (fst e, lab_c)
                    else if Ascii.eqb (snd e) lab_c then Ok (fst e, lab_a)
                    else Err GenericException) (rev p).
Definition daggerOp {A} `{EqB A} (op : gop A F) : res (gop A F) :=
  fold_res (fun opDagger pv =>
    do p <- dagger_process (fst pv);
    Ok (dset opDagger p (cconj (snd pv)))) op [].

(* Python dict comparison d == e: same keys, equal values, order irrelevant. *)
Definition dict_eqb {K} `{EqB K} (d e : dict K (cx F)) : bool :=
  Nat.eqb (length d) (length e) &&
  forallb (fun kv => match dget e (fst kv) with Some w => ceqb (snd kv) w | None => false end) d.

(* finite.py:290-291 *)
Definition assert_hermitian {A} `{EqB A} (op : gop A F) : res unit :=
  do d <- daggerOp op;
  if dict_eqb d op then Ok tt else Err AssertionError.

(* finite.py:629-651 *)
Definition addOps {A} `{EqB A} (ops : list (gop A F)) : gop A F :=
  fold_left (fun opSum op =>
    fold_left (fun opSum sv =>
      if negb (ceqb (snd sv) c0) then dadd opSum (fst sv) (snd sv) else opSum) op opSum) ops [].

(* ---- applyOp ---- *)

(* Occupation restrictions: a frozenset of orbitals (list of its elements) with an interval. *)
Definition restrictions_t := list (list Z * (Z * Z)).

(* The loop "for i, action in process[-1::-1]" (finite.py:1365-1373, 1399-1407, 1429-1437,
   1481-1489) on the reversed process.  The local variable sign survives from one loop to the
   next (None = not yet assigned): an unknown label leaves it unchanged.  The result is the
   new value of sign and, unless the loop was left by break, the bits and total sign. *)
Fixpoint proc_loop (l : process) (bits : bitarray) (signTot : Z) (sign : option Z)
  : res (option Z * option (bitarray * Z)) :=
  match l with
  | [] => Ok (sign, Some (bits, signTot))
  | (i, action) :: l' =>
      do (sign', bits') <-
        (if Ascii.eqb action lab_a then
           do (b', s) <- remove_ubitarray i bits; Ok (Some s, b')
         else if Ascii.eqb action lab_c then
           do (b', s) <- create_ubitarray i bits; Ok (Some s, b')
         else Ok (sign, bits));
      match sign' with
      | None => Err UnboundLocalError
      | Some s => if s =? 0 then Ok (sign', None) else proc_loop l' bits' (signTot * s) sign'
      end
  end.

(* len(restriction.intersection(state_tuple)): the tuple has no repeated element. *)
Definition occupation (r : list Z) (t : pytuple) : Z := Z.of_nat (length (filter (fun k => inb k r) t)).

(* the for/else over restrictions (finite.py:1382-1386, 1451-1455): true = loop not left by break *)
Definition restrictions_ok (rs : restrictions_t) (t : pytuple) : bool :=
  forallb (fun r => let n := occupation (fst r) t in
                    negb ((n <? fst (snd r)) || (snd (snd r) <? n))) rs.

(* "for ps, amplitude in list(d.items()): if abs(amplitude)**2 < slaterWeightMin: d.pop(ps)"
   (finite.py:1461-1464, 1501-1504, 1508-1510) *)
Definition cutoff (swm : F) (d : psi_t F) : psi_t F :=
  fold_left (fun acc ka => if (cabs2 (snd ka) <? swm)%F then dpop acc (fst ka) else acc) d d.

(* finite.py:1355-1388 *)
Definition applyOp_restr (n : Z) (op : op_t F) (psi : psi_t F) (rs : restrictions_t) : res (psi_t F) :=
  do (psiNew, _) <- fold_res (fun st sa =>
    let bits := bytes2bitarray (fst sa) n in
    fold_res (fun st ph =>
      let '(psiNew, sign) := st in
      do (sign', out) <- proc_loop (rev (fst ph)) bits 1 sign;
      match out with
      | None => Ok (psiNew, sign')
      | Some (state_new, signTot) =>
          let stateB := bitarray2bytes state_new in
          let v := (snd sa * snd ph * cofZ signTot)%C in
          match dget psiNew stateB with
          | Some w => Ok (dset psiNew stateB (w + v)%C, sign')
          | None => if restrictions_ok rs (bitarray2tuple state_new)
                    then Ok (dset psiNew stateB v, sign') else Ok (psiNew, sign')
          end
      end) op st) psi ([], None);
  Ok psiNew.

(* finite.py:1389-1412 *)
Definition applyOp_plain (n : Z) (op : op_t F) (psi : psi_t F) : res (psi_t F) :=
  do (psiNew, _) <- fold_res (fun st sa =>
    let bits := bytes2bitarray (fst sa) n in
    fold_res (fun st ph =>
      let '(psiNew, sign) := st in
      do (sign', out) <- proc_loop (rev (fst ph)) bits 1 sign;
      match out with
      | None => Ok (psiNew, sign')
      | Some (state_new, signTot) =>
          Ok (dadd psiNew (bitarray2bytes state_new) (snd sa * snd ph * cofZ signTot)%C, sign')
      end) op st) psi ([], None);
  Ok psiNew.

(* A cache opResult: how the operator acts on product states. *)
Definition cache_t := dict pybytes (psi_t F).

(* Loop body results of the cached branches: on an exception the partially filled
   dictionaries opResult stay visible to the caller. *)
Inductive cres (S C : Type) := COk (s : S) | CErr (e : exc) (c : C).
Arguments COk {S C}. Arguments CErr {S C}.

(* The loop over processes in finite.py:1424-1458 for one state not yet in opResult.
   State: psiNew, the new column opResult[state], sign. *)
Fixpoint col_loop_restr (l : list (process * cx F)) (bits : bitarray) (amp : cx F) (rs : restrictions_t)
  (psiNew col : psi_t F) (sign : option Z) : cres (psi_t F * psi_t F * option Z) (psi_t F) :=
  match l with
  | [] => COk (psiNew, col, sign)
  | (p, h) :: l' =>
      match proc_loop (rev p) bits 1 sign with
      | Err e => CErr e col
      | Ok (sign', None) => col_loop_restr l' bits amp rs psiNew col sign'
      | Ok (sign', Some (state_new, signTot)) =>
          let stateB := bitarray2bytes state_new in
          match dget psiNew stateB with
          | Some w =>
              col_loop_restr l' bits amp rs (dset psiNew stateB (w + amp * h * cofZ signTot)%C)
                (dadd col stateB (h * cofZ signTot)%C) sign'
          | None =>
              if restrictions_ok rs (bitarray2tuple state_new) then
                col_loop_restr l' bits amp rs (dset psiNew stateB (amp * h * cofZ signTot)%C)
                  (dset col stateB (h * cofZ signTot)%C) sign'
              else col_loop_restr l' bits amp rs psiNew col sign'
          end
      end
  end.

(* finite.py:1476-1498 *)
Fixpoint col_loop_plain (l : list (process * cx F)) (bits : bitarray) (amp : cx F)
  (psiNew col : psi_t F) (sign : option Z) : cres (psi_t F * psi_t F * option Z) (psi_t F) :=
  match l with
  | [] => COk (psiNew, col, sign)
  | (p, h) :: l' =>
      match proc_loop (rev p) bits 1 sign with
      | Err e => CErr e col
      | Ok (sign', None) => col_loop_plain l' bits amp psiNew col sign'
      | Ok (sign', Some (state_new, signTot)) =>
          let stateB := bitarray2bytes state_new in
          col_loop_plain l' bits amp (dadd psiNew stateB (amp * h * cofZ signTot)%C)
            (dadd col stateB (h * cofZ signTot)%C) sign'
      end
  end.

(* finite.py:1413-1464 (restrictions given) and 1465-1504 (no restrictions): loop over psi.
   opResult[state] is the column under construction; it is stored (uncut) also when an
   exception leaves the loop. *)
Fixpoint cached_loop (n : Z) (op : op_t F) (swm : F) (rs : option restrictions_t)
  (l : psi_t F) (psiNew : psi_t F) (cache : cache_t) (sign : option Z)
  : cres (psi_t F * cache_t) cache_t :=
  match l with
  | [] => COk (psiNew, cache)
  | (state, amp) :: l' =>
      match dget cache state with
      | Some col => cached_loop n op swm rs l' (addToFirst psiNew col amp) cache sign
      | None =>
          let bits := bytes2bitarray state n in
          let r := match rs with
                   | Some rs' => col_loop_restr op bits amp rs' psiNew [] sign
                   | None => col_loop_plain op bits amp psiNew [] sign
                   end in
          match r with
          | CErr e col => CErr e (dset cache state col)
          | COk (psiNew', col, sign') =>
              cached_loop n op swm rs l' psiNew' (dset cache state (cutoff swm col)) sign'
          end
      end
  end.

(* finite.py:1301-1511.  Returns opResult after the call together with the result. *)
Definition applyOp (n : Z) (op : op_t F) (psi : psi_t F) (swm : F)
  (rs : option restrictions_t) (opResult : option cache_t) : option cache_t * res (psi_t F) :=
  match opResult with
  | None =>
      let r := match rs with
               | Some rs' => applyOp_restr n op psi rs'
               | None => applyOp_plain n op psi
               end in
      (None, rmap (cutoff swm) r)
  | Some cache =>
      match cached_loop n op swm rs psi [] cache None with
      | COk (psiNew, cache') => (Some cache', Ok (cutoff swm psiNew))
      | CErr e cache' => (Some cache', Err e)
      end
  end.

End State.
Arguments COk {S C}. Arguments CErr {S C}.
Arguments cache_t : clear implicits.
