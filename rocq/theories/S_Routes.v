(* The five representations under one type, so that "any route through the converters"
   can be stated.  [convert] only dispatches to the modelled API functions. *)
From Verif Require Import M_Prelude M_PSR S_Occ.

Inductive kind := KStr | KTuple | KInt | KBits | KBytes.
Inductive pval :=
| VStr (s : pystr) | VTuple (t : pytuple) | VInt (i : Z) | VBits (b : bitarray) | VBytes (x : pybytes).

(* v is the value of kind k representing occupation f of n orbitals *)
Definition rep (k : kind) (n : nat) (f : occ) (v : pval) : Prop :=
  match k, v with
  | KStr, VStr s => rep_str n f s
  | KTuple, VTuple t => rep_tuple n f t
  | KInt, VInt i => rep_int n f i
  | KBits, VBits b => rep_bits n f b
  | KBytes, VBytes x => rep_bytes n f x
  | _, _ => False
  end.

(* Call the API function converting v to kind k (identity if it already has that kind). *)
Definition convert (n : Z) (v : pval) (k : kind) : res pval :=
  match v, k with
  | VStr s, KStr => Ok v
  | VStr s, KTuple => Ok (VTuple (str2tuple s))
  | VStr s, KInt => rmap VInt (str2int s)
  | VStr s, KBits => rmap VBits (str2bitarray s)
  | VStr s, KBytes => rmap VBytes (str2bytes s)
  | VTuple t, KStr => Ok (VStr (tuple2str t n))
  | VTuple t, KTuple => Ok v
  | VTuple t, KInt => rmap VInt (tuple2int t n)
  | VTuple t, KBits => rmap VBits (tuple2bitarray t n)
  | VTuple t, KBytes => rmap VBytes (tuple2bytes t n)
  | VInt i, KStr => Ok (VStr (int2str i n))
  | VInt i, KTuple => Ok (VTuple (int2tuple i n))
  | VInt i, KInt => Ok v
  | VInt i, KBits => rmap VBits (int2bitarray i n)
  | VInt i, KBytes => rmap VBytes (int2bytes i n)
  | VBits b, KStr => Ok (VStr (bitarray2str b))
  | VBits b, KTuple => Ok (VTuple (bitarray2tuple b))
  | VBits b, KInt => rmap VInt (bitarray2int b)
  | VBits b, KBits => Ok v
  | VBits b, KBytes => Ok (VBytes (bitarray2bytes b))
  | VBytes x, KStr => Ok (VStr (bytes2str x n))
  | VBytes x, KTuple => Ok (VTuple (bytes2tuple x n))
  | VBytes x, KInt => rmap VInt (bytes2int x n)
  | VBytes x, KBits => Ok (VBits (bytes2bitarray x n))
  | VBytes x, KBytes => Ok v
  end.

(* A route: convert to each kind in turn. *)
Fixpoint follow (n : Z) (v : pval) (ks : list kind) : res pval :=
  match ks with
  | [] => Ok v
  | k :: ks' => do w <- convert n v k; follow n w ks'
  end.
