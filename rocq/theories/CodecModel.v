(* Model of the byte codec, gbbs/encodings/byte.h and byte.cc.

   Memory is a map from addresses to bytes (N, always < 256 when written by the
   code).  uintE / intE are 32 bit (macros.h:65-66, the default build without
   EDGELONG), uchar 8 bit, long 64 bit (unbounded here: it only holds differences
   of 32-bit numbers).  Undefined behaviour (a shift by 32 or more, negating
   INT_MIN) is the outcome None. *)
From Verif Require Import Base.
From Coq Require Import NArith ZArith.
Local Open Scope N_scope.

Definition mem := nat -> N.

Definition two32 : N := 4294967296.
(* conversion of a long to uintE *)
Definition z32 (x : Z) : N := Z.to_N (x mod 4294967296)%Z.

(* byte.cc:23-35, byte.h:203-216, byte_pd.cc:25-37, 42-55, byte_pd_amortized.cc:23-35,
   40-53: the loop  while ((curByte > 0) || (v > 0)) { ... }  with curByte = v & 0x7f.
   fuel None = did not finish (excluded by put_loop_writes). *)
Fixpoint put_loop (fuel : nat) (m : mem) (off : nat) (v : N) : option (mem * nat) :=
  match fuel with
  | O => None
  | S fuel =>
      let curByte := N.land v 127 in
      if (0 <? curByte) || (0 <? v) then
        let v' := N.shiftr v 7 in
        let toWrite := if 0 <? v' then N.lor curByte 128 else curByte in
        put_loop fuel (fset m off toWrite) (S off) v'
      else Some (m, off)
  end.

(* byte.h:202-218 compressEdge *)
Definition compressEdge (m : mem) (off : nat) (diff : N) : option (mem * nat) :=
  put_loop (S (N.size_nat diff)) m off diff.

(* byte.cc:6-37 compressFirstEdge (and byte_pd_amortized.cc:6-37, identical) *)
Definition compressFirstEdge (m : mem) (off : nat) (source target : Z) : option (mem * nat) :=
  let preCompress := (target - source)%Z in
  let toCompress := z32 (Z.abs preCompress) in
  let fb := N.land toCompress 63 in
  let fb := if (preCompress <? 0)%Z then N.lor fb 64 else fb in
  let toCompress := N.shiftr toCompress 6 in
  let fb := if 0 <? toCompress then N.lor fb 128 else fb in
  put_loop (S (N.size_nat toCompress)) (fset m off fb) (S off) toCompress.

(* byte.h:57-68, 86-97, 106-113: the reading loops.  k = how many more shifts
   are below 32; op accumulates. *)
Fixpoint get_loop (op : N -> N -> N) (k : nat) (m : mem) (a : nat) (sh acc : N) : option (N * nat) :=
  match k with
  | O => None
  | S k =>
      let b := m a in
      let acc' := op acc (N.shiftl (N.land b 127) sh mod two32) in
      if N.testbit b 7 then get_loop op k m (S a) (sh + 7) acc'
      else Some (acc', S a)
  end.

(* byte.h:102-115 eatEdge: shifts 0, 7, 14, 21, 28; edgeRead is a uintE *)
Definition eatEdge (m : mem) (a : nat) : option (N * nat) :=
  get_loop (fun x y => (x + y) mod two32) 5 m a 0 0.

(* byte.h:83-97: magnitude and sign of a first edge; shifts 6, 13, 20, 27 *)
Definition eatSigned (m : mem) (a : nat) : option (bool * N * nat) :=
  let fb := m a in
  let edgeRead := N.land fb 63 in
  let neg := N.testbit fb 6 in
  if N.testbit fb 7 then
    match get_loop N.lor 4 m (S a) 6 edgeRead with
    | Some (e, a') => Some (neg, e, a')
    | None => None
    end
  else Some (neg, edgeRead, S a).

(* byte.h:83-99 eatFirstEdge; the result is converted to uintE by the callers *)
Definition eatFirstEdge (m : mem) (a : nat) (source : N) : option (N * nat) :=
  match eatSigned m a with
  | Some (neg, e, a') =>
      Some (if neg then z32 (Z.of_N source - Z.of_N e) else z32 (Z.of_N source + Z.of_N e), a')
  | None => None
  end.

(* weight types: byte.h:44-79 and 182-200 *)
Inductive wty := WEmpty | WInt | WFloat.

(* little-endian 4-byte store / load *)
Definition store32 (m : mem) (a : nat) (v : N) : mem :=
  fset (fset (fset (fset m a (v mod 256)) (S a) (N.shiftr v 8 mod 256))
             (S (S a)) (N.shiftr v 16 mod 256)) (S (S (S a))) (N.shiftr v 24 mod 256).
Definition load32 (m : mem) (a : nat) : N :=
  m a + N.shiftl (m (S a)) 8 + N.shiftl (m (S (S a))) 16 + N.shiftl (m (S (S (S a)))) 24.

(* eatWeight.  A weight is an integer: the value for intE, the 32-bit pattern for
   float, 0 for empty.  Negating INT_MIN (magnitude 2^31 with the sign bit set) is
   undefined. *)
Definition eatWeight (w : wty) (m : mem) (a : nat) : option (Z * nat) :=
  match w with
  | WEmpty => Some (0%Z, a)
  | WInt =>
      match eatSigned m a with
      | Some (neg, e, a') =>
          if neg then (if 2147483648 <=? e then None else Some (- Z.of_N e, a')%Z)
          else Some (if 2147483648 <=? e then (Z.of_N e - 4294967296)%Z else Z.of_N e, a')
      | None => None
      end
  | WFloat => Some (Z.of_N (load32 m a), (4 + a)%nat)
  end.

(* byte.h:182-200 compressWeight *)
Definition compressWeight (w : wty) (m : mem) (off : nat) (weight : Z) : option (mem * nat) :=
  match w with
  | WEmpty => Some (m, off)
  | WInt => compressFirstEdge m off 0 weight
  | WFloat => Some (store32 m off (Z.to_N weight), (4 + off)%nat)
  end.

(* an edge = (neighbour, weight) *)
Definition edge := (N * Z)%type.

(* byte.h:281-299 sequentialCompressEdgeSet; the iterator it is the list (it.cur()
   is its head, it.next() advances).  uintE difference = next - prev. *)
Fixpoint compressRest (w : wty) (m : mem) (off : nat) (prev : N) (l : list edge) : option (mem * nat) :=
  match l with
  | [] => Some (m, off)
  | (v, wgh) :: l' =>
      let difference := z32 (Z.of_N v - Z.of_N prev) in
      match compressEdge m off difference with
      | None => None
      | Some (m, off) =>
          match compressWeight w m off wgh with
          | None => None
          | Some (m, off) => compressRest w m off v l'
          end
      end
  end.
Definition sequentialCompressEdgeSet (w : wty) (m : mem) (off : nat) (src : N) (l : list edge)
  : option (mem * nat) :=
  match l with
  | [] => Some (m, off)
  | (v, wgh) :: l' =>
      match compressFirstEdge m off (Z.of_N src) (Z.of_N v) with
      | None => None
      | Some (m, off) =>
          match compressWeight w m off wgh with
          | None => None
          | Some (m, off) => compressRest w m off v l'
          end
      end
  end.

(* byte.h:117-134 decode.  The callback t is arbitrary code: it has a state and
   returns whether to continue.  Result: state and final read position. *)
Section Decode.
  Variable w : wty.
  Variable St : Type.
  Variable t : St -> N -> Z -> nat -> St * bool.

  Fixpoint decodeRest (m : mem) (a : nat) (ngh : N) (i k : nat) (s : St) : option (St * nat) :=
    match k with
    | O => Some (s, a)
    | S k =>
        match eatEdge m a with
        | None => None
        | Some (d, a) =>
            let ngh := (ngh + d) mod two32 in
            match eatWeight w m a with
            | None => None
            | Some (wgh, a) =>
                let '(s, continue) := t s ngh wgh i in
                if continue then decodeRest m a ngh (S i) k s else Some (s, a)
            end
        end
    end.
  Definition decode (m : mem) (a : nat) (source : N) (degree : nat) (s : St) : option (St * nat) :=
    match degree with
    | O => Some (s, a)
    | S k =>
        match eatFirstEdge m a source with
        | None => None
        | Some (ngh, a) =>
            match eatWeight w m a with
            | None => None
            | Some (wgh, a) =>
                let '(s, continue) := t s ngh wgh O in
                if continue then decodeRest m a ngh 1 k s else Some (s, a)
            end
        end
    end.
End Decode.

(* byte.h:158-175 map_reduce *)
Section MapReduce.
  Variable w : wty.
  Variable E : Type.
  Variable f : N -> Z -> E.
  Variable reduce : E -> E -> E.
  Variable identity : E.
  Fixpoint mapReduceRest (m : mem) (a : nat) (ngh : N) (k : nat) (cur : E) : option E :=
    match k with
    | O => Some cur
    | S k =>
        match eatEdge m a with
        | None => None
        | Some (d, a) =>
            let ngh := (ngh + d) mod two32 in
            match eatWeight w m a with
            | None => None
            | Some (wgh, a) => mapReduceRest m a ngh k (reduce cur (f ngh wgh))
            end
        end
    end.
  Definition map_reduce (m : mem) (a : nat) (source : N) (degree : nat) : option E :=
    match degree with
    | O => Some identity
    | S k =>
        match eatFirstEdge m a source with
        | None => None
        | Some (ngh, a) =>
            match eatWeight w m a with
            | None => None
            | Some (wgh, a) => mapReduceRest m a ngh k (f ngh wgh)
            end
        end
    end.
End MapReduce.

(* byte.h:136-149 get_ith_neighbor (degree > 0) *)
Fixpoint skipEdges (w : wty) (m : mem) (a : nat) (ngh : N) (wgh : Z) (k : nat) : option (N * Z) :=
  match k with
  | O => Some (ngh, wgh)
  | S k =>
      match eatEdge m a with
      | None => None
      | Some (d, a) =>
          match eatWeight w m a with
          | None => None
          | Some (wgh, a) => skipEdges w m a ((ngh + d) mod two32) wgh k
          end
      end
  end.
Definition get_ith_neighbor (w : wty) (m : mem) (a : nat) (source : N) (i : nat) : option (N * Z) :=
  match eatFirstEdge m a source with
  | None => None
  | Some (ngh, a) =>
      match eatWeight w m a with
      | None => None
      | Some (wgh, a) => skipEdges w m a ngh wgh (i - 1)   (* for (k = 1; k < i; k++) *)
      end
  end.

(* byte.h:220-254 pack.  State: memory, write offset (absolute address here),
   last neighbour written, number written. *)
Section Pack.
  Variable w : wty.
  Variable pred : N -> Z -> bool.
  Variable source : N.

  Definition packWrite (m : mem) (off : nat) (last ngh : N) (wgh : Z) (new_deg : nat)
    : option (mem * nat) :=
    match (match new_deg with
           | O => compressFirstEdge m off (Z.of_N source) (Z.of_N ngh)
           | S _ => compressEdge m off (z32 (Z.of_N ngh - Z.of_N last))
           end) with
    | None => None
    | Some (m, off) => compressWeight w m off wgh
    end.

  Fixpoint packRest (m : mem) (finger off : nat) (ngh last : N) (new_deg k : nat)
    : option (mem * nat) :=
    match k with
    | O => Some (m, new_deg)
    | S k =>
        match eatEdge m finger with
        | None => None
        | Some (d, finger) =>
            let ngh := (ngh + d) mod two32 in
            match eatWeight w m finger with
            | None => None
            | Some (wgh, finger) =>
                if pred ngh wgh then
                  match packWrite m off last ngh wgh new_deg with
                  | None => None
                  | Some (m, off) => packRest m finger off ngh ngh (S new_deg) k
                  end
                else packRest m finger off ngh last new_deg k
            end
        end
    end.
  (* result: memory and new degree *)
  Definition pack (m : mem) (edge_start : nat) (degree : nat) : option (mem * nat) :=
    match degree with
    | O => Some (m, O)
    | S k =>
        match eatFirstEdge m edge_start source with
        | None => None
        | Some (ngh, finger) =>
            match eatWeight w m finger with
            | None => None
            | Some (wgh, finger) =>
                if pred ngh wgh then
                  match packWrite m edge_start 0 ngh wgh 0 with
                  | None => None
                  | Some (m, off) => packRest m finger off ngh ngh 1 k
                  end
                else packRest m finger edge_start ngh 0 0 k
            end
        end
    end.
End Pack.

(* byte.h:256-279 filter: the callback out(k, edge) is called with k = 0, 1, ..., so
   its effect is the list of edges passed to it, in order. *)
Section Filter.
  Variable w : wty.
  Variable pred : N -> Z -> bool.
  Fixpoint filterRest (m : mem) (a : nat) (ngh : N) (k : nat) (out : list edge) : option (list edge) :=
    match k with
    | O => Some out
    | S k =>
        match eatEdge m a with
        | None => None
        | Some (d, a) =>
            let ngh := (ngh + d) mod two32 in
            match eatWeight w m a with
            | None => None
            | Some (wgh, a) => filterRest m a ngh k (if pred ngh wgh then out ++ [(ngh, wgh)] else out)
            end
        end
    end.
  Definition filter_out (m : mem) (a : nat) (source : N) (degree : nat) : option (list edge) :=
    match degree with
    | O => Some []
    | S k =>
        match eatFirstEdge m a source with
        | None => None
        | Some (ngh, a) =>
            match eatWeight w m a with
            | None => None
            | Some (wgh, a) => filterRest m a ngh k (if pred ngh wgh then [(ngh, wgh)] else [])
            end
        end
    end.
End Filter.
