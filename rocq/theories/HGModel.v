(* Model of gbbs/helpers/histogram.h (get_bucket, hist_table, histogram_medium, histogram) and
   of the sparse edgeMapCount of gbbs/edge_map_reduce.h.

   Keys are vertex identifiers, or the table's empty key (edgeMapInduced stores it for the
   neighbours that do not satisfy the condition).  Hash functions are arbitrary.  The table value type and the type O of the results are those of the callers
   (static_assert in edge_map_reduce.h:107): counts, and (key, count) pairs.  size_t does not
   overflow. *)
From Coq Require Import Sorted.
From Verif Require Import Base GBModel SFModel HTModel.

Notation kv := (nat * nat)%type.

(* histogram.h:56-76 heavy_hitters, on the sorted sample: one copy of every value that occurs
   at least three times.  prev = sample[i-1], c as in the code.  The code overwrites the front
   of the sample with the result; the write position stays below i-1 *)
Fixpoint heavy_loop (prev c : nat) (rest : list nat) : list nat :=
  match rest with
  | [] => []
  | x :: rest' => if x =? prev
                  then (if c =? 1 then x :: heavy_loop x (c + 1) rest' else heavy_loop x (c + 1) rest')
                  else heavy_loop x 0 rest'
  end.
Definition heavy_hitters (sorted_sample : list nat) : list nat :=
  match sorted_sample with [] => [] | x :: rest => heavy_loop x 0 rest end.

(* histogram.h:78-95, 116-128: the probing table from heavy keys to their index.  Simplified to
   its effect: the position of the key in the list of heavy keys *)
Fixpoint position (k : nat) (l : list nat) : option nat :=
  match l with
  | [] => None
  | x :: l' => if x =? k then Some 0 else option_map S (position k l')
  end.

Section Hist.
  Variable hash : nat -> nat.          (* parlay::hash64 in sequentialHT *)
  Variable light : nat -> nat.         (* hash32(key & low_mask) & bucket_mask *)
  Variable nb : nat.                   (* num_buckets *)
  Variable width : nat.                (* 2^8 or 2^16, the range of the bucket ids in _count_sort *)
  Variable f : kv -> option kv.        (* apply_f *)
  Variable empty : nat.                (* the key of ht.empty *)

  (* sequential_ht.h:92-107 insertAdd.  A cell whose key is empty is (None, _).  Adding the empty
     key itself: the first empty cell becomes (empty, 1).  None: still looping *)
  Fixpoint mark_loop (fuel h : nat) (t : table nat) : option (table nat) :=
    match fuel with
    | 0 => None
    | S fuel => match tkey 0 t h with
                | None => Some (lset t h (None, 1))
                | Some _ => mark_loop fuel (incrementIndex t h) t
                end
    end.
  Definition insertAdd (k : nat) (t : table nat) : option (table nat) :=
    if k =? empty then mark_loop (length t) (firstIndex hash t k) t else insertAdd_key hash k t.

  (* histogram.h:147-155 hist_table::resize *)
  Definition resize (req : nat) (t : table nat) : table nat :=
    if length t <? req then new_table 0 (2 ^ Nat.log2_up req) else t.

  (* histogram.h:307-325: the sequential branch *)
  Definition histogram_seq (keys : list nat) (t : table nat) : option (list kv * table nat) :=
    let rs := 2 ^ Nat.log2_up (length keys + 1) in
    let t1 := resize rs t in
    match insert_all insertAdd keys (firstn rs t1) with
    | None => None
    | Some s => let r := compactInto 0 f s in Some (snd r, fst r ++ skipn rs t1)
    end.

  (* get_bucket::operator(), histogram.h:114-131; the bucket of a key.  With no heavy keys this
     is also the gb of histogram_medium, 170-172 *)
  Definition bucket_of (hv : list nat) (k : nat) : nat :=
    match position k hv with Some t => nb + t | None => light k end.
  (* num_total_buckets, 344 *)
  Definition total_buckets (hv : list nat) : nat := match hv with [] => nb | _ => 2 * nb end.

  Section Buckets.
    Variables (K n bs m : nat).          (* num_total_buckets, n, block_size, num_blocks *)
    Variable elms : list nat.
    Variable counts : list nat.
    (* 236-250, 412-424: where the elements of bucket i are in block j: (off, ct) *)
    Definition part (i j : nat) : nat * nat :=
      let s := Nat.min (j * bs) n in
      let e := Nat.min (s + bs) n in
      let off := nth (j * K + i) counts 0 in
      (off + s, if i =? K - 1 then (e - s) - off else nth (j * K + i + 1) counts 0 - off).
    (* 193-211, 368-387 bkt_counts *)
    Definition bkt_count (i : nat) : nat := list_sum (map (fun j => snd (part i j)) (seq 0 m)).
    (* the elements elms[off .. off+ct).  None: outside the array *)
    Definition read_part (p : nat * nat) : option (list nat) :=
      if fst p + snd p <=? length elms then Some (firstn (snd p) (skipn (fst p) elms)) else None.
    Fixpoint read_parts (ps : list (nat * nat)) : option (list nat) :=
      match ps with
      | [] => Some []
      | p :: ps' => match read_part p, read_parts ps' with Some a, Some b => Some (a ++ b) | _, _ => None end
      end.
    Definition bucket_elms (i : nat) : option (list nat) := read_parts (map (part i) (seq 0 m)).

    (* 219-224, 401-406 *)
    Definition ht_size (i : nat) : nat := if 0 <? bkt_count i then 2 ^ Nat.log2_up (bkt_count i + 1) else 0.
    Definition ht_off (i : nat) : nat := sum_before ht_size i.

    (* 230-266, 421-450: one light bucket.  State: the table and out_offs *)
    Definition light_step (i : nat) (st : table nat * (nat -> nat)) : option (table nat * (nat -> nat)) :=
      let '(t, ks) := st in
      if 0 <? ht_size i
      then match bucket_elms i with
           | None => None
           | Some l => match insert_all insertAdd l (firstn (ht_size i) (skipn (ht_off i) t)) with
                       | None => None
                       | Some s => let r := compactIntoSelf 0 f s in Some (put (ht_off i) (fst r) t, fset ks i (snd r))
                       end
           end
      else Some (t, fset ks i 0).
    (* 451-482: a heavy bucket.  None: assert(is_set) *)
    Definition heavy_step (i : nat) : option (option kv) :=
      match bucket_elms i with
      | Some (key :: l) => Some (f (key, length (key :: l)))
      | _ => None
      end.
    (* 281-294, 504-517: copy the compacted table of bucket i to its place and clear it.  None:
       the copied cell is empty *)
    Fixpoint copy_out (j : nat) (s : table nat) : option (list kv * table nat) :=
      match j, s with
      | 0, _ => Some ([], s)
      | S j', (Some k, v) :: s' => option_map (fun r => ((k, v) :: fst r, (None, 0) :: snd r)) (copy_out j' s')
      | S _, _ => None
      end.
    Definition copy_step (ks : nat -> nat) (i : nat) (st : table nat * (nat -> list kv)) : option (table nat * (nat -> list kv)) :=
      let '(t, res) := st in
      if 0 <? ht_size i
      then option_map (fun r => (put (ht_off i) (snd r) t, fset res i (fst r))) (copy_out (ks i) (firstn (ht_size i) (skipn (ht_off i) t)))
      else Some (t, res).
    Fixpoint steps {St} (g : nat -> St -> option St) (order : list nat) (st : St) : option St :=
      match order with
      | [] => Some st
      | i :: order' => match g i st with None => None | Some st' => steps g order' st' end
      end.
    Fixpoint all_some {A} (l : list (option A)) : option (list A) :=
      match l with
      | [] => Some []
      | None :: _ => None
      | Some x :: l' => option_map (cons x) (all_some l')
      end.

    (* histogram.h:213-299 and 389-530.  The buckets are processed in the orders o3 and o5.  The
       results of the light buckets are written to consecutive ranges of res (the scan 268-274),
       so res is their concatenation; then the heavy results, in order, 519-527 *)
    Definition process (num_heavy : nat) (o3 o5 : list nat) (t : table nat) : option (list kv * table nat) :=
      let t0 := resize (ht_off nb) t in
      match steps light_step o3 (t0, fun _ => 0), all_some (map (fun h => heavy_step (nb + h)) (seq 0 num_heavy)) with
      | Some (t1, ks), Some hs =>
          match steps (copy_step ks) o5 (t1, fun _ => []) with
          | Some (t2, res) => Some (flat_map res (seq 0 nb) ++ flat_map (fun o => match o with Some x => [x] | None => [] end) hs, t2)
          | None => None
          end
      | _, _ => None
      end.
  End Buckets.

  (* histogram.h:159-299 histogram_medium (hv = []) and 334-532; csthr, csnb, csorder, junk, cjunk: the
     parameters of _count_sort *)
  Definition histogram_buckets (csthr csnb : nat) (csorder : list nat) (junk cjunk : nat) (o3 o5 : list nat)
    (hv : list nat) (keys : list nat) (t : table nat) : option (list kv * table nat) :=
    let n := length keys in
    let K := total_buckets hv in
    match count_sort (fun j => bucket_of hv (nth j keys 0)) width K csthr csnb csorder junk cjunk keys with
    | None => None
    | Some (elms, counts, m) => process K n ((n - 1) / m + 1) m elms counts (length hv) o3 o5 t
    end.

  (* histogram.h:300-334; seqthr = 4096, medthr = 5000000.  sample: the sorted sample of 2 *
     num_buckets keys *)
  Definition histogram (seqthr medthr : nat) (one_worker : bool) (csthr csnb : nat) (csorder : list nat) (junk cjunk : nat)
    (o3 o5 : list nat) (sample : list nat) (keys : list nat) (t : table nat) : option (list kv * table nat) :=
    if (length keys <? seqthr) || one_worker then histogram_seq keys t
    else let hv := if length keys <? medthr then [] else heavy_hitters sample in
         histogram_buckets csthr csnb csorder junk cjunk o3 o5 hv keys t.
End Hist.

(* edge_map_reduce.h:36-96 edgeMapInduced without data: the neighbours of the vertices of the
   sparse subset vs, the empty key for those that do not satisfy cond, are stored from the offset
   of their source on, in any order *)
Definition induced (nghs : nat -> list nat) (cond : nat -> bool) (empty : nat) (vs : list nat) (shuffle : list (nat * nat) -> list (nat * nat)) (junk : nat) : option (list nat) :=
  let off := sum_before (fun i => length (nghs (nth i vs 0))) in
  let gen u := if cond u then u else empty in
  run_stores (shuffle (flat_map (fun i => combine (seq (off i) (length (nghs (nth i vs 0)))) (map gen (nghs (nth i vs 0)))) (seq 0 (length vs))))
    (repeat junk (off (length vs))).
