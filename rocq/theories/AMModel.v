(* Model of the amortized block codec, gbbs/encodings/byte_pd_amortized.h and .cc.

   Layout at edge_start: [virtual degree, 4 bytes][offsets of blocks 1, 2, ..., 4 bytes
   each][block 0][block 1]...; a block is [number of live edges before it, 4 bytes][first
   edge][weight][gap][weight]...  B stands for PARALLEL_DEGREE (macros.h:83, 1000).
   parallel_for over n blocks = the bodies run in some order, given by a function o: o n
   lists the block numbers 0..n-1 in the order of execution (they touch disjoint bytes).
   None = undefined behaviour. *)
From Verif Require Import Base CodecModel PDModel.
From Coq Require Import NArith ZArith.
Local Open Scope N_scope.

(* the weight types eatWeight accepts, byte_pd_amortized.h:87-134.  A weight is an
   integer: the value for intE and uint32_t, the bit pattern for float and double. *)
Inductive awty := AEmpty | AInt | AUint | AFloat | ADouble.

(* byte_pd_amortized.cc:6-37: long arguments, so no overflow in the difference *)
Definition am_cF (m : mem) (off : nat) (source target : N) : option (mem * nat) :=
  compressFirstEdge m off (Z.of_N source) (Z.of_N target).
(* byte_pd_amortized.h:150-160: only intE weights are written *)
Definition am_cW (w : awty) (m : mem) (off : nat) (weight : Z) : option (mem * nat) :=
  match w with
  | AInt => compressFirstEdge m off 0 weight
  | _ => Some (m, off)
  end.
(* byte_pd_amortized.h:87-134 eatWeight *)
Definition am_eW (w : awty) (m : mem) (a : nat) : option (Z * nat) :=
  match w with
  | AEmpty => Some (0%Z, a)
  | AInt => eatWeight WInt m a
  | AUint => match eatEdge m a with Some (x, a) => Some (Z.of_N x, a) | None => None end
  | AFloat => Some (Z.of_N (load32 m a), (4 + a)%nat)
  | ADouble => Some (Z.of_N (load32 m a + N.shiftl (load32 m (4 + a)) 32), (8 + a)%nat)
  end.

Section AM.
  Variable B : nat.
  Variable w : awty.

  (* -- layout -------------------------------------------------------------- *)
  (* num_blocks = 1 + (virtual_degree - 1) / PARALLEL_DEGREE.  A virtual degree of 0 is
     never written (the code would wrap around). *)
  Definition am_nb (m : mem) (a : nat) : nat := nblocks B (uint_at m a).
  (* (i > 0) ? edge_start + block_offsets[i-1] : nghs_start *)
  Definition am_finger (m : mem) (a nb i : nat) : nat :=
    match i with
    | O => (a + 4 * (nb - 1) + 4)%nat
    | S i' => (a + uint_at m (a + 4 + 4 * i'))%nat
    end.
  Definition am_start (m : mem) (a nb i : nat) : nat := uint_at m (am_finger m a nb i).
  (* (i == num_blocks - 1) ? degree : the start offset stored in the next block *)
  Definition am_end (m : mem) (a nb degree i : nat) : nat :=
    if (i =? nb - 1)%nat then degree else uint_at m (a + uint_at m (a + 4 + 4 * i)).

  (* byte_pd_amortized.h:1106-1162 sequentialCompressEdgeSet with current_offset = 0 (as
     all callers pass), encoded_degree = B.  The re-decoding of what was just written only
     prints. *)
  Fixpoint am_compressBlocks (k : nat) (m : mem) (a cur i : nat) (src : N) (l : list edge)
    : option (mem * nat) :=
    match k with
    | O => Some (m, cur)
    | S k =>
        let m := match i with
                 | O => m
                 | S i' => store32 m (a + 4 + 4 * i') (N.of_nat (cur - a) mod two32)
                 end in
        let m := store32 m cur (N.of_nat (i * B) mod two32) in
        match writeBlock am_cF (am_cW w) m (cur + 4) src (firstn B l) with
        | None => None
        | Some (m, cur) => am_compressBlocks k m a cur (S i) src (skipn B l)
        end
    end.
  Definition am_compress (m : mem) (a : nat) (src : N) (l : list edge) : option (mem * nat) :=
    match l with
    | [] => Some (m, a)
    | _ =>
        let nb := nblocks B (length l) in
        am_compressBlocks nb (store32 m a (N.of_nat (length l) mod two32)) a
          (a + 4 + 4 * (nb - 1)) 0 src l
    end.

  (* -- reading --------------------------------------------------------------- *)
  (* the body common to decode, decode_block, map_reduce, ... on block i *)
  Definition am_walk (t : N -> Z -> nat -> bool) (m : mem) (a : nat) (source : N) (nb degree i : nat)
    : option (list call * bool) :=
    let s := am_start m a nb i in
    let e := am_end m a nb degree i in
    if (s <? e)%nat then walkBlock (am_eW w) t m (am_finger m a nb i + 4) source s (e - s)
    else Some ([], true).
  Definition am_read (m : mem) (a : nat) (source : N) (nb degree i : nat) : option (list edge) :=
    match am_walk (fun _ _ _ => true) m a source nb degree i with
    | None => None
    | Some (cs, _) => Some (map (fun c => (fst (fst c), snd (fst c))) cs)
    end.

  (* byte_pd_amortized.h:309-389 decode, unweighted: a false answer in the first block
     returns, the other blocks (in parallel or not) each stop at their own first false
     answer.  Result: the calls made in each block. *)
  Definition am_decode_unweighted (t : N -> Z -> nat -> bool) (m : mem) (a : nat) (source : N) (degree : nat)
    : option (list (list call)) :=
    match degree with
    | O => Some []
    | _ =>
        let nb := am_nb m a in
        match am_walk t m a source nb degree 0 with
        | None => None
        | Some (c0, false) => Some [c0]
        | Some (c0, true) =>
            match for_blocks (fun i => option_map fst (am_walk t m a source nb degree i)) 1 (nb - 1) with
            | None => None
            | Some cs => Some (c0 :: cs)
            end
        end
    end.
  (* byte_pd_amortized.h:391-424 decode, weighted: sequential, any false answer returns *)
  Fixpoint am_seq (t : N -> Z -> nat -> bool) (m : mem) (a : nat) (source : N) (nb degree i k : nat)
    : option (list call) :=
    match k with
    | O => Some []
    | S k =>
        match am_walk t m a source nb degree i with
        | None => None
        | Some (cs, false) => Some cs
        | Some (cs, true) =>
            match am_seq t m a source nb degree (S i) k with
            | None => None
            | Some cs' => Some (cs ++ cs')
            end
        end
    end.
  Definition am_decode_weighted (t : N -> Z -> nat -> bool) (m : mem) (a : nat) (source : N) (degree : nat)
    : option (list call) :=
    match degree with
    | O => Some []
    | _ => let nb := am_nb m a in am_seq t m a source nb degree 0 nb
    end.

  (* byte_pd_amortized.h:426-487 decode_block / decode_block_cond *)
  Definition am_decode_block (t : N -> Z -> nat -> bool) (m : mem) (a : nat) (source : N)
    (degree block_num : nat) : option (list call) :=
    match degree with
    | O => Some []
    | _ => option_map fst (am_walk t m a source (am_nb m a) degree block_num)
    end.

  (* byte_pd_amortized.h:489-541 map_reduce; parlay::reduce as a left fold *)
  Definition am_map_reduce {E} (f : N -> Z -> E) (reduce : E -> E -> E) (identity : E)
    (m : mem) (a : nat) (source : N) (degree : nat) : option E :=
    match degree with
    | O => Some identity
    | _ =>
        let nb := am_nb m a in
        match for_blocks (fun i =>
                 option_map (fun l => fold_left (fun cur e => reduce cur (f (fst e) (snd e))) l identity)
                   (am_read m a source nb degree i)) 0 nb with
        | None => None
        | Some xs => Some (fold_left reduce xs identity)
        end
    end.

  (* byte_pd_amortized.h:1018-1049 filter_sequential; 1051-1104 filter calls it for
     degrees up to PD_PACK_THRESHOLD, and otherwise decodes several blocks at a time into
     tmp and filters those: the same elements in the same order.  degree > 0. *)
  Definition am_filter (pred : N -> Z -> bool) (m : mem) (a : nat) (source : N) (degree : nat)
    : option (list edge) :=
    match degree with
    | O => Some []
    | _ =>
        let nb := am_nb m a in
        option_map (fun ls => concat (map (filter (fun e => pred (fst e) (snd e))) ls))
          (for_blocks (fun i => am_read m a source nb degree i) 0 nb)
    end.

  (* byte_pd_amortized.h:642-649 and .cc:57-74 *)
  Definition am_get_num_blocks (m : mem) (a degree : nat) : nat :=
    match degree with O => O | _ => am_nb m a end.
  Definition am_get_block_degree (m : mem) (a degree block_num : nat) : nat :=
    match degree with
    | O => O
    | _ => let nb := am_nb m a in
           (am_end m a nb degree block_num
            - match block_num with O => 0 | S b => am_end m a nb degree b end)%nat
    end.

  (* byte_pd_amortized.h:170-261 iter.  State after the constructor or a next(). *)
  Record iter_st := mkIt { it_finger : nat; it_chunk : nat; it_chunk_degree : nat;
                           it_edge : edge; it_in_block : nat; it_total : nat }.
  (* look for the first block >= i (at most k of them) with an edge: lines 204-220 of the
     constructor and 232-244 of next() *)
  Fixpoint it_seek (m : mem) (a : nat) (nb degree i k : nat) : option nat :=
    match k with
    | O => None
    | S k => if (am_start m a nb i <? am_end m a nb degree i)%nat then Some i
             else it_seek m a nb degree (S i) k
    end.
  Definition it_open (m : mem) (a : nat) (source : N) (nb degree i total : nat) : option iter_st :=
    match eatFirstEdge m (am_finger m a nb i + 4) source with
    | None => None
    | Some (ngh, f) =>
        match am_eW w m f with
        | None => None
        | Some (x, f) => Some (mkIt f i (am_end m a nb degree i - am_start m a nb i) (ngh, x) 1 total)
        end
    end.
  Definition it_first (m : mem) (a : nat) (source : N) (nb degree : nat) : option iter_st :=
    match it_seek m a nb degree 0 nb with
    | None => None
    | Some i => it_open m a source nb degree i 1
    end.
  Definition it_next (m : mem) (a : nat) (source : N) (nb degree : nat) (st : iter_st) : option iter_st :=
    if (it_in_block st =? it_chunk_degree st)%nat then
      match it_seek m a nb degree (S (it_chunk st)) (nb - S (it_chunk st)) with
      | None => None     (* would read past the last block *)
      | Some i => it_open m a source nb degree i (S (it_total st))
      end
    else
      match eatEdge m (it_finger st) with
      | None => None
      | Some (d, f) =>
          match am_eW w m f with
          | None => None
          | Some (x, f) => Some (mkIt f (it_chunk st) (it_chunk_degree st)
                                   ((fst (it_edge st) + d) mod two32, x) (S (it_in_block st)) (S (it_total st)))
          end
      end.
  (* cur(), then next() while has_next() *)
  Fixpoint it_loop (fuel : nat) (m : mem) (a : nat) (source : N) (nb degree : nat) (st : iter_st)
    : option (list edge) :=
    match fuel with
    | O => None
    | S fuel =>
        if (it_total st <? degree)%nat then
          match it_next m a source nb degree st with
          | None => None
          | Some st' =>
              match it_loop fuel m a source nb degree st' with
              | None => None
              | Some es => Some (it_edge st :: es)
              end
          end
        else Some [it_edge st]
    end.
  Definition am_iter (m : mem) (a : nat) (source : N) (degree : nat) : option (list edge) :=
    match degree with
    | O => Some []
    | _ => let nb := am_nb m a in
           match it_first m a source nb degree with
           | None => None
           | Some st => it_loop degree m a source nb degree st
           end
    end.

  (* byte_pd_amortized.h:263-305 simple_iter: num_blocks from the degree, block headers
     skipped, block boundaries every B edges.  The edges seen by cur(), next(), ... *)
  Fixpoint am_simpleRest (m : mem) (source : N) (finger : nat) (ngh : N) (proc k : nat) : option (list edge) :=
    match k with
    | O => Some []
    | S k =>
        match (if (proc =? B)%nat then eatFirstEdge m (finger + 4) source
               else match eatEdge m finger with
                    | None => None
                    | Some (d, a) => Some ((ngh + d) mod two32, a)
                    end) with
        | None => None
        | Some (ngh, finger) =>
            match am_eW w m finger with
            | None => None
            | Some (wgh, finger) =>
                match am_simpleRest m source finger ngh (if (proc =? B)%nat then 1%nat else S proc) k with
                | None => None
                | Some es => Some ((ngh, wgh) :: es)
                end
            end
        end
    end.
  Definition am_simple_iter (m : mem) (a : nat) (source : N) (degree : nat) : option (list edge) :=
    match degree with
    | O => Some []
    | S k =>
        match eatFirstEdge m (a + 4 * (nblocks B degree - 1) + 8) source with
        | None => None
        | Some (ngh, finger) =>
            match am_eW w m finger with
            | None => None
            | Some (wgh, finger) =>
                match am_simpleRest m source finger ngh 1 k with
                | None => None
                | Some es => Some ((ngh, wgh) :: es)
                end
            end
        end
    end.

  (* byte_pd_amortized.h:602-640 get_ith_neighbor: parlay::binary_search returns the first
     block whose end offset is > i *)
  Fixpoint am_find_block (m : mem) (a : nat) (nb degree x i k : nat) : option nat :=
    match k with
    | O => None
    | S k => if (x <? am_end m a nb degree i)%nat then Some i
             else am_find_block m a nb degree x (S i) k
    end.
  Fixpoint am_skip (m : mem) (a : nat) (ngh : N) (wgh : Z) (k : nat) : option edge :=
    match k with
    | O => Some (ngh, wgh)
    | S k =>
        match eatEdge m a with
        | None => None
        | Some (d, a) =>
            match am_eW w m a with
            | None => None
            | Some (wgh, a) => am_skip m a ((ngh + d) mod two32) wgh k
            end
        end
    end.
  Definition am_get_ith (m : mem) (a : nat) (source : N) (degree i : nat) : option edge :=
    let nb := am_nb m a in
    match am_find_block m a nb degree i 0 nb with
    | None => None
    | Some b =>
        let start := am_start m a nb b in
        match eatFirstEdge m (am_finger m a nb b + 4) source with
        | None => None
        | Some (ngh, f) =>
            match am_eW w m f with
            | None => None
            | Some (wgh, f) =>
                if (i =? start)%nat then Some (ngh, wgh)
                else am_skip m f ngh wgh (i - (start + 1))   (* edgeID = start+1; edgeID < i *)
            end
        end
    end.

  (* -- packing ----------------------------------------------------------------- *)
  (* byte_pd_amortized.h:915-981, one iteration: filter the block into tmp[PARALLEL_DEGREE]
     and write it back in place if some but not all edges are kept.  A wrapped-around
     block_deg or more than B kept edges would overrun tmp. *)
  Definition am_packBlock (pred : N -> Z -> bool) (m : mem) (a : nat) (source : N) (nb degree i : nat)
    : option (mem * nat) :=
    let s := am_start m a nb i in
    let e := am_end m a nb degree i in
    if (e <? s)%nat then None else
    match am_read m a source nb degree i with
    | None => None
    | Some l =>
        let tmp := filter (fun e => pred (fst e) (snd e)) l in
        if (B <? length tmp)%nat then None else
        if (0 <? length tmp)%nat && (length tmp <? e - s)%nat then
          match writeBlock am_cF (am_cW w) m (am_finger m a nb i + 4) source tmp with
          | None => None
          | Some (m, _) => Some (m, length tmp)
          end
        else Some (m, length tmp)
    end.
  Fixpoint am_packBlocks (pred : N -> Z -> bool) (ord : list nat) (m : mem) (cts : nat -> nat)
    (a : nat) (source : N) (nb degree : nat) : option (mem * (nat -> nat)) :=
    match ord with
    | [] => Some (m, cts)
    | i :: ord =>
        match am_packBlock pred m a source nb degree i with
        | None => None
        | Some (m, ct) => am_packBlocks pred ord m (fset cts i ct) a source nb degree
        end
    end.
  (* parlay::scan_inplace (exclusive prefix sums) *)
  Definition scan (cts : nat -> nat) (i : nat) : nat := list_sum (map cts (seq 0 i)).
  (* lines 988-992 *)
  Fixpoint am_headers (ord : list nat) (m : mem) (cts : nat -> nat) (a nb : nat) : mem :=
    match ord with
    | [] => m
    | i :: ord => am_headers ord (store32 m (am_finger m a nb i) (N.of_nat (scan cts i) mod two32)) cts a nb
    end.

  (* byte_pd_amortized.h:778-898 repack *)
  (* lines 800-823: the live edges of all blocks go to U[start], U[start+1], ... *)
  Fixpoint stores (U : nat -> edge) (k : nat) (l : list edge) : nat -> edge :=
    match l with [] => U | e :: l => stores (fset U k e) (S k) l end.
  Fixpoint am_collect (ord : list nat) (U : nat -> edge) (m : mem) (a : nat) (source : N) (nb degree : nat)
    : option (nat -> edge) :=
    match ord with
    | [] => Some U
    | i :: ord =>
        match am_read m a source nb degree i with
        | None => None
        | Some l => am_collect ord (stores U (am_start m a nb i) l) m a source nb degree
        end
    end.
  (* U[start .. end) of new block i *)
  Definition am_newBlock (U : nat -> edge) (degree i : nat) : list edge :=
    map U (seq (i * B) (Nat.min B (degree - i * B))).
  (* lines 835-857: the bytes of a new block, measured in a scratch buffer *)
  Definition am_blockBytes (source : N) (l : list edge) : option nat :=
    match writeBlock am_cF (am_cW w) (fun _ => 0) 0 source l with
    | None => None
    | Some (_, n) => Some (4 + n)%nat
    end.
  (* lines 871-896, one iteration; offs are uintE *)
  Definition am_writeNew (U : nat -> edge) (offs : nat -> nat) (m : mem) (a : nat) (source : N)
    (new_blocks degree i : nat) : option mem :=
    let finger := (a + 4 * (new_blocks - 1) + 4 + N.to_nat (N.of_nat (scan offs i) mod two32))%nat in
    let m := match i with
             | O => m
             | S i' => store32 m (a + 4 + 4 * i') (N.of_nat (finger - a) mod two32)
             end in
    let m := store32 m finger (N.of_nat (i * B) mod two32) in
    match writeBlock am_cF (am_cW w) m (finger + 4) source (am_newBlock U degree i) with
    | None => None
    | Some (m, _) => Some m
    end.
  Fixpoint am_writeAll (ord : list nat) (U : nat -> edge) (offs : nat -> nat) (m : mem) (a : nat) (source : N)
    (new_blocks degree : nat) : option mem :=
    match ord with
    | [] => Some m
    | i :: ord =>
        match am_writeNew U offs m a source new_blocks degree i with
        | None => None
        | Some m => am_writeAll ord U offs m a source new_blocks degree
        end
    end.
  Definition am_repack (o1 o2 : nat -> list nat) (m : mem) (a : nat) (source : N) (degree : nat) : option mem :=
    match degree with
    | O => Some m
    | _ =>
        let nb := am_nb m a in
        match am_collect (o1 nb) (fun _ => (0, 0%Z)) m a source nb degree with
        | None => None
        | Some U =>
            let new_blocks := nblocks B degree in
            match for_blocks (fun i => am_blockBytes source (am_newBlock U degree i)) 0 new_blocks with
            | None => None
            | Some sizes =>
                am_writeAll (o2 new_blocks) U (fun i => nth i sizes O) (store32 m a (N.of_nat degree mod two32))
                  a source new_blocks degree
            end
        end
    end.

  (* byte_pd_amortized.h:900-1000 pack.  block_cts_stack has 100 entries and is used for
     up to 100 blocks, but block_cts[num_blocks] is written.  o1..o4: the orders in which
     the four loops over blocks ran. *)
  Definition am_pack (pred : N -> Z -> bool) (o1 o2 o3 o4 : nat -> list nat) (m : mem) (a : nat) (source : N) (degree : nat)
    : option (mem * nat) :=
    let vd := uint_at m a in
    let nb := am_nb m a in
    match am_packBlocks pred (o1 nb) m (fun _ => O) a source nb degree with
    | None => None
    | Some (m, cts) =>
        if (nb =? 100)%nat then None else
        let deg_remaining := scan cts nb in
        let m := am_headers (o2 nb) m cts a nb in
        if (deg_remaining <? vd / 10)%nat then
          match am_repack o3 o4 m a source deg_remaining with
          | None => None
          | Some m => Some (m, deg_remaining)
          end
        else Some (m, deg_remaining)
    end.
End AM.
