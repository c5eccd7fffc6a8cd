(* Model of the block-parallel byte codec, gbbs/encodings/byte_pd.h and byte_pd.cc.

   B stands for PARALLEL_DEGREE (macros.h:83, the value 1000); everything is stated
   for any B >= 1.  The callback of the decoders is represented by its answers: an
   edge position is passed to the callback at most once, so whatever state the
   callback keeps, its answers in one execution are a function of the call. *)
From Verif Require Import Base CodecModel.
From Coq Require Import NArith ZArith.
Local Open Scope N_scope.

(* two's complement value of a 32-bit pattern *)
Definition signed32 (x : N) : Z :=
  if x <? 2147483648 then Z.of_N x else (Z.of_N x - 4294967296)%Z.

(* byte_pd.cc:9-40 compressFirstEdge(uintE source, uintE target): the difference is
   taken modulo 2^32 and read as an int; std::abs(INT_MIN) is undefined. *)
Definition compressFirst32 (m : mem) (off : nat) (source target : N) : option (mem * nat) :=
  let d := signed32 (z32 (Z.of_N target - Z.of_N source)) in
  if (d =? -2147483648)%Z then None else compressFirstEdge m off 0 d.

(* byte_pd.h:124-134 (and byte_pd_amortized.h:150-160): non-int weights write nothing *)
Definition pd_compressWeight (w : wty) (m : mem) (off : nat) (weight : Z) : option (mem * nat) :=
  match w with
  | WInt => compressFirst32 m off 0 (z32 weight)
  | _ => Some (m, off)
  end.
(* byte_pd.h:47-52, 65-82 *)
Definition pd_eatWeight (w : wty) (m : mem) (a : nat) : option (Z * nat) :=
  match w with
  | WInt => eatWeight WInt m a
  | _ => Some (0%Z, a)
  end.

(* One call of a decoding callback: neighbour, weight, edge position. *)
Definition call := (N * Z * nat)%type.

(* The loops over one block, shared text of byte_pd.h and byte_pd_amortized.h.
   cF, cW: write a first edge / a weight; eW: read a weight. *)
Section Block.
  Variable cF : mem -> nat -> N -> N -> option (mem * nat).
  Variable cW : mem -> nat -> Z -> option (mem * nat).
  Variable eW : mem -> nat -> option (Z * nat).

  (* byte_pd.h:499-512 and 543-552; byte_pd_amortized.h:961-976 etc. *)
  Fixpoint writeRest (m : mem) (off : nat) (last : N) (l : list edge) : option (mem * nat) :=
    match l with
    | [] => Some (m, off)
    | (v, wgh) :: l' =>
        match compressEdge m off (z32 (Z.of_N v - Z.of_N last)) with
        | None => None
        | Some (m, off) =>
            match cW m off wgh with
            | None => None
            | Some (m, off) => writeRest m off v l'
            end
        end
    end.
  Definition writeBlock (m : mem) (off : nat) (src : N) (l : list edge) : option (mem * nat) :=
    match l with
    | [] => Some (m, off)
    | (v, wgh) :: l' =>
        match cF m off src v with
        | None => None
        | Some (m, off) =>
            match cW m off wgh with
            | None => None
            | Some (m, off) => writeRest m off v l'
            end
        end
    end.

  (* decoding loop of one block: the calls made, and whether the callback never
     answered false *)
  Variable t : N -> Z -> nat -> bool.
  Fixpoint walkRest (m : mem) (a : nat) (ngh : N) (id k : nat) : option (list call * bool) :=
    match k with
    | O => Some ([], true)
    | S k =>
        match eatEdge m a with
        | None => None
        | Some (d, a) =>
            let ngh := (ngh + d) mod two32 in
            match eW m a with
            | None => None
            | Some (wgh, a) =>
                if t ngh wgh id then
                  match walkRest m a ngh (S id) k with
                  | None => None
                  | Some (cs, c) => Some ((ngh, wgh, id) :: cs, c)
                  end
                else Some ([(ngh, wgh, id)], false)
            end
        end
    end.
  (* k = number of edges of the block, k >= 1 (the first edge is read unconditionally) *)
  Definition walkBlock (m : mem) (a : nat) (source : N) (id k : nat) : option (list call * bool) :=
    match eatFirstEdge m a source with
    | None => None
    | Some (ngh, a) =>
        match eW m a with
        | None => None
        | Some (wgh, a) =>
            if t ngh wgh id then
              match walkRest m a ngh (S id) (k - 1) with
              | None => None
              | Some (cs, c) => Some ((ngh, wgh, id) :: cs, c)
              end
            else Some ([(ngh, wgh, id)], false)
        end
    end.
End Block.

(* read k edges of a block into a list (the callback that stores its arguments) *)
Definition readBlock (eW : mem -> nat -> option (Z * nat)) (m : mem) (a : nat) (source : N) (k : nat)
  : option (list edge) :=
  match walkBlock eW (fun _ _ _ => true) m a source 0 k with
  | None => None
  | Some (cs, _) => Some (map (fun c => (fst (fst c), snd (fst c))) cs)
  end.

(* run f on i, i+1, ..., i+k-1; None if one of them is None *)
Fixpoint for_blocks {A} (f : nat -> option A) (i k : nat) : option (list A) :=
  match k with
  | O => Some []
  | S k =>
      match f i with
      | None => None
      | Some x => match for_blocks f (S i) k with None => None | Some xs => Some (x :: xs) end
      end
  end.

Section PD.
  Variable B : nat.
  Variable w : wty.
  Let cW := pd_compressWeight w.
  Let eW := pd_eatWeight w.

  (* 1 + (degree - 1) / PARALLEL_DEGREE, degree > 0 *)
  Definition nblocks (degree : nat) : nat := (1 + (degree - 1) / B)%nat.
  Definition uint_at (m : mem) (a : nat) : nat := N.to_nat (load32 m a).

  (* byte_pd.h:481-516 sequentialCompressEdgeSet with current_offset = start_offset =
     start.  edgeArray is address a; cur is the absolute write position.  The block
     offsets are stored at edgeArray itself. *)
  Fixpoint pd_compressBlocks (k : nat) (m : mem) (a start cur i : nat) (src : N) (l : list edge)
    : option (mem * nat) :=
    match k with
    | O => Some (m, cur)
    | S k =>
        let m := match i with
                 | O => m
                 | S i' => store32 m (a + 4 * i') (N.of_nat (cur - (a + start)) mod two32)
                 end in
        match writeBlock compressFirst32 cW m cur src (firstn B l) with
        | None => None
        | Some (m, cur) => pd_compressBlocks k m a start cur (S i) src (skipn B l)
        end
    end.
  Definition pd_compress (m : mem) (a start : nat) (src : N) (l : list edge) : option (mem * nat) :=
    match l with
    | [] => Some (m, (a + start)%nat)
    | _ =>
        let nb := nblocks (length l) in
        pd_compressBlocks nb m a start (a + start + 4 * (nb - 1)) 0 src l
    end.

  (* edge_start + ((i == 0) ? (num_blocks - 1) * sizeof(uintE) : block_offsets[i - 1]) *)
  Definition pd_finger (m : mem) (a degree i : nat) : nat :=
    match i with
    | O => (a + 4 * (nblocks degree - 1))%nat
    | S i' => (a + uint_at m (a + 4 * i'))%nat
    end.
  (* min(o + PARALLEL_DEGREE, degree) - o *)
  Definition pd_count (degree i : nat) : nat := (Nat.min (i * B + B) degree - i * B)%nat.

  (* byte_pd.h:239-317 decode: the calls made in each block.  The first block runs
     before the others and a false answer there returns; the other blocks run in
     parallel, each stopping at its own first false answer.  The calls of an
     execution are any interleaving of these sequences of the blocks >= 1, after the first. *)
  Definition pd_decode (t : N -> Z -> nat -> bool) (m : mem) (a : nat) (source : N) (degree : nat)
    : option (list (list call)) :=
    match degree with
    | O => Some []
    | _ =>
        match walkBlock eW t m (pd_finger m a degree 0) source 0 (pd_count degree 0) with
        | None => None
        | Some (c0, false) => Some [c0]
        | Some (c0, true) =>
            match for_blocks (fun i => option_map fst
                     (walkBlock eW t m (pd_finger m a degree i) source (i * B) (pd_count degree i)))
                     1 (nblocks degree - 1) with
            | None => None
            | Some cs => Some (c0 :: cs)
            end
        end
    end.

  (* byte_pd.h:319-373 decode_block / decode_block_cond *)
  Definition pd_decode_block (t : N -> Z -> nat -> bool) (m : mem) (a : nat) (source : N)
    (degree block_num : nat) : option (list call) :=
    match degree with
    | O => Some []
    | _ => option_map fst (walkBlock eW t m (pd_finger m a degree block_num) source
                             (block_num * B) (pd_count degree block_num))
    end.

  (* byte_pd.h:386-430 map_reduce: one value per block, then parlay::reduce over them
     (associative, modelled as a left fold from the identity) *)
  Definition pd_map_reduce {E} (f : N -> Z -> E) (reduce : E -> E -> E) (identity : E)
    (m : mem) (a : nat) (source : N) (degree : nat) : option E :=
    match degree with
    | O => Some identity
    | _ =>
        match for_blocks (fun i =>
                 option_map (fun l => fold_left (fun cur e => reduce cur (f (fst e) (snd e))) l identity)
                   (readBlock eW m (pd_finger m a degree i) source (pd_count degree i)))
               0 (nblocks degree) with
        | None => None
        | Some xs => Some (fold_left reduce xs identity)
        end
    end.

  (* byte_pd.h:432-449 compute_block_size: lengths measured by writing to a scratch
     buffer; and 451-479 compute_size_in_bytes (block_bytes are uintE) *)
  Fixpoint pd_restSize (last : N) (l : list edge) : option N :=
    match l with
    | [] => Some 0
    | (v, wgh) :: l' =>
        match compressEdge (fun _ => 0) 0 (z32 (Z.of_N v - Z.of_N last)) with
        | None => None
        | Some (_, n1) =>
            match cW (fun _ => 0) 0 wgh with
            | None => None
            | Some (_, n2) =>
                match pd_restSize v l' with
                | None => None
                | Some s => Some (N.of_nat n1 + N.of_nat n2 + s)
                end
            end
        end
    end.
  Definition pd_blockSize (src : N) (l : list edge) : option N :=
    match l with
    | [] => Some 0
    | (v, wgh) :: l' =>
        match compressFirst32 (fun _ => 0) 0 src v with
        | None => None
        | Some (_, n1) =>
            match cW (fun _ => 0) 0 wgh with
            | None => None
            | Some (_, n2) =>
                match pd_restSize v l' with
                | None => None
                | Some s => Some (N.of_nat n1 + N.of_nat n2 + s)
                end
            end
        end
    end.
  Definition pd_compute_size (src : N) (l : list edge) : option N :=
    match l with
    | [] => Some 0
    | _ =>
        let nb := nblocks (length l) in
        match for_blocks (fun i => pd_blockSize src (firstn B (skipn (i * B) l))) 0 nb with
        | None => None
        | Some ss => Some ((fold_left N.add ss 0) mod two32 + 4 * N.of_nat (nb - 1))
        end
    end.

  (* byte_pd.h:519-560 packBlock.  The first edge is read whatever the degree is. *)
  Definition pd_packBlock (pred : N -> Z -> bool) (m : mem) (a : nat) (source : N) (degree : nat)
    : option (mem * nat) :=
    match readBlock eW m a source degree with
    | None => None
    | Some l =>
        let tmp := filter (fun e => pred (fst e) (snd e)) l in
        match tmp with
        | [] => Some (m, O)
        | _ =>
            match writeBlock compressFirst32 cW m a source tmp with
            | None => None
            | Some (m, _) => Some (m, length tmp)
            end
        end
    end.
  (* byte_pd.h:659-713 pack (the code after "return degree" is unreachable) *)
  Definition pd_pack (pred : N -> Z -> bool) (m : mem) (a : nat) (source : N) (degree : nat)
    : option (mem * nat) :=
    if (degree <=? B)%nat then pd_packBlock pred m a source degree else Some (m, degree).

  (* byte_pd.h:562-591 filterBlock (filter, 715-718, calls it unconditionally), degree > 0 *)
  Definition pd_filter (pred : N -> Z -> bool) (m : mem) (a : nat) (source : N) (degree : nat)
    : option (list edge) :=
    option_map (fun ls => concat (map (filter (fun e => pred (fst e) (snd e))) ls))
      (for_blocks (fun i => readBlock eW m (pd_finger m a degree i) source (pd_count degree i))
         0 (nblocks degree)).

  (* byte_pd.cc:57-73 *)
  Definition pd_get_num_blocks (degree : nat) : nat :=
    match degree with O => O | _ => nblocks degree end.
  Definition pd_get_block_degree (degree block_num : nat) : nat :=
    match degree with
    | O => O
    | _ => if (block_num <? pd_get_num_blocks degree - 1)%nat then B else (degree mod B)%nat
    end.

  (* byte_pd.h:138-186 iter: the edges seen by cur(), next(), next(), ... (k of them),
     state = finger, last neighbour, proc *)
  Fixpoint pd_iterRest (m : mem) (source : N) (finger : nat) (ngh : N) (proc k : nat) : option (list edge) :=
    match k with
    | O => Some []
    | S k =>
        match (if (proc =? B)%nat then eatFirstEdge m finger source
               else match eatEdge m finger with
                    | None => None
                    | Some (d, a) => Some ((ngh + d) mod two32, a)
                    end) with
        | None => None
        | Some (ngh, finger) =>
            match eW m finger with
            | None => None
            | Some (wgh, finger) =>
                match pd_iterRest m source finger ngh (if (proc =? B)%nat then 1%nat else S proc) k with
                | None => None
                | Some es => Some ((ngh, wgh) :: es)
                end
            end
        end
    end.
  (* the whole iteration: degree edges *)
  Definition pd_iter (m : mem) (a : nat) (source : N) (degree : nat) : option (list edge) :=
    match degree with
    | O => Some []
    | S k =>
        match eatFirstEdge m (a + 4 * (nblocks degree - 1)) source with
        | None => None
        | Some (ngh, finger) =>
            match eW m finger with
            | None => None
            | Some (wgh, finger) =>
                match pd_iterRest m source finger ngh 1 k with
                | None => None
                | Some es => Some ((ngh, wgh) :: es)
                end
            end
        end
    end.
End PD.
