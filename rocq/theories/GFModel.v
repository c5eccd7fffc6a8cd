(* Model of the graph files: the compressed (amortized block) format written by
   utils/compressor.cc and utils/converter.h and read by gbbs/graph_io.h, and the binary
   format written by utils/converter.h and read by gbbs/graph_io.h and graph_io.cc.

   A graph is the list of its adjacency lists.  A file is a list of bytes; reading it is
   reading a memory (PDModel.mem) that holds the file from address 0 on; what the memory
   holds after the end of the file is arbitrary.  long and uintT (macros.h:53-57) have 8
   bytes, uintE has 4, little-endian.  parallel_for over vertices = the bodies run in some
   order (they touch disjoint bytes).  None = undefined behaviour or exit. *)
From Verif Require Import Base CodecModel PDModel AMModel.
From Coq Require Import NArith ZArith.
Local Open Scope N_scope.

(* the k bytes of an integer of k bytes, as out.write writes them, and the integer read
   at an address *)
Fixpoint le (k : nat) (x : N) : list N :=
  match k with O => [] | S k => x mod 256 :: le k (x / 256) end.
Fixpoint load (k : nat) (m : mem) (a : nat) : N :=
  match k with O => 0 | S k => m a + 256 * load k m (S a) end.
Definition les (k : nat) (xs : list nat) : list N := flat_map (fun x => le k (N.of_nat x)) xs.

(* a std::tuple<uintE, W>: the id alone if W is gbbs::empty, otherwise the id and the four
   bytes of the weight.  libstdc++ stores the last component first; writer and reader use
   the same type, so nothing depends on it. *)
Definition tup (weighted : bool) (e : edge) : list N :=
  if weighted then le 4 (z32 (snd e)) ++ le 4 (fst e) else le 4 (fst e).
Definition tup_size (weighted : bool) : nat := if weighted then 8%nat else 4%nat.
(* a 32-bit pattern as an int *)
Definition int_of (x : N) : Z :=
  if x <? 2147483648 then Z.of_N x else (Z.of_N x - 4294967296)%Z.
Definition load_tup (weighted : bool) (m : mem) (a : nat) : edge :=
  if weighted then (load 4 m (4 + a), int_of (load 4 m a)) else (load 4 m a, 0%Z).

(* parlay::scan_inplace: exclusive prefix sums *)
Definition prefix (xs : list nat) (i : nat) : nat := list_sum (firstn i xs).

(* the loop over batches, converter.h:741-746 and 957-961: k batches of size vertices *)
Fixpoint batches (k b size n : nat) : list (nat * nat) :=
  match k with
  | O => []
  | S k => let s := (b * size)%nat in
           let e := Nat.min (s + size) n in
           if (e <=? s)%nat then [] else (s, e) :: batches k (S b) size n
  end.
(* parlay::num_blocks: rounded up division *)
Definition num_blocks (n b : nat) : nat :=
  match n with O => O | S n' => S (n' / b) end.

Section Amortized.
  Variable B : nat.      (* PARALLEL_DEGREE in compressor.cc, PAR_DEGREE_TWO in converter.h *)
  Variable aw : awty.

  (* compressor.cc:261-276 (35-47, 111-125; converter.h:689-701): the bytes of an edge,
     encoded into tmp[16] *)
  Definition edge_bytes (src : N) (deg : nat) (last : N) (e : edge) : option nat :=
    match (if (deg mod B =? 0)%nat then am_cF (fun _ => 0) 0 src (fst e)
           else compressEdge (fun _ => 0) 0 (z32 (Z.of_N (fst e) - Z.of_N last))) with
    | None => None
    | Some (m, bytes) =>
        match am_cW aw m bytes (snd e) with
        | None => None
        | Some (_, bytes) => if (16 <? bytes)%nat then None else Some bytes
        end
    end.
  Fixpoint edges_bytes (src : N) (deg : nat) (last : N) (l : list edge) (total : nat) : option nat :=
    match l with
    | [] => Some total
    | e :: l =>
        match edge_bytes src deg last e with
        | None => None
        | Some b => edges_bytes src (S deg) (fst e) l (total + b)
        end
    end.
  (* compressor.cc:253-291 (27-59, 102-137; converter.h:681-716): the bytes of a vertex *)
  Definition vertex_bytes (src : N) (l : list edge) : option nat :=
    match edges_bytes src 0 0 l 0 with
    | None => None
    | Some total =>
        match l with
        | [] => Some total
        | _ => let n_chunks := nblocks B (length l) in
               Some (total + (n_chunks - 1) * 4 + n_chunks * 4 + 4)%nat
        end
    end.
  Fixpoint all_bytes (i : nat) (g : list (list edge)) : option (list nat) :=
    match g with
    | [] => Some []
    | l :: g =>
        match vertex_bytes (N.of_nat i) l, all_bytes (S i) g with
        | Some b, Some bs => Some (b :: bs)
        | _, _ => None
        end
    end.

  (* compressor.cc:300-306, 358-367 (66-81, 139-154), converter.h:752-765: vertex j is
     encoded at byte_offsets[j] - start_offset of an array of n_bytes bytes, and the program
     exits if it does not take exactly the bytes expected *)
  Fixpoint fill (ord : list nat) (offs : nat -> nat) (start_offset n_bytes : nat)
    (g : list (list edge)) (m : mem) : option mem :=
    match ord with
    | [] => Some m
    | j :: ord =>
        match nth j g [] with
        | [] => fill ord offs start_offset n_bytes g m
        | l =>
            let our_offset := (offs j - start_offset)%nat in
            match am_compress B aw m our_offset (N.of_nat j) l with
            | None => None
            | Some (m, e) =>
                if (n_bytes <? e)%nat then None else
                if (e - our_offset =? offs (S j) - offs j)%nat
                then fill ord offs start_offset n_bytes g m else None
            end
        end
    end.

  (* compressor.cc:251-306, 358-367, 417-427: total size and offsets, edges (value-initialized),
     then the bytes of one direction: byte_offsets, degrees, edges *)
  Definition section_bytes (ord : list nat) (g : list (list edge)) : option (nat * list N) :=
    match all_bytes 0 g with
    | None => None
    | Some sizes =>
        let n := length g in
        let offs := prefix sizes in
        let total_space := offs n in
        match fill ord offs 0 total_space g (fun _ => 0) with
        | None => None
        | Some m =>
            Some (total_space, les 8 (map offs (seq 0 (n + 1))) ++ les 4 (map (@length edge) g)
                               ++ map m (seq 0 total_space))
        end
    end.
  (* compressor.cc:165-429 write_graph_bytepd_amortized_format, symmetric *)
  Definition write_compressed (ord : list nat) (m : nat) (g : list (list edge)) : option (list N) :=
    match section_bytes ord g with
    | None => None
    | Some (total_space, bytes) => Some (les 8 [length g; m; total_space] ++ bytes)
    end.
  (* compressor.cc:16-161 write_graph_bytepd_amortized_directed *)
  Definition write_compressed_directed (ord1 ord2 : list nat) (m : nat) (out_nghs in_nghs : list (list edge))
    : option (list N) :=
    match section_bytes ord1 out_nghs, section_bytes ord2 in_nghs with
    | Some (total_space, bytes), Some (in_total, in_bytes) =>
        Some (les 8 [length out_nghs; m; total_space] ++ bytes ++ les 8 [in_total] ++ in_bytes)
    | _, _ => None
    end.

  (* converter.h:670-771 write_graph_bytepd_amortized_format with symmetric, n_batches = nb.
     Batch b: bs vertices, there are at most bs batches; its vertices run in the order
     ords b; its uninitialized array is garbage b. *)
  Fixpoint slabs (ords : nat -> list nat) (garbage : nat -> mem) (offs : nat -> nat)
    (g : list (list edge)) (b : nat) (bts : list (nat * nat)) : option (list N) :=
    match bts with
    | [] => Some []
    | (s, e) :: bts =>
        let n_bytes := (offs e - offs s)%nat in
        match fill (ords b) offs (offs s) n_bytes g (garbage b), slabs ords garbage offs g (S b) bts with
        | Some m, Some rest => Some (map m (seq 0 n_bytes) ++ rest)
        | _, _ => None
        end
    end.
  Definition convert_compressed (nb : nat) (ords : nat -> list nat) (garbage : nat -> mem) (m : nat)
    (g : list (list edge)) : option (list N) :=
    match all_bytes 0 g with
    | None => None
    | Some sizes =>
        let n := length g in
        let offs := prefix sizes in
        let bs := num_blocks n nb in
        match slabs ords garbage offs g 0 (batches bs 0 bs n) with
        | None => None
        | Some bytes =>
            Some (les 8 [n; m; offs n] ++ les 8 (map offs (seq 0 (n + 1)))
                  ++ les 4 (map (@length edge) g) ++ bytes)
        end
    end.
End Amortized.

(* the vertices of a graph that was read: v_data[i].offset, v_data[i].degree, and the
   address of the edges *)
Record vdata := mkV { v_offset : nat; v_degree : nat }.
Record loaded := mkL { l_n : nat; l_m : nat; l_vs : list vdata; l_edges : nat }.

(* offsets[i] and Degrees[i], graph_io.h:232-242 *)
Definition read_vdata (m : mem) (offsets degrees n : nat) : list vdata :=
  map (fun i => mkV (N.to_nat (load 8 m (offsets + 8 * i))) (N.to_nat (load 4 m (degrees + 4 * i)))) (seq 0 n).
(* graph_io.h:217-257 read_compressed_symmetric_graph *)
Definition read_compressed (m : mem) : loaded :=
  let n := N.to_nat (load 8 m 0) in
  let skip := (24 + (n + 1) * 8)%nat in
  mkL n (N.to_nat (load 8 m 8)) (read_vdata m 24 skip n) (skip + n * 4).
(* graph_io.h:259-320 read_compressed_asymmetric_graph: the graph of the out-neighbours and
   the graph of the in-neighbours *)
Definition read_compressed_directed (m : mem) : loaded * loaded :=
  let n := N.to_nat (load 8 m 0) in
  let skip := (24 + (n + 1) * 8)%nat in
  let edges := (skip + n * 4)%nat in
  let in_data := (edges + N.to_nat (load 8 m 16))%nat in
  let in_degrees := (in_data + 8 + (n + 1) * 8)%nat in
  (mkL n (N.to_nat (load 8 m 8)) (read_vdata m 24 skip n) edges,
   mkL n (N.to_nat (load 8 m 8)) (read_vdata m (in_data + 8) in_degrees n) (in_degrees + n * 4)).

Section Binary.
  Variable weighted : bool.

  (* converter.h:970-979 copy: vertex i writes its neighbours to edges[our_offset ...] of an
     array of n_edges *)
  Fixpoint copy (ord : list nat) (offs : nat -> nat) (start_offset n_edges : nat)
    (g : list (list edge)) (U : nat -> edge) : option (nat -> edge) :=
    match ord with
    | [] => Some U
    | i :: ord =>
        let our_offset := (offs i - start_offset)%nat in
        if (n_edges <? our_offset + length (nth i g []))%nat then None else
        copy ord offs start_offset n_edges g (stores U our_offset (nth i g []))
    end.
  (* converter.h:957-989 *)
  Fixpoint copies (ords : nat -> list nat) (garbage : nat -> nat -> edge) (offs : nat -> nat)
    (g : list (list edge)) (b : nat) (bts : list (nat * nat)) : option (list N) :=
    match bts with
    | [] => Some []
    | (s, e) :: bts =>
        let n_edges := (offs e - offs s)%nat in
        match copy (ords b) offs (offs s) n_edges g (garbage b), copies ords garbage offs g (S b) bts with
        | Some U, Some rest => Some (flat_map (tup weighted) (map U (seq 0 n_edges)) ++ rest)
        | _, _ => None
        end
    end.
  (* converter.h:930-994 write_symmetric_graph_binary_format; the body of write_edges,
     1010-1065, is the same.  n_batches = nb. *)
  Definition binary_section (nb : nat) (ords : nat -> list nat) (garbage : nat -> nat -> edge) (m : nat)
    (g : list (list edge)) : option (list N) :=
    let n := length g in
    let offs := prefix (map (@length edge) g) in
    match copies ords garbage offs g 0 (batches nb 0 (num_blocks n nb) n) with
    | None => None
    | Some bytes =>
        Some (les 8 [n; m; 24 + 8 * (n + 1) + tup_size weighted * m]%nat
              ++ les 8 (map offs (seq 0 (n + 1))) ++ bytes)
    end.
  (* converter.h:996-1071 write_asymmetric_graph_binary_format *)
  Definition binary_directed (nb : nat) (ords1 ords2 : nat -> list nat) (garbage1 garbage2 : nat -> nat -> edge)
    (m : nat) (out_nghs in_nghs : list (list edge)) : option (list N) :=
    match binary_section nb ords1 garbage1 m out_nghs, binary_section nb ords2 garbage2 m in_nghs with
    | Some b1, Some b2 => Some (b1 ++ b2)
    | _, _ => None
    end.

  (* offsets[i] and offsets[i+1] - offsets[i], graph_io.cc:108-112, graph_io.h:119-123; the
     degree is a uintE *)
  Definition read_offsets (m : mem) (offsets n : nat) : list vdata :=
    map (fun i => let o := load 8 m (offsets + 8 * i) in
                  mkV (N.to_nat o)
                      (N.to_nat (z32 (Z.of_N (load 8 m (offsets + 8 * S i)) - Z.of_N o)))) (seq 0 n).
  (* graph_io.cc:81-95 with 98-127 (unweighted) and graph_io.h:675-690 with 109-137 (weighted) *)
  Definition read_binary (m : mem) : loaded :=
    let n := N.to_nat (load 8 m 0) in
    mkL n (N.to_nat (load 8 m 8)) (read_offsets m 24 n) (24 + (n + 1) * 8).
  (* graph_io.cc:199-240, unweighted (the weighted reader exits, graph_io.h:149-153) *)
  Definition read_binary_directed (m : mem) : loaded * loaded :=
    let n := N.to_nat (load 8 m 0) in
    let k := N.to_nat (load 8 m 8) in
    let edges := (24 + (n + 1) * 8)%nat in
    let skip := (edges + k * 4)%nat in
    (mkL n k (read_offsets m 24 n) edges,
     mkL n k (read_offsets m (skip + 24) n) (skip + (24 + (n + 1) * 8))).

  (* (edges + offset)[0 .. degree), vertex.h *)
  Definition nghs_of (m : mem) (edges : nat) (v : vdata) : list edge :=
    map (fun j => load_tup weighted m (edges + tup_size weighted * (v_offset v + j))) (seq 0 (v_degree v)).
End Binary.
