(* Model of the sequence filters of gbbs/bridge.h, the counting sort of
   gbbs/helpers/counting_sort_no_transpose.h, RelabelIds of gbbs/contract.h, and the edge
   filters of gbbs/graph_mutation.h on uncompressed graphs (gbbs/vertex.h).

   Arrays are lists; an access outside an array is undefined behaviour and gives None.
   A parallel loop over blocks or vertices runs the (sequential) bodies in an arbitrary
   order; a parallel loop of single stores applies its stores in an arbitrary order.
   parlay::scan_inplace(a) is the exclusive prefix sum.  Predicates are pure. *)
From Coq Require Import Permutation.
From Verif Require Import Base GBModel.

(* bridge.h:448-453 num_blocks *)
Definition num_blocks (n b : nat) : nat := if n =? 0 then 0 else 1 + (n - 1) / b.
(* parlay::scan_inplace *)
Definition sum_before (f : nat -> nat) (i : nat) : nat := list_sum (map f (seq 0 i)).

Section Filter.
  Context {A : Type}.
  Variable p : A -> bool.

  (* bridge.h:566-571 filter_seq; In and Out do not overlap *)
  Fixpoint filter_seq_loop (cnt i k : nat) (inn out : list A) : option (nat * list A) :=
    match cnt with
    | 0 => Some (k, out)
    | S cnt => match nth_error inn i with
               | None => None
               | Some x => if p x then if k <? length out then filter_seq_loop cnt (S i) (S k) inn (lset out k x) else None
                           else filter_seq_loop cnt (S i) k inn out
               end
    end.
  Definition filter_seq (inn out : list A) (n : nat) : option (nat * list A) := filter_seq_loop n 0 0 inn out.

  (* for (j = s; j < e; j++) if (p(a[j])) a[k++] = a[j];
     bridge.h:585-587 and 625-627, and the sequential loop of pack, vertex.h:219-226 *)
  Fixpoint pack_loop (cnt j k : nat) (a : list A) : option (nat * list A) :=
    match cnt with
    | 0 => Some (k, a)
    | S cnt => match nth_error a j with
               | None => None
               | Some x => if p x then if k <? length a then pack_loop cnt (S j) (S k) (lset a k x) else None
                           else pack_loop cnt (S j) k a
               end
    end.

  (* bridge.h:580-592: pack every block in place and record the counts *)
  Fixpoint pack_blocks (b n : nat) (order : list nat) (a : list A) (sums : nat -> nat) : option (list A * (nat -> nat)) :=
    match order with
    | [] => Some (a, sums)
    | i :: order' =>
        let s := i * b in
        let e := Nat.min (s + b) n in
        match pack_loop (e - s) s s a with
        | None => None
        | Some (k, a') => pack_blocks b n order' a' (fset sums i (k - s))
        end
    end.
  (* bridge.h:596-605 and 636-645: element j of block i goes to Sums[i] + j *)
  Fixpoint read_calls (a : list A) (moves : list (nat * nat)) : option (list (nat * A)) :=
    match moves with
    | [] => Some []
    | (d, s) :: moves' => match nth_error a s, read_calls a moves' with
                          | Some x, Some r => Some ((d, x) :: r)
                          | _, _ => None
                          end
    end.
  Definition block_moves (b l off : nat) (sums : nat -> nat) : list (nat * nat) :=
    flat_map (fun i => map (fun j => (off + sum_before sums i + j, i * b + j)) (seq 0 (sums i))) (seq 0 l).

  (* bridge.h:576-606 filterf(In, Out, n, p); order: of the blocks, shuffle: of the stores *)
  Definition filterf (b : nat) (order : list nat) (shuffle : list (nat * A) -> list (nat * A)) (inn out : list A) (n : nat) : option (nat * list A) :=
    if n <? b then filter_seq inn out n
    else
      let l := num_blocks n b in
      match pack_blocks b n order inn (fun _ => 0) with
      | None => None
      | Some (a, sums) => match read_calls a (block_moves b l 0 sums) with
                          | None => None
                          | Some st => option_map (fun out' => (sum_before sums l, out')) (run_stores (shuffle st) out)
                          end
      end.
  (* bridge.h:610-647 filterf(In, n, p, out, out_off): the calls of out, in order *)
  Fixpoint out_loop (cnt i k : nat) (inn : list A) : option (list (nat * A)) :=
    match cnt with
    | 0 => Some []
    | S cnt => match nth_error inn i with
               | None => None
               | Some x => if p x then option_map (cons (k, x)) (out_loop cnt (S i) (S k) inn) else out_loop cnt (S i) k inn
               end
    end.
  Definition filterf_out (b : nat) (order : list nat) (shuffle : list (nat * A) -> list (nat * A)) (inn : list A) (n off : nat) : option (nat * list (nat * A)) :=
    if n <? b then option_map (fun c => (length c, c)) (out_loop n 0 off inn)
    else
      let l := num_blocks n b in
      match pack_blocks b n order inn (fun _ => 0) with
      | None => None
      | Some (a, sums) => option_map (fun st => (sum_before sums l, shuffle st)) (read_calls a (block_moves b l off sums))
      end.
End Filter.

Section FilterIndex.
  Context {A : Type}.
  Variable f : A -> nat -> bool.
  (* bridge.h:494-517 filter_index.  The flags and sums of block i *)
  Definition fi_flag (inn : list A) (j : nat) : bool := match nth_error inn j with Some x => f x j | None => false end.
  Definition fi_block (b n i : nat) : list nat := seq (i * b) (Nat.min (i * b + b) n - i * b).
  Definition fi_sum (inn : list A) (b i : nat) : nat := length (filter (fi_flag inn) (fi_block b (length inn) i)).
  (* parlay pack_serial_at: k = 0; for each j of the block: if (Fl[j]) Out[k++] = In[j] *)
  Fixpoint serial_stores (fl : nat -> bool) (inn : list A) (k : nat) (js : list nat) : list (nat * A) :=
    match js with
    | [] => []
    | j :: js' => if fl j then match nth_error inn j with Some x => (k, x) :: serial_stores fl inn (S k) js' | None => [] end
                  else serial_stores fl inn k js'
    end.
  Definition fi_stores (inn : list A) (b : nat) : list (nat * A) :=
    flat_map (fun i => serial_stores (fi_flag inn) inn (sum_before (fi_sum inn b) i) (fi_block b (length inn) i))
             (seq 0 (num_blocks (length inn) b)).
  (* Out is uninitialised (junk) *)
  Definition filter_index (b : nat) (shuffle : list (nat * A) -> list (nat * A)) (junk : A) (inn : list A) : option (list A) :=
    run_stores (shuffle (fi_stores inn b)) (repeat junk (sum_before (fi_sum inn b) (num_blocks (length inn) b))).
End FilterIndex.

(* -- counting sort ---------------------------------------------------------------------- *)
Section CountSort.
  Context {A : Type}.
  Variable get_key : nat -> nat.
  Variable width : nat.             (* values of b_size_t *)
  Variable num_buckets : nat.

  (* counting_sort_no_transpose.h:49-52 *)
  Fixpoint cs_count (cnt j : nat) (offsets : list nat) : option (list nat) :=
    match cnt with
    | 0 => Some offsets
    | S cnt => let k := get_key j mod width in
               if k <? length offsets then cs_count cnt (S j) (lset offsets k (nth k offsets 0 + 1)) else None
    end.
  (* 53-58; counts points into a larger array, at cbase *)
  Fixpoint cs_scan (cnt i s cbase : nat) (offsets counts : list nat) : option (list nat * list nat) :=
    match cnt with
    | 0 => Some (offsets, counts)
    | S cnt => if cbase + i <? length counts
               then let s' := s + nth i offsets 0 in cs_scan cnt (S i) s' cbase (lset offsets i s') (lset counts (cbase + i) s)
               else None
    end.
  (* 59-64, j counts down from start + cnt - 1 *)
  Fixpoint cs_place (cnt start : nat) (inn : list A) (offsets : list nat) (out : list A) : option (list A) :=
    match cnt with
    | 0 => Some out
    | S j => let t := get_key (j + start) mod width in
             let k := nth t offsets 0 - 1 in
             match nth_error inn (j + start) with
             | None => None
             | Some x => if (0 <? nth t offsets 0) && (k + start <? length out)
                         then cs_place j start inn (lset offsets t k) (lset out (k + start) x) else None
             end
    end.
  (* 39-65 _seq_count_sort *)
  Definition seq_count_sort (inn : list A) (out : list A) (start e cbase : nat) (counts : list nat) : option (list A * list nat) :=
    match cs_count (e - start) start (repeat 0 num_buckets) with
    | None => None
    | Some o1 => match cs_scan num_buckets 0 0 cbase o1 counts with
                 | None => None
                 | Some (o2, counts') => option_map (fun out' => (out', counts')) (cs_place (e - start) start inn o2 out)
                 end
    end.
  (* 94-105: the blocks, in any order *)
  Fixpoint cs_blocks (inn : list A) (n bs : nat) (order : list nat) (out : list A) (counts : list nat) : option (list A * list nat) :=
    match order with
    | [] => Some (out, counts)
    | i :: order' =>
        let start := Nat.min (i * bs) n in
        match seq_count_sort inn out start (Nat.min (start + bs) n) (i * num_buckets) counts with
        | None => None
        | Some (out', counts') => cs_blocks inn n bs order' out' counts'
        end
    end.
  (* 73-105 _count_sort.  num_blocks is computed with floating point from n and then rounded
     to a power of two: here any positive number.  thr = _cs_seq_threshold.  Result: the
     sorted blocks, the counts and the number of blocks *)
  Definition count_sort (thr nb : nat) (order : list nat) (junk : A) (cjunk : nat) (inn : list A) : option (list A * list nat * nat) :=
    let n := length inn in
    if (n <? thr) || (nb =? 1)
    then option_map (fun r => (r, 1)) (seq_count_sort inn (repeat junk n) 0 n 0 (repeat cjunk (num_buckets + 1)))
    else let bs := (n - 1) / nb + 1 in
         option_map (fun r => (r, nb)) (cs_blocks inn n bs order (repeat junk n) (repeat cjunk (nb * num_buckets))).
End CountSort.

(* -- contract.h:21-38 RelabelIds (and contract_sf.h:29-46, the same code) ------------------ *)
Definition relabel_ids (ids : list nat) : option (list nat * nat) :=
  let n := length ids in
  match run_stores (map (fun x => (x, 1)) ids) (repeat 0 (n + 1)) with
  | None => None
  | Some inverse_map => let scanned := map (sum_before (fun i => nth i inverse_map 0)) (seq 0 (n + 1)) in
                        Some (map (fun x => nth x scanned 0) ids, nth n scanned 0)
  end.

(* -- edge filters -------------------------------------------------------------------------- *)
Section Edges.
  Variable W : Type.
  Notation nw := (nat * W)%type.
  Notation graph := (csr W).
  Variable thr : nat.       (* kAllocThreshold = 10000 *)
  Variable fb : nat.        (* parlay's filterf block size *)

  (* vertex.h:215-241 pack: on the neighbours nghs of v.  Large lists are copied to tmp and
     filtered back; orderings as in filterf *)
  Definition pack (order : list nat) (shuffle : list (nat * nw) -> list (nat * nw)) (q : nw -> bool) (nghs : list nw) : option (nat * list nw) :=
    if length nghs <? thr then pack_loop q (length nghs) 0 0 nghs
    else filterf q fb order shuffle nghs nghs (length nghs).
  (* the adjacency list lives in the shared array *)
  Definition put {A} (off : nat) (l arr : list A) : list A := firstn off arr ++ l ++ skipn (off + length l) arr.
  (* graph.h:71-77 packNeighbors *)
  Definition packNeighbors (v : nat) (order : list nat) (shuffle : list (nat * nw) -> list (nat * nw)) (q : nat -> nw -> bool) (G : graph) : option graph :=
    match pack order shuffle (q v) (neighbors G v) with
    | None => None
    | Some (k, nghs) => Some {| gn := gn G; gm := gm G; goff := goff G; gdeg := lset (gdeg G) v k;
                                gngh := put (nth v (goff G) 0) nghs (gngh G) |}
    end.
  (* graph.h:80-86 *)
  Definition zeroVertexDegree (v : nat) (G : graph) : graph :=
    {| gn := gn G; gm := gm G; goff := goff G; gdeg := lset (gdeg G) v 0; gngh := gngh G |}.

  (* vertex.h:191-212 filter: out(k++, nw) for the neighbours satisfying q (parlay's
     filter_out by its specification for long lists) *)
  Definition filter_calls (q : nw -> bool) (nghs : list nw) : list (nat * nw) :=
    combine (seq 0 (length (filter q nghs))) (filter q nghs).

  (* graph_mutation.h:173-262 filter_edges; pred: 0 keep, 1 drop, 2 return *)
  Variable pred : nat -> nw -> nat.
  Definition count_pred (G : graph) (c v : nat) : nat := length (filter (fun x => pred v x =? c) (neighbors G v)).
  Definition out_stores (G : graph) : list (nat * edge W) :=
    flat_map (fun v => if 0 <? count_pred G 2 v
                       then map (fun jx => (sum_before (count_pred G 2) v + fst jx, (v, fst (snd jx), snd (snd jx))))
                                (filter_calls (fun x => pred v x =? 2) (neighbors G v))
                       else []) (seq 0 (gn G)).
  (* the body for one vertex, second pass; the counts are those of the first pass *)
  Definition fe_vertex (G0 : graph) (order : list nat) (shuffle : list (nat * nw) -> list (nat * nw)) (v : nat) (G : graph) : option graph :=
    let n_one := count_pred G0 1 v in
    let n_two := count_pred G0 2 v in
    if 0 <? n_one + n_two
    then if n_one + n_two <? nth v (gdeg G) 0 then packNeighbors v order shuffle (fun v x => pred v x =? 0) G
         else Some (zeroVertexDegree v G)
    else Some G.
  Fixpoint fe_vertices (G0 : graph) (vorder : list nat) (ord : nat -> list nat) (sh : nat -> list (nat * nw) -> list (nat * nw)) (G : graph) : option graph :=
    match vorder with
    | [] => Some G
    | v :: vorder' => match fe_vertex G0 (ord v) (sh v) v G with
                      | None => None
                      | Some G' => fe_vertices G0 vorder' ord sh G'
                      end
    end.
  Definition sum_degrees (G : graph) : nat := list_sum (map (fun v => nth v (gdeg G) 0) (seq 0 (gn G))).
  Definition set_m (m : nat) (G : graph) : graph := {| gn := gn G; gm := m; goff := goff G; gdeg := gdeg G; gngh := gngh G |}.
  (* vshuffle: of all the stores to arr, junk: its initial contents *)
  Definition filter_edges (vorder : list nat) (ord : nat -> list nat) (sh : nat -> list (nat * nw) -> list (nat * nw))
      (vshuffle : list (nat * edge W) -> list (nat * edge W)) (junk : edge W) (G : graph) : option (list (edge W) * graph) :=
    match run_stores (vshuffle (out_stores G)) (repeat junk (sum_before (count_pred G 2) (gn G))), fe_vertices G vorder ord sh G with
    | Some arr, Some G' => Some (arr, set_m (sum_degrees G') G')
    | _, _ => None
    end.
End Edges.

Section Edges2.
  Variable W : Type.
  Notation nw := (nat * W)%type.
  Notation graph := (csr W).
  Variable pred : nat -> nw -> bool.
  Definition count (G : graph) (v : nat) : nat := length (filter (pred v) (neighbors G v)).
  Definition all_out_stores (G : graph) : list (nat * edge W) :=
    flat_map (fun v => map (fun jx => (sum_before (count G) v + fst jx, (v, fst (snd jx), snd (snd jx))))
                           (filter_calls (pred v) (neighbors G v))) (seq 0 (gn G)).
  (* graph_mutation.h:266-308 filter_all_edges *)
  Definition filter_all_edges (vshuffle : list (nat * edge W) -> list (nat * edge W)) (junk : edge W) (G : graph) : option (list (edge W) * graph) :=
    option_map (fun arr => (arr, {| gn := gn G; gm := 0; goff := goff G;
                                    gdeg := fold_left (fun d v => if 0 <? nth v d 0 then lset d v 0 else d) (seq 0 (gn G)) (gdeg G); gngh := gngh G |}))
      (run_stores (vshuffle (all_out_stores G)) (repeat junk (sum_before (count G) (gn G)))).
  (* 312-365 sample_edges *)
  Definition sample_edges (vshuffle : list (nat * edge W) -> list (nat * edge W)) (junk : edge W) (G : graph) : option (list (edge W)) :=
    run_stores (vshuffle (all_out_stores G)) (repeat junk (sum_before (count G) (gn G))).
  (* 16-74 filter_graph, uncompressed: outOffsets, then filter_out of each list to its place *)
  Definition filter_graph (shuffle : list (nat * nw) -> list (nat * nw)) (junk : nw) (G : graph) : option graph :=
    let offs := sum_before (count G) in
    option_map (fun arr => {| gn := gn G; gm := offs (gn G); goff := map offs (seq 0 (gn G));
                              gdeg := map (fun v => offs (v + 1) - offs v) (seq 0 (gn G)); gngh := arr |})
      (run_stores (shuffle (flat_map (fun v => map (fun jx => (offs v + fst jx, snd jx)) (filter_calls (pred v) (neighbors G v))) (seq 0 (gn G))))
                  (repeat junk (offs (gn G)))).
  (* 369-437 packEdges on the vertices vs: packNeighbors for each, in any order, and the new
     degrees; G.m is left alone *)
  Fixpoint pack_vertices (thr fb : nat) (vorder : list nat) (ord : nat -> list nat) (sh : nat -> list (nat * nw) -> list (nat * nw)) (G : graph) : option graph :=
    match vorder with
    | [] => Some G
    | v :: vorder' => match packNeighbors thr fb v (ord v) (sh v) pred G with
                      | None => None
                      | Some G' => pack_vertices thr fb vorder' ord sh G'
                      end
    end.
  Definition packEdges (thr fb : nat) (vs vorder : list nat) (ord : nat -> list nat) (sh : nat -> list (nat * nw) -> list (nat * nw)) (G : graph) : option (list (nat * nat) * graph) :=
    option_map (fun G' => (map (fun v => (v, nth v (gdeg G') 0)) vs, G')) (pack_vertices thr fb vorder ord sh G).
End Edges2.
