(* Model of graph construction: gbbs/edge_array.h EdgeUtils, from_edges of gbbs/graph.h
   and the edge-list conversions of gbbs/graph_io.h.

   An edge is (u, v, w) with w of any type.  parlay's sort is an arbitrary function that
   returns a sorted permutation (it is not stable); pack and filter_index are filters.
   The parallel loops that fill the offset arrays are modelled by the list of their
   stores; the stores are then applied in an arbitrary order.  Degrees are assumed to fit
   into uintE.  The ptr_graph variants (graph.h:350-402, 877-937) compute the same offsets
   and degrees and store them per vertex. *)
From Verif Require Import Base.

Section GB.
  Variable W : Type.
  Definition edge := (nat * nat * W)%type.
  Definition src (e : edge) : nat := fst (fst e).
  Definition dst (e : edge) : nat := snd (fst e).
  Definition wgh (e : edge) : W := snd e.
  Definition flip (e : edge) : edge := (dst e, src e, wgh e).

  (* edge_array.h:47-52: the comparison of sort_edges; graph_io.h:686-689 *)
  Definition key_lt (a b : edge) : bool := (src a <? src b) || ((src a =? src b) && (dst a <? dst b)).

  Variable sort_edges : list edge -> list edge.     (* parlay::sort with key_lt *)

  (* edge_array.h:36-45 *)
  Definition transpose (es : list edge) : list edge := map flip es.

  (* filter_index / pack with a predicate on the previous element and this one *)
  Fixpoint filter_prev (keep : option edge -> edge -> bool) (prev : option edge) (es : list edge) : list edge :=
    match es with
    | [] => []
    | e :: es' => if keep prev e then e :: filter_prev keep (Some e) es' else filter_prev keep (Some e) es'
    end.

  (* edge_array.h:67-84 undirect_and_sort *)
  Definition keep_sym (prev : option edge) (e : edge) : bool :=
    match prev with
    | None => true
    | Some p => negb (src p =? src e) || negb (dst p =? dst e)
    end.
  Definition both (es : list edge) : list edge := flat_map (fun e => [e; flip e]) es.
  Definition undirect_and_sort (es : list edge) : list edge := filter_prev keep_sym None (sort_edges (both es)).

  (* edge_array.h:88-114 compute_offsets: the stores (index, value) of iteration i *)
  Definition nth_src (es : list edge) (i : nat) : nat := nth i (map src es) 0.
  Definition offset_stores (n : nat) (es : list edge) (i : nat) : list (nat * nat) :=
    let m := length es in
    (if (i =? 0) || negb (nth_src es i =? nth_src es (i - 1)) then [(nth_src es i, i)] else []) ++
    (if negb (i =? m - 1) then
       let our := nth_src es i in
       let next := nth_src es (i + 1) in
       if negb (our =? next) && negb (our + 1 =? next)
       then map (fun k => (k, i + 1)) (seq (our + 1) (next - (our + 1)))
       else []
     else []) ++
    (if i =? m - 1 then map (fun j => (j, m)) (seq (nth_src es i + 1) (n - (nth_src es i + 1))) else []).
  Definition all_offset_stores (n : nat) (es : list edge) : list (nat * nat) :=
    flat_map (offset_stores n es) (seq 0 (length es)).
  (* a store outside the array is undefined behaviour *)
  Fixpoint run_stores {A} (st : list (nat * A)) (arr : list A) : option (list A) :=
    match st with
    | [] => Some arr
    | (i, x) :: st' => if i <? length arr then run_stores st' (lset arr i x) else None
    end.
  (* parlay::sequence<size_t>(n) is zero-initialised; order = the order of the stores *)
  Definition compute_offsets (n : nat) (order : list (nat * nat)) : option (list nat) :=
    run_stores order (repeat 0 n).

  (* a graph: vertex_data (offset, degree) per vertex and the neighbour array *)
  Record csr := { gn : nat; gm : nat; goff : list nat; gdeg : list nat; gngh : list (nat * W) }.
  (* graph.h:81-84 get_vertex(v).out_neighbors(): neighbours e0 + offset, degree *)
  Definition neighbors (G : csr) (v : nat) : list (nat * W) :=
    firstn (nth v (gdeg G) 0) (skipn (nth v (goff G) 0) (gngh G)).

  (* edge_array.h:117-126 *)
  Definition get_neighbors (es : list edge) : list (nat * W) := map (fun e => (dst e, wgh e)) es.
  (* graph.h:172-176 *)
  Definition degrees_of (n m : nat) (offs : list nat) : list nat :=
    map (fun i => (if i =? n - 1 then m else nth (i + 1) offs 0) - nth i offs 0) (seq 0 n).
  Definition csr_of (n : nat) (es : list edge) (order : list (nat * nat)) : option csr :=
    match compute_offsets n order with
    | None => None
    | Some offs => Some {| gn := n; gm := length es; goff := offs; gdeg := degrees_of n (length es) offs;
                           gngh := get_neighbors es |}
    end.
  Definition empty_csr (n : nat) : csr :=
    {| gn := n; gm := 0; goff := repeat 0 n; gdeg := repeat 0 n; gngh := [] |}.

  (* graph.h:137-185 symmetric_graph::from_edges with a given vertex count *)
  Definition from_edges_sym (n : nat) (es : list edge) (order : list (nat * nat)) : option csr :=
    if length es =? 0 then Some (empty_csr n)
    else csr_of n (undirect_and_sort es) order.
  (* graph.h:664-731 asymmetric_graph::from_edges: out-neighbours and in-neighbours *)
  Definition from_edges_asym (n : nat) (es : list edge) (order_out order_in : list (nat * nat)) : option (csr * csr) :=
    if length es =? 0 then Some (empty_csr n, empty_csr n)
    else match csr_of n (sort_edges es) order_out, csr_of n (sort_edges (transpose es)) order_in with
         | Some o, Some i => Some (o, i)
         | _, _ => None
         end.
  (* graph.h:141-147: the default vertex count; parlay::reduce adds *)
  Definition default_n (es : list edge) : nat := 1 + list_sum (map (fun e => Nat.max (src e) (dst e)) es).

  (* -- graph_io.h ------------------------------------------------------------------ *)
  (* lines 682-703 sort_and_dedupe *)
  Definition keep_simple (prev : option edge) (e : edge) : bool :=
    negb (src e =? dst e) &&
    match prev with
    | None => true
    | Some p => negb ((src p =? src e) && (dst p =? dst e))
    end.
  Definition sort_and_dedupe (es : list edge) : list edge := filter_prev keep_simple None (sort_edges es).
  (* lines 559-565; reduce_max of nothing is 0 *)
  Definition num_vertices_from_edges (es : list edge) : nat := fold_right Nat.max 0 (map (fun e => Nat.max (src e) (dst e)) es) + 1.
  (* lines 570-600: the stores to data[j].offset of an array of uninitialised elements *)
  Definition vdata_stores (n : nat) (es : list edge) : list (nat * option nat) :=
    map (fun j => (j, Some 0)) (seq 0 (nth_src es 0 + 1)) ++
    flat_map (fun i => let from := nth_src es i in
                       let previous := nth_src es (i - 1) in
                       if negb (from =? previous) then map (fun j => (j, Some i)) (seq (previous + 1) (from + 1 - (previous + 1)))
                       else []) (seq 1 (length es - 1)) ++
    map (fun j => (j, Some (length es))) (seq (nth_src es (length es - 1) + 1) (n - (nth_src es (length es - 1) + 1))).
  (* the three loops run one after the other, each in any order; order1..3 are orders of
     their stores.  None: a store out of bounds or a read of an uninitialised offset *)
  Fixpoint all_some {A} (l : list (option A)) : option (list A) :=
    match l with
    | [] => Some []
    | Some x :: l' => option_map (cons x) (all_some l')
    | None :: _ => None
    end.
  Definition vdata_offsets (n : nat) (order : list (nat * option nat)) : option (list nat) :=
    match run_stores order (repeat None n) with
    | None => None
    | Some arr => all_some arr
    end.
  (* result: the vertex data is a null pointer if there is no edge *)
  Inductive built_graph := NullData (n : nat) | Built (G : csr).
  Definition edges_to_csr (n : nat) (es : list edge) (order : list (nat * option nat)) : option built_graph :=
    if length es =? 0 then Some (NullData n)
    else match vdata_offsets n order with
         | None => None
         | Some offs => Some (Built {| gn := n; gm := length es; goff := offs; gdeg := degrees_of n (length es) offs;
                                       gngh := get_neighbors es |})
         end.
  (* lines 425-469 (and 471-514) edge_list_to_symmetric_graph; [] gives the default graph
     with n = 0 *)
  Definition edge_list_sym (es : list edge) (order : list (nat * option nat)) : option built_graph :=
    if length es =? 0 then Some (Built (empty_csr 0))
    else let es' := sort_and_dedupe (both es) in
         edges_to_csr (num_vertices_from_edges es') es' order.
  (* lines 367-418 edge_list_to_asymmetric_graph *)
  Definition edge_list_asym (es : list edge) (order_out order_in : list (nat * option nat))
    : option (built_graph * built_graph) :=
    if length es =? 0 then Some (Built (empty_csr 0), Built (empty_csr 0))
    else let out := sort_and_dedupe es in
         let n := num_vertices_from_edges out in
         match edges_to_csr n out order_out, edges_to_csr n (sort_edges (transpose out)) order_in with
         | Some o, Some i => Some (o, i)
         | _, _ => None
         end.
End GB.
