(* Model of the text utilities: parlay::sequence_to_string (gbbs/bridge.h), utils/to_edge_list.cc,
   utils/random_reorder.cc and the edge-list reader of gbbs/graph_io.cc.
   Characters, decimal numbers and tokens as in TXModel; a store outside an array is undefined: None.
   Iterations of a parallel loop are run in any order (they write to different cells). *)
From Coq Require Import NArith.
From Verif Require Import Base GBModel TXModel.
Open Scope nat_scope.

(* -- bridge.h:648-722 ---------------------------------------------------------------------------- *)
(* the elements that are printed: uint, unsigned long and pairs of them (pairs and 2-tuples have the
   same code, 661-664 and 666-669, 678-684 and 686-692) *)
Inductive item := U32 (x : nat) | U64 (x : nat) | Pair (a b : item).
(* 648-670 t_to_stringlen *)
Fixpoint t_to_stringlen (a : item) : nat :=
  match a with U32 _ => 12 | U64 _ => 21 | Pair a b => t_to_stringlen a + t_to_stringlen b + 1 end.
(* the stores of sprintf(s, "%u", x): the digits and a terminating zero *)
Definition stores_at (s : nat) (t : list char) : list (nat * char) := combine (seq s (length t)) t.
(* 649-692 type_to_string *)
Fixpoint type_to_string (s : nat) (a : item) : list (nat * char) :=
  match a with
  | U32 x | U64 x => stores_at s (print x ++ [0])
  | Pair a b => let l := t_to_stringlen a in
      type_to_string s a ++ [(s + l, 32)] ++ type_to_string (s + l + 1) b
  end.
(* 703-722 sequence_to_string; order: the order of the iterations 0 .. n-2 of the loop.  For n = 0 the
   loop bound n - 1 wraps around and S[n-1] is read *)
Definition sequence_to_string (T : list item) (order : list nat) : option (list char) :=
  let n := length T in
  let lens := map (fun a => t_to_stringlen a + 1) T in
  let S := scan_excl 0 lens in
  let m := list_sum lens in
  if n =? 0 then None else
  let one i next := type_to_string (nth i S 0) (nth i T (U32 0)) ++ [(next - 1, 10)] in
  match run_stores (flat_map (fun i => one i (nth (i + 1) S 0)) order ++ one (n - 1) m) (repeat 0 m) with
  | None => None
  | Some C => Some (filter (fun c => 0 <? c) C)
  end.

(* -- utils/to_edge_list.cc ------------------------------------------------------------------------- *)
Section EdgeList.
  Context {W : Type}.
  Variable G : csr W.
  (* 24-34: the neighbours of i that are written *)
  Definition chosen (direct_sym : bool) (i : nat) : list (nat * nat) :=
    filter (fun e => if direct_sym then fst e <? snd e else true) (map (fun x => (i, fst x)) (neighbors G i)).
  (* 13-67 print_edge_list; edges is created with m zero pairs (20); order, order2: of the loops in 38 and
     in sequence_to_string *)
  Definition edge_array (direct_sym : bool) (order : list nat) : option (list (nat * nat)) :=
    let offs := scan_excl 0 (map (fun i => length (chosen direct_sym i)) (seq 0 (gn G))) in
    run_stores (flat_map (fun i => combine (seq (nth i offs 0) (length (chosen direct_sym i))) (chosen direct_sym i)) order)
      (repeat (0, 0) (gm G)).
  Definition edge_count (direct_sym : bool) : nat := list_sum (map (fun i => length (chosen direct_sym i)) (seq 0 (gn G))).
  Definition edge_items (es : list (nat * nat)) : list item := map (fun e => Pair (U32 (fst e)) (U32 (snd e))) es.
  Definition print_edge_list (direct_sym multistep_header : bool) (order order2 : list nat) : option (list char) :=
    match edge_array direct_sym order with
    | None => None
    | Some es =>
        match sequence_to_string (edge_items es) order2 with
        | None => None
        | Some t => Some ((if multistep_header then print (gn G) ++ [32] ++ print (edge_count direct_sym) ++ [10] else []) ++ t)
        end
    end.
  (* 73-114 print_edge_list_matrixmarket: the same code with both flags set *)
  Definition print_edge_list_matrixmarket := print_edge_list true true.
End EdgeList.

(* -- utils/random_reorder.cc:10-51 randomReorder --------------------------------------------------- *)
Section Reorder.
  Variable G : csr unit.
  Variable perm : list nat.                             (* parlay::random_permutation *)
  Variable sort : list nat -> list nat.                 (* std::sort *)
  Definition pm (i : nat) : nat := nth i perm 0.
  (* 18-19 *)
  Definition reorder_degrees (order : list nat) : option (list nat) :=
    run_stores (map (fun i => (pm i, length (neighbors G i))) order) (repeat 0 (gn G)).
  (* std::sort(edges.begin() + a, edges.begin() + b) *)
  Definition sort_range (a b : nat) (es : list nat) : list nat :=
    firstn a es ++ sort (firstn (b - a) (skipn a es)) ++ skipn b es.
  (* 23-32: the body of the second loop; map_f advances off, so that the sort begins where the
     neighbours of i end *)
  Definition reorder_one (offs : list nat) (i : nat) (es : list nat) : option (list nat) :=
    let off := nth (pm i) offs 0 in
    let next_off := if pm i =? gn G - 1 then gm G else nth (pm i + 1) offs 0 in
    match run_stores (combine (seq off (length (neighbors G i))) (map (fun x => pm (fst x)) (neighbors G i))) es with
    | None => None
    | Some es => Some (sort_range (off + length (neighbors G i)) next_off es)
    end.
  Fixpoint reorder_all (offs : list nat) (order : list nat) (es : list nat) : option (list nat) :=
    match order with
    | [] => Some es
    | i :: order => match reorder_one offs i es with None => None | Some es => reorder_all offs order es end
    end.
  (* order1, order2: of the two loops; o1, o2: of those of sequence_to_string *)
  Definition randomReorder (order1 order2 o1 o2 : list nat) : option (list char) :=
    match reorder_degrees order1 with
    | None => None
    | Some degs =>
        let offs := scan_excl 0 degs in
        match reorder_all offs order2 (repeat 0 (gm G)) with
        | None => None
        | Some es =>
            match sequence_to_string (map U64 offs) o1, sequence_to_string (map U32 es) o2 with
            | Some a, Some b => Some (line header_adj ++ line (print (gn G)) ++ line (print (gm G)) ++ a ++ b)
            | _, _ => None
            end
        end
    end.
End Reorder.

(* -- graph_io.cc:17-28, 254-269 read_unweighted_edge_list ------------------------------------------- *)
Fixpoint drop_line (s : list char) : list char :=
  match s with [] => [] | c :: s => if c =? 10 then s else drop_line s end.
(* 17-28: skip the lines at the top that are empty or begin with '#' *)
Fixpoint skip_comments (fuel : nat) (s : list char) : list char :=
  match fuel with
  | 0 => s
  | S fuel => match s with
              | [] => []
              | c :: _ => if (c =? 10) || (c =? 35) then skip_comments fuel (drop_line s) else s
              end
  end.
(* operator>> into a uintE succeeds on a token of digits below 2^32 (the prefix of a token that begins with
   digits is not read here) *)
Definition numeric (t : list char) : bool := forallb (fun c => (48 <=? c) && (c <? 58)) t && (parse_N t <? 2 ^ 32)%N.
Fixpoint read_pairs (tk : list (list char)) : list (nat * nat) :=
  match tk with
  | a :: b :: tk => if numeric a && numeric b then (parse a, parse b) :: read_pairs tk else []
  | _ => []
  end.
Definition read_unweighted_edge_list (s : list char) : list (nat * nat) :=
  read_pairs (map_tokens (skip_comments (length s) s)).
