(* Model of the adjacency-graph text format (gbbs/graph_io.h, graph_io.cc) and of the
   direct-I/O reader (gbbs/io.cc).

   A character is its code (a nat), a text a list of characters.  parlay::map_tokens splits
   at white space; operator<< prints decimal numbers; parlay's chars_to_int_t adds up the
   digits.  Reading a token or array cell that does not exist is undefined: None.  Ids and
   counts are unbounded (no wrap-around at 2^32 or 2^64). *)
From Coq Require Import NArith ZArith.
From Verif Require Import Base GBModel.
Open Scope nat_scope.

Notation char := nat (only parsing).
(* isspace *)
Definition is_space (c : char) : bool := (c =? 32) || ((9 <=? c) && (c <=? 13)).
Fixpoint tokens_from (cur : list char) (s : list char) : list (list char) :=
  match s with
  | [] => if length cur =? 0 then [] else [cur]
  | c :: s' => if is_space c then (if length cur =? 0 then tokens_from [] s' else cur :: tokens_from [] s')
               else tokens_from (cur ++ [c]) s'
  end.
Definition map_tokens (s : list char) : list (list char) := tokens_from [] s.

(* decimal output of an unsigned and of a signed number *)
Fixpoint digits (fuel : nat) (x : N) : list char :=
  match fuel with
  | 0 => []
  | S fuel => if (x <? 10)%N then [48 + N.to_nat x] else digits fuel (x / 10) ++ [48 + N.to_nat (x mod 10)]
  end.
Definition print_N (x : N) : list char := digits (S (N.size_nat x)) x.
Definition print (x : nat) : list char := print_N (N.of_nat x).
Definition print_Z (z : Z) : list char := if (z <? 0)%Z then 45 :: print_N (Z.abs_N z) else print_N (Z.abs_N z).

(* chars_to_int_t on a token of digits *)
Definition parse_N (t : list char) : N := fold_left (fun r c => (10 * r + N.of_nat (c - 48))%N) t 0%N.
Definition parse (t : list char) : nat := N.to_nat (parse_N t).
(* std::stof on a token of the form -?digits, as the integer the float denotes: rounding to
   the nearest value with a 24-bit significand, ties to even *)
Definition f32 (z : Z) : Z :=
  (let a := Z.abs z in
   if a <? 2 ^ 24 then z
   else let e := Z.log2 a - 23 in
        let q := a / 2 ^ e in
        let r := a mod 2 ^ e in
        let half := 2 ^ (e - 1) in
        let q' := if r <? half then q else if half <? r then q + 1 else if Z.even q then q else q + 1 in
        Z.sgn z * (q' * 2 ^ e))%Z.
Definition stof (t : list char) : Z :=
  match t with
  | 45 :: t' => f32 (- Z.of_N (parse_N t'))
  | _ => f32 (Z.of_N (parse_N t))
  end.
(* the implicit conversion of the float to a 32-bit weight; out of range is undefined *)
Definition to_weight (z : Z) : option Z := if ((- 2 ^ 31 <=? z) && (z <? 2 ^ 31))%Z then Some z else None.

(* graph_io.h:60-64: AdjacencyGraph, WeightedAdjacencyGraph *)
Definition header_adj : list char := [65; 100; 106; 97; 99; 101; 110; 99; 121; 71; 114; 97; 112; 104].
Definition header_wgh : list char := [87; 101; 105; 103; 104; 116; 101; 100] ++ header_adj.

(* parlay::scan_inplace: exclusive prefix sums *)
Fixpoint scan_excl (acc : nat) (l : list nat) : list nat :=
  match l with [] => [] | x :: l' => acc :: scan_excl (acc + x) l' end.
Definition line (t : list char) : list char := t ++ [10].

(* graph_io.h:500-547 write_graph_to_file *)
Definition write_common {W} (header : list char) (G : csr W) : list (list char) :=
  let degs := map (fun i => nth i (gdeg G) 0) (seq 0 (gn G)) in
  header :: print (gn G) :: print (gm G) :: map print (scan_excl 0 degs) ++
  flat_map (fun i => map (fun x => print (fst x)) (neighbors G i)) (seq 0 (gn G)).
Definition write_unweighted (G : csr unit) : list char := flat_map line (write_common header_adj G).
Definition write_weighted (G : csr Z) : list char :=
  flat_map line (write_common header_wgh G ++
                 flat_map (fun i => map (fun x => print_Z (snd x)) (neighbors G i)) (seq 0 (gn G))).

(* graph_io.cc:35-98 parse_unweighted_graph (text), and :108-113 of the reader: degrees *)
Definition csr_of_offsets {W} (n m : nat) (offsets : list nat) (edges : list (nat * W)) : csr W :=
  {| gn := n; gm := m; goff := firstn n offsets;
     gdeg := map (fun i => nth (i + 1) offsets 0 - nth i offsets 0) (seq 0 n); gngh := edges |}.
Definition tok (tk : list (list char)) (i : nat) : list char := nth i tk [].
Definition read_unweighted (s : list char) : option (csr unit) :=
  let tk := map_tokens s in
  if length tk <? 3 then None else
  let n := parse (tok tk 1) in
  let m := parse (tok tk 2) in
  if length tk <? n + m + 3 then None else
  let offsets := map (fun i => parse (tok tk (i + 3))) (seq 0 n) ++ [m] in
  let edges := map (fun i => (parse (tok tk (i + n + 3)), tt)) (seq 0 m) in
  Some (csr_of_offsets n m offsets edges).

Fixpoint all_weights (l : list (nat * option Z)) : option (list (nat * Z)) :=
  match l with
  | [] => Some []
  | (v, Some w) :: l' => option_map (cons (v, w)) (all_weights l')
  | (_, None) :: _ => None
  end.
(* graph_io.h:615-680 parse_weighted_graph (text, 32-bit integer weights) *)
Definition read_weighted (s : list char) : option (csr Z) :=
  let tk := map_tokens s in
  if length tk <? 3 then None else
  let n := parse (tok tk 1) in
  let m := parse (tok tk 2) in
  if negb (length tk - 1 =? n + 2 * m + 2) then None else
  let offsets := map (fun i => parse (tok tk (i + 3))) (seq 0 n) ++ [m] in
  match all_weights (map (fun i => (parse (tok tk (i + n + 3)), to_weight (stof (tok tk (i + n + m + 3))))) (seq 0 m)) with
  | None => None
  | Some edges => Some (csr_of_offsets n m offsets edges)
  end.

(* graph_io.cc:139-194 and graph_io.h:155-222: the in-edges of a directed graph.  temp holds
   (target, source, weight); its cells are filled in the order of the edge array (the
   offsets of the parsed graph tile it).  sort_temp is parlay::integer_sort_inplace;
   INT_T_MAX is a parameter; last_cell is what tOffsets[n] holds before the scan: INT_T_MAX
   for unweighted graphs, and whatever was in memory for weighted ones, where the
   initialising loop stops at n.  order: an order of the parallel stores to tOffsets *)
Section Transpose.
  Variable W : Type.
  Variable int_max : nat.
  Variable sort_temp : list (edge W) -> list (edge W).
  Definition temp_of (G : csr W) : list (edge W) :=
    flat_map (fun i => map (fun x => (fst x, i, snd x)) (neighbors G i)) (seq 0 (gn G)).
  Definition tstores (temp : list (edge W)) : list (nat * nat) :=
    (nth_src temp 0, 0) ::
    flat_map (fun i => if negb (nth_src temp i =? nth_src temp (i - 1)) then [(nth_src temp i, i)] else [])
             (seq 1 (length temp - 1)).
  (* scan_inclusive with minimum (identity m) on the reversed array *)
  Fixpoint suffix_min (m : nat) (l : list nat) : list nat :=
    match l with
    | [] => []
    | x :: l' => let s := suffix_min m l' in Nat.min x (hd m s) :: s
    end.
  Definition in_graph (G : csr W) (last_cell : nat) (order : list (nat * nat)) : option (csr W) :=
    let temp := sort_temp (temp_of G) in
    if length temp =? 0 then None                    (* temp[0] *)
    else match run_stores order (repeat int_max (gn G) ++ [last_cell]) with
         | None => None
         | Some t => Some (csr_of_offsets (gn G) (gm G) (suffix_min (gm G) t) (get_neighbors temp))
         end.
End Transpose.

(* io.cc:81-146 read_o_direct.  pg: the page size; chunk: 1 GiB; read(fd, buf, k) returns
   the next min(k, rest) bytes.  The result is the buffer, of the length the function
   reports; None marks a byte that was never filled. *)
Section ODirect.
  Variable pg chunk : nat.
  Definition adjust (fsize sz rs : nat) : nat :=
    if fsize <? sz + rs then Nat.max ((fsize - sz) / pg * pg) pg else rs.
  Fixpoint od_loop (fuel fsize sz rs : nat) : option nat :=
    match fuel with
    | 0 => None
    | S fuel => if sz + rs <? fsize
                then let sz' := sz + Nat.min rs (fsize - sz) in od_loop fuel fsize sz' (adjust fsize sz' rs)
                else Some sz
    end.
  Definition read_o_direct {A} (file : list A) : option (list (option A)) :=
    let fsize := length file in
    match od_loop (S (S fsize)) fsize 0 (adjust fsize 0 chunk) with
    | None => None
    | Some sz =>
        let sz := if sz <? fsize then sz + Nat.min pg (fsize - sz) else sz in
        Some (map Some (firstn sz file) ++ repeat None (fsize - sz))
    end.
End ODirect.
