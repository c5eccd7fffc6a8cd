(* Model of benchmarks/CycleCounting/Parallel5Cycle/FiveCycle.h on the uncompressed unweighted graph
   (vi.neighbors is read as an array of ids).

   ulong is 64 bits and uintE 32 bits, both wrap around.  None: a memory access outside an array, or a
   division by zero.  Not modelled: the timers and the output, the sparsified graphs (lines 28-66). *)
From Coq Require Import ZArith Permutation Sorted.
From Verif Require Import Base GBModel ISModel SFModel TCModel.
Local Open Scope nat_scope.

Definition w32 (z : Z) : Z := (z mod 2 ^ 32)%Z.
Definition w64 (z : Z) : Z := (z mod 2 ^ 64)%Z.
(* a sequential loop over a list whose body can fail *)
Fixpoint iter {A S} (f : A -> S -> option S) (l : list A) (s : S) : option S :=
  match l with
  | [] => Some s
  | x :: l' => match f x s with Some s' => iter f l' s' | None => None end
  end.
(* the loops for (j = 0; (j < degree) && ((u = nghs[j]) > i); j++) visit these elements *)
Fixpoint take_gt (i : nat) (l : list nat) : list nat :=
  match l with [] => [] | x :: l' => if i <? x then x :: take_gt i l' else [] end.

(* 105-110 _linear_search *)
Fixpoint linear_search (less : nat -> bool) (l : list nat) : nat :=
  match l with [] => 0 | x :: l' => if less x then Datatypes.S (linear_search less l') else 0 end.
(* 116-124 the loop of _binary_search; the interval shrinks in every iteration, so that length l of them
   suffice *)
Definition binary_search_base : nat := 16.
Fixpoint search_loop (fuel : nat) (less : nat -> bool) (l : list nat) (s e : nat) : nat * nat :=
  match fuel with
  | 0 => (s, e)
  | Datatypes.S f => if binary_search_base <? e - s then
             let mid := s + (e - s) / 2 in
             if negb (less (nth mid l 0)) then search_loop f less l s mid else search_loop f less l (mid + 1) e
           else (s, e)
  end.
(* 113-127 _binary_search *)
Definition binary_search (less : nat -> bool) (l : list nat) : nat :=
  let (s, e) := search_loop (length l) less l 0 (length l) in
  s + linear_search less (firstn (e - s) (skipn s l)).
(* 335-341: w_vi_neighbors; the index is at most the degree *)
Definition is_neighbor (nghs : list nat) (w : nat) : Z :=
  let k := binary_search (fun arg => w <? arg) nghs in
  if (k <? length nghs) && (nth k nghs 0 =? w) then 1%Z else 0%Z.

(* 68-101 U_FastReset after alloc: the capacity of both arrays, U, and the first num_distinct entries of
   distinct *)
Record fast_reset := { vcap : nat; vU : nat -> Z; vD : list nat }.
(* 73-81 alloc: arrays that exist are kept *)
Definition alloc (n : nat) (V : option fast_reset) : fast_reset :=
  match V with Some V => V | None => {| vcap := n; vU := fun _ => 0%Z; vD := [] |} end.
(* 308-312 *)
Definition touch (w : nat) (V : fast_reset) : option fast_reset :=
  if w <? vcap V then
    if (vU V w =? 0)%Z then
      if length (vD V) <? vcap V then
        Some {| vcap := vcap V; vU := fset (vU V) w (w32 (vU V w + 1)); vD := vD V ++ [w] |}
      else None
    else Some {| vcap := vcap V; vU := fset (vU V) w (w32 (vU V w + 1)); vD := vD V |}
  else None.
(* 321, 351 U[w] -= 1, U[w] += 1 *)
Definition add_to (d : Z) (w : nat) (V : fast_reset) : option fast_reset :=
  if w <? vcap V then Some {| vcap := vcap V; vU := fset (vU V) w (w32 (vU V w + d)); vD := vD V |} else None.
(* 83-89 reset *)
Definition reset (V : fast_reset) : fast_reset :=
  {| vcap := vcap V; vU := fold_left (fun U w => fset U w 0%Z) (vD V) (vU V); vD := [] |}.

Section Kowalik.
  Variable g dg : nat -> list nat.     (* the neighbours in GDO and in DGDO *)

  (* 303-314 *)
  Definition mark (i : nat) (V : fast_reset) : option fast_reset :=
    iter (fun u V => iter touch (take_gt i (g u)) V) (take_gt i (g i)) V.
  (* 343-347 *)
  Definition add_paths (i u w : nat) (V : fast_reset) (temp : Z) : option Z :=
    iter (fun x temp => if x =? u then Some temp
                        else if x <? vcap V then Some (w64 (temp + w32 (vU V x - is_neighbor (g i) w))) else None)
         (take_gt i (dg w)) temp.
  (* 316-353 one iteration of the loop over u *)
  Definition visit_u (i u : nat) (s : fast_reset * Z) : option (fast_reset * Z) :=
    let (V, temp) := s in
    match iter (add_to (-1)) (take_gt i (g u)) V with
    | None => None
    | Some V1 =>
        match iter (fun w temp => add_paths i u w V1 temp) (take_gt i (g u)) temp with
        | None => None
        | Some temp' => match iter (add_to 1) (take_gt i (g u)) V1 with
                        | None => None
                        | Some V2 => Some (V2, temp')
                        end
        end
    end.
  (* 284-357 Count5CycleVertex *)
  Definition count_vertex (V : fast_reset) (i : nat) : option (Z * fast_reset) :=
    if length (g i) =? 0 then Some (0%Z, V)
    else match mark i V with
         | None => None
         | Some V1 => match iter (visit_u i) (take_gt i (g i)) (V1, 0%Z) with
                      | None => None
                      | Some (V2, temp) => Some (temp, reset V2)
                      end
         end.
  (* 525-528 and 429-431: vertices one after the other, with the same V, into one counter *)
  Definition count_range (l : list nat) (s : fast_reset * Z) : option (fast_reset * Z) :=
    iter (fun i (s : fast_reset * Z) => let (V, c) := s in
                     match count_vertex V i with None => None | Some (temp, V') => Some (V', w64 (c + temp)) end) l s.
  (* 519-533 Count5Cycle_serial *)
  Definition serial (n : nat) : option Z :=
    option_map snd (count_range (seq 0 n) (alloc n None, 0%Z)).

  (* The blocks of a parallel_for_alloc (bridge.h:80-92): block b runs on some worker, who b, with the
     static thread_local U_FastReset of that worker.  Blocks of different workers share nothing, those
     of the same worker run one after the other: the result is that of running them one after the other
     in the order given. *)
  Definition run_block (n : nat) (range : nat -> list nat) (who : nat -> nat) (b : nat)
      (s : (nat -> option fast_reset) * (nat -> Z)) : option ((nat -> option fast_reset) * (nat -> Z)) :=
    let (ws, counts) := s in
    match count_range (range b) (alloc n (ws (who b)), counts b) with
    | None => None
    | Some (V, c) => Some (fset ws (who b) (Some V), fset counts b c)
    end.
  Definition run_blocks (n nb : nat) (range : nat -> list nat) (who : nat -> nat) (order : list nat)
      (ws : nat -> option fast_reset) : option (Z * (nat -> option fast_reset)) :=
    match iter (run_block n range who) order (ws, fun _ => 0%Z) with
    | None => None
    | Some (ws', counts) => Some (fold_left (fun t b => w64 (t + counts b)) (seq 0 nb) 0%Z, ws')
    end.
  (* 539-584 Count5Cycle_no_scheduling (finish_V is not called, bridge.h:91) *)
  Definition no_scheduling (n : nat) (who : nat -> nat) (order : list nat) (ws : nat -> option fast_reset) : option (Z * (nat -> option fast_reset)) :=
    run_blocks n n (fun i => [i]) who order ws.
End Kowalik.

(* 380-413 and 959-983: the division into blocks; bsz: block_size (5000000, 50000) *)
Section Blocks.
  Variable bsz n : nat.
  Variable g : nat -> list nat.
  Definition work (i : nat) : nat := list_sum (map (fun v => length (g v)) (g i)).
  Definition scanned : list nat := map (sum_before work) (seq 0 n).
  Definition total_work : nat := sum_before work n.
  Definition work_per_block : nat := total_work / (total_work / bsz + 1).
  (* None: division by zero, line 413 *)
  Definition n_blocks : option nat :=
    if work_per_block =? 0 then None else Some (total_work / work_per_block + 1).
  (* 453-457: the vertices of block b *)
  Definition block (b : nat) : list nat :=
    let s := bsearch scanned (b * work_per_block) in
    let e := bsearch scanned ((b + 1) * work_per_block) in seq s (e - s).
End Blocks.

Section Preprocess.
  Variable G : csr unit.
  Definition nbrs (H : csr unit) (v : nat) : list nat := map fst (neighbors H v).
  (* 135-198 relabel_graph: vertex_to_order r, the offsets (the scan of the degrees), and the renamed
     neighbours of every vertex, each list sorted by parlay::sample_sort with the greatest first *)
  Definition relabeled (o : list nat) (H : csr unit) : Prop :=
    exists r rows, rank_nodes o r /\ length rows = gn G /\
      (forall i, i < gn G ->
        Permutation (nth i rows []) (map (fun x => (nth (fst x) r 0, snd x)) (neighbors G (nth i o 0))) /\
        StronglySorted (fun x y => fst y <= fst x) (nth i rows [])) /\
      let degree i := length (neighbors G (nth i o 0)) in
      H = {| gn := gn G; gm := sum_before degree (gn G);
             goff := map (sum_before degree) (seq 0 (gn G));
             gdeg := map (fun i => sum_before degree (i + 1) - sum_before degree i) (seq 0 (gn G));
             gngh := concat rows |}.
  (* 236-252 orderNodesByDegree: the vertices sorted by degree, the greatest first *)
  Definition by_decreasing_degree (o : list nat) : Prop :=
    Permutation o (seq 0 (gn G)) /\
    forall i j, i <= j < gn G -> length (neighbors G (nth j o 0)) <= length (neighbors G (nth i o 0)).
  (* 257-278 Preprocess, and 371-374: GDO and DGDO, for the ranks rank (a result of line 270-274) *)
  Definition directed_by (rank : list nat) (GDO DGDO : csr unit) : Prop :=
    exists shuffle junk, (forall l, Permutation (shuffle l) l) /\
      filter_graph (fun u x => nth u rank 0 <? nth (fst x) rank 0) shuffle junk GDO = Some DGDO.
  Definition preprocess (rank : list nat) (GDO DGDO : csr unit) : Prop :=
    (exists o, by_decreasing_degree o /\ relabeled o GDO) /\ directed_by rank GDO DGDO.

  (* 481-533 *)
  Definition count5_serial (rank : list nat) (out : option Z) : Prop :=
    exists GDO DGDO, preprocess rank GDO DGDO /\ out = serial (nbrs GDO) (nbrs DGDO) (gn G).
  (* 539-584; ws: the thread_local structures left by earlier calls *)
  Definition count5_no_scheduling (rank : list nat) (ws : nat -> option fast_reset) (out : option (Z * (nat -> option fast_reset))) : Prop :=
    exists GDO DGDO who order, preprocess rank GDO DGDO /\ Permutation order (seq 0 (gn G)) /\
      out = no_scheduling (nbrs GDO) (nbrs DGDO) (gn G) who order ws.
  (* 362-476 Count5Cycle *)
  Definition count5 (bsz : nat) (rank : list nat) (ws : nat -> option fast_reset) (out : option (Z * (nat -> option fast_reset))) : Prop :=
    exists GDO DGDO, preprocess rank GDO DGDO /\
      match n_blocks bsz (gn G) (nbrs GDO) with
      | None => out = None
      | Some nb => exists who order, Permutation order (seq 0 nb) /\
          out = run_blocks (nbrs GDO) (nbrs DGDO) (gn G) nb (block bsz (gn G) (nbrs GDO)) who order ws
      end.
End Preprocess.

Section Escape.
  Variable n : nat.
  Variable g outg ing : nat -> list nat.     (* the neighbours in GDO, OUTG and ING *)
  (* an update of U, an array of n entries *)
  Definition upd (f : Z -> Z) (w : nat) (U : nat -> Z) : option (nat -> Z) :=
    if w <? n then Some (fset U w (f (U w))) else None.
  (* 779-800 (993-1012) the two loops over wedges from i, with U[vk] = f(U[vk]) *)
  Definition wedges (f : Z -> Z) (i : nat) (U : nat -> Z) : option (nat -> Z) :=
    match iter (fun vj U => iter (upd f) (outg vj) U) (outg i) U with
    | None => None
    | Some U1 => iter (fun vj U => iter (upd f) (g vj) U) (ing i) U1
    end.
  (* 834-842: parlay::binary_search(nghs_seq, less) is the first index for which less is false *)
  Definition has (nghs : list nat) (w : nat) : Z :=
    let k := linear_search (fun arg => w <? arg) nghs in
    if (k <? length nghs) && (nth k nghs 0 =? w) then 1%Z else 0%Z.
  (* 804-848 the sum for i *)
  Definition close_paths (i : nat) (U : nat -> Z) : option Z :=
    iter (fun vj tmp => if length (g vj) =? 0 then Some tmp else
      iter (fun vk tmp =>
        iter (fun vl tmp => if (vl =? i) || (vl =? vj) then Some tmp
                            else if vl <? n then Some (w64 (w64 (w64 (tmp + U vl) - has (g i) vk) - has (g vj) vl)) else None)
             (outg vk) tmp)
        (ing vj) tmp) (ing i) 0%Z.
  (* 762-874 one iteration of the loop over i *)
  Definition escape_vertex (i : nat) (s : (nat -> Z) * Z) : option ((nat -> Z) * Z) :=
    let (U, c) := s in
    if length (g i) =? 0 then Some (U, c)
    else match wedges (fun x => w32 (x + 1)) i U with
         | None => None
         | Some U1 =>
             let U2 := fset U1 i 0%Z in
             match close_paths i U2 with
             | None => None
             | Some tmp => match wedges (fun _ => 0%Z) i U2 with
                           | None => None
                           | Some U3 => Some (U3, w64 (c + tmp))
                           end
             end
         end.
  (* 758-880: one U for all vertices *)
  Definition escape_serial : option Z := option_map snd (iter escape_vertex (seq 0 n) ((fun _ => 0%Z), 0%Z)).
  (* 985-1095: a fresh U for every vertex, one counter per block *)
  Definition escape_block (range : nat -> list nat) (b : nat) (counts : nat -> Z) : option (nat -> Z) :=
    match iter (fun i c => option_map snd (escape_vertex i ((fun _ => 0%Z), c))) (range b) (counts b) with
    | None => None
    | Some c => Some (fset counts b c)
    end.
  Definition escape_blocks (nb : nat) (range : nat -> list nat) (order : list nat) : option Z :=
    match iter (escape_block range) order (fun _ => 0%Z) with
    | None => None
    | Some counts => Some (fold_left (fun t b => w64 (t + counts b)) (seq 0 nb) 0%Z)
    end.
End Escape.

Section EscapeProgram.
  Variable G : csr unit.
  (* 728-757 (903-934): order_to_vertex from the ranks (order_type 0, 1), or by decreasing degree;
     GDO, OUTG and ING *)
  Definition escape_graphs (GDO OUTG ING : csr unit) : Prop :=
    exists o, Permutation o (seq 0 (gn G)) /\ relabeled G o GDO /\
      exists sh1 sh2 junk1 junk2, (forall l, Permutation (sh1 l) l) /\ (forall l, Permutation (sh2 l) l) /\
        filter_graph (fun u x => u <? fst x) sh1 junk1 GDO = Some OUTG /\
        filter_graph (fun u x => fst x <? u) sh2 junk2 GDO = Some ING.
  (* 716-886 Count5Cycle_ESCAPE *)
  Definition count5_escape (out : option Z) : Prop :=
    exists GDO OUTG ING, escape_graphs GDO OUTG ING /\ out = escape_serial (gn G) (nbrs GDO) (nbrs OUTG) (nbrs ING).
  (* 891-1097 Count5Cycle_ESCAPE_par *)
  Definition count5_escape_par (bsz : nat) (out : option Z) : Prop :=
    exists GDO OUTG ING, escape_graphs GDO OUTG ING /\
      match n_blocks bsz (gn G) (nbrs GDO) with
      | None => out = None
      | Some nb => exists order, Permutation order (seq 0 nb) /\
          out = escape_blocks (gn G) (nbrs GDO) (nbrs OUTG) (nbrs ING) nb (block bsz (gn G) (nbrs GDO)) order
      end.
End EscapeProgram.
