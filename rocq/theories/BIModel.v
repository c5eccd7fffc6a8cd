(* Model of Tarjan-Vishkin biconnectivity,
   benchmarks/Biconnectivity/TarjanVishkin/Biconnectivity.h, and of the labelling of edges in
   benchmarks/Biconnectivity/TarjanVishkin/Biconnectivity.cc.

   outn v: the neighbours of v in a symmetric graph on the vertices 0 .. n-1.  Arrays are
   functions or lists; UINT_E_MAX is None.  Sizes and preorder numbers are at most n and so fit
   into uintE.  write_min, write_max, write_add and fetch_and_add are atomic (C11, C12); their
   calls inside one parallel loop happen in an arbitrary order.  parlay's sort, filter, pack and
   scan are given by their results. *)
From Coq Require Import ZArith Sorting.Sorted.
From Verif Require Import Base VSModel VSSpec EMModel FAModel GBModel UFModel UFSys UFProps.
Local Open Scope nat_scope.

Section Bicc.
  Variable n : nat.
  Variable outn : nat -> list nat.

  (* the directed edges, in the order of the loops over the vertices *)
  Definition all_arcs : list (nat * nat) := flat_map (fun u => map (fun v => (u, v)) (outn u)) (seq 0 n).

  (* SimpleUnionAsync/Connectivity.h:119-132 SimpleUnionAsync (pred always true) and 137-152
     CC_predicate: a possible result *)
  Definition cc_result (mx : nat) (pred : nat * nat -> bool) (L : nat -> nat) : Prop :=
    exists sched1 sched2,
      let E := filter pred all_arcs in
      let s1 := exec n sched1 (init (fun x => x) (map (fun e => unite mx FindCompress USimple (fst e) (snd e)) E)) in
      let s2 := exec n sched2 (init (par (fst s1)) (label_pass n find_compress)) in
      all_returned s1 (length E) /\ all_returned s2 n /\ L = par (fst s2).

  (* Biconnectivity.h:418-429 cc_sources: the write_mins in the order given, then the filter *)
  Definition min_flag (L : nat -> nat) (flags : list (option nat)) (i : nat) : list (option nat) :=
    lset flags (L i) (Some match nth (L i) flags None with None => i | Some x => Nat.min x i end).
  Definition cc_sources (L : nat -> nat) (order : list nat) : list nat :=
    flat_map (fun o => match o with Some x => [x] | None => [] end)
      (fold_left (min_flag L) order (repeat None (n + 1))).

  (* lines 316-329 BC_BFS_F and 331-346 multi_bfs.  update stores without looking at the old
     value; it is called only after cond, by the one task that pulls d, which then stops: the
     same effect as the visit-once function of FAModel.  k rounds done *)
  Definition multi_flags : eflags := {| f_dense_only := false; f_no_dense := false; f_dense_forward := false; f_dense_parallel := false |}.
  Inductive multi_loop (m : nat) (srcs : list nat) : nat -> pstate -> vset unit -> Prop :=
  | multi_start : multi_loop m srcs 0 (fold_left (fun p s => fset p s (Some s)) srcs (fun _ => None)) (vs_sparse n (plain srcs))
  | multi_round : forall k p U p' U', multi_loop m srcs k p U -> size U <> 0 ->
      edgeMap_visit n outn outn m None multi_flags U p p' U' -> multi_loop m srcs (S k) p' U'.
  Definition multi_bfs (m : nat) (srcs : list nat) (p : pstate) : Prop :=
    exists k U, multi_loop m srcs k p U /\ size U = 0.

  Section Parents.
    Variable P : nat -> nat.        (* Parents *)

    (* lines 101-114: the tree edges (parent, child), before and after the sort *)
    Definition tree_edges : list (edge unit) :=
      map (fun i => (P i, i, tt)) (filter (fun i => negb (P i =? i)) (seq 0 n)).
    (* lines 116-122: the stores of starts, which are to different indices *)
    Definition start_stores (es : list (edge unit)) : list (nat * option nat) :=
      flat_map (fun i => if (i =? 0) || negb (nth_src es i =? nth_src es (i - 1)) then [(nth_src es i, Some i)] else [])
        (seq 0 (length es)).
    (* lines 123-131: the loop from the back; starts[n] is set, so that nothing behind the array is read *)
    Definition back_fill (st : list (option nat)) : list nat :=
      fold_right (fun o acc => match o with Some x => x | None => nth 0 acc 0 end :: acc) [] st.
    Definition starts_of (es : list (edge unit)) (order : list (nat * option nat)) : option (list nat) :=
      match run_stores order (repeat None (n + 1)) with
      | None => None
      | Some arr => Some (back_fill (lset arr n (Some (length es))))
      end.
    (* lines 135-164: nghs and the out-neighbours of v in Tree *)
    Definition children_of (es : list (edge unit)) (starts : list nat) (v : nat) : list nat :=
      firstn (nth (v + 1) starts 0 - nth v starts 0) (skipn (nth v starts 0) (map (fun e => dst e) es)).

    Variable ch : nat -> list nat.  (* the out-neighbours in Tree *)
    (* lines 171-177 *)
    Definition leafs : list nat := filter (fun i => negb (P i =? i) && (length (ch i) =? 0)) (seq 0 n).

    (* lines 40-59 AugF and 61-92 MinMaxF: one call for the tree edge from c to its parent, with
       comb the combination with the value of the child.  The values of the vertices of the
       frontier do not change during a round, so a call is one step. *)
    Section Leaffix.
      Context {A : Type}.
      Variable comb : A -> A -> A.
      Record lstate := { lval : nat -> A; lct : nat -> Z; lout : list nat }.
      Definition lvisit (s : lstate) (c : nat) : lstate :=
        let d := P c in
        let ct := (lct s d - 1)%Z in
        {| lval := fset (lval s) d (comb (lval s d) (lval s c)); lct := fset (lct s) d ct;
           lout := if (ct =? 0)%Z then d :: lout s else lout s |}.
      (* lines 169-190, 293-305: the loop, k rounds done, with the frontier F.  edgeMap over the
         in-edges of Tree calls the function once for every vertex of F that has a parent (C17),
         in the order given, and outputs the d for which it returned true *)
      Inductive leaffix (val0 : nat -> A) : nat -> (nat -> A) -> (nat -> Z) -> list nat -> Prop :=
      | leaf_start : leaffix val0 0 val0 (fun v => Z.of_nat (length (ch v))) leafs
      | leaf_round : forall k val ct F order F',
          leaffix val0 k val ct F -> F <> [] ->
          Permutation order (filter (fun c => negb (P c =? c)) F) ->
          let s := fold_left lvisit order {| lval := val; lct := ct; lout := [] |} in
          Permutation F' (lout s) ->
          leaffix val0 (S k) (lval s) (lct s) F'.
      Definition leaffix_result (val0 val : nat -> A) : Prop := exists k ct, leaffix val0 k val ct [].
    End Leaffix.

    (* lines 167-190 *)
    Definition sizes_result (sz : nat -> nat) : Prop := leaffix_result Nat.add (fun _ => 1) sz.

    (* lines 218-250: the numbers of the children of one vertex, one after the other or, if there
       are at least cut (4000) of them, by a scan *)
    Fixpoint number (sz : nat -> nat) (pn : nat -> nat) (x : nat) (cs : list nat) : nat -> nat :=
      match cs with
      | [] => pn
      | c :: cs => number sz (fset pn c x) (x + sz c) cs
      end.
    Fixpoint scan (x : nat) (l : list nat) : list nat :=
      match l with [] => [] | a :: l => x :: scan (x + a) l end.
    Definition number_scan (sz : nat -> nat) (pn : nat -> nat) (x : nat) (cs : list nat) : nat -> nat :=
      fold_left (fun pn ca => fset pn (fst ca) (x + snd ca)) (combine cs (scan 0 (map sz cs))) pn.
    Definition number_children (cut : nat) (sz : nat -> nat) (pn : nat -> nat) (v : nat) : nat -> nat :=
      if length (ch v) <? cut then number sz pn (pn v + 1) (ch v) else number_scan sz pn (pn v + 1) (ch v).
    (* lines 197-252: k rounds done; the vertices of the frontier in the order given *)
    Inductive preorder (cut : nat) (srcs : list nat) (sz pn0 : nat -> nat) : nat -> (nat -> nat) -> list nat -> Prop :=
    | pre_start : preorder cut srcs sz pn0 0 (fold_left (fun pn s => fset pn s 0) srcs pn0) srcs
    | pre_round : forall k pn F order, preorder cut srcs sz pn0 k pn F -> F <> [] -> Permutation order F ->
        preorder cut srcs sz pn0 (S k) (fold_left (number_children cut sz) order pn) (flat_map ch F).
    Definition preorder_result (cut : nat) (srcs : list nat) (sz pn : nat -> nat) : Prop :=
      exists pn0 k, preorder cut srcs sz pn0 k pn [].

    (* lines 259-263 *)
    Definition mm_start (sz pn : nat -> nat) (i : nat) : nat * nat := (pn i, pn i + sz i - 1).
    (* lines 266-286: map_f, the comparisons (index, number) of all edges *)
    Definition mm_calls (pn : nat -> nat) : list (nat * nat) :=
      flat_map (fun e => let '(u, v) := e in
                 if u <? v then
                   if (u =? P v) || (v =? P u) then [] else [(v, pn u); (u, pn v)]
                 else []) all_arcs.
    Definition mm_call (mm : nat -> nat * nat) (c : nat * nat) : nat -> nat * nat :=
      let '(t, x) := c in
      let '(lo, hi) := mm t in
      if x <? lo then fset mm t (Nat.min lo x, hi)
      else if hi <? x then fset mm t (lo, Nat.max hi x)
      else mm.
    (* lines 61-92 *)
    Definition mm_comb (d s : nat * nat) : nat * nat := (Nat.min (fst d) (fst s), Nat.max (snd d) (snd s)).
    (* lines 256-305 *)
    Definition min_max_result (sz pn : nat -> nat) (mm : nat -> nat * nat) : Prop :=
      exists order, Permutation order (mm_calls pn) /\
        leaffix_result mm_comb (fold_left mm_call order (mm_start sz pn)) mm.

    (* lines 440-451: the parents with the critical edges marked.  top = TOP_BIT; ids are below it *)
    Variable top : nat.
    Definition critical (sz pn : nat -> nat) (mm : nat -> nat * nat) (i : nat) : bool :=
      let pi := P i in
      negb (pi =? i) && (pn pi <=? fst (mm i)) && (snd (mm i) <? pn pi + sz pi).
    Definition marked (sz pn : nat -> nat) (mm : nat -> nat * nat) (i : nat) : nat :=
      if critical sz pn mm i then P i + top else P i.
  End Parents.

  (* lines 453-465: e & VAL_MASK, !(e & TOP_BIT) *)
  Definition not_critical_edge (top : nat) (Q : nat -> nat) (uv : nat * nat) : bool :=
    let '(u, v) := uv in
    if v =? Q u mod top then Q u <? top
    else if Q v mod top =? u then Q v <? top
    else true.

  (* lines 94-314 preorder_number *)
  Definition preorder_number (cut : nat) (P : nat -> nat) (srcs : list nat) (mm : nat -> nat * nat) (pn sz : nat -> nat) : Prop :=
    exists es order starts,
      Permutation es (tree_edges P) /\ StronglySorted (fun a b => key_lt b a = false) es /\
      Permutation order (start_stores es) /\ starts_of es order = Some starts /\
      let ch := children_of es starts in
      sizes_result P ch sz /\ preorder_result ch cut srcs sz pn /\ min_max_result P ch sz pn mm.

  (* lines 502-543 Biconnectivity: a possible result (Parents, cc) *)
  Definition bicc_returns (m mx cut top : nat) (Q L : nat -> nat) : Prop :=
    exists L0 order p P mm pn sz,
      cc_result mx (fun _ => true) L0 /\ Permutation order (seq 0 n) /\
      let srcs := cc_sources L0 order in
      multi_bfs m srcs p /\ (forall v, v < n -> p v = Some (P v)) /\
      preorder_number cut P srcs mm pn sz /\
      Q = marked P top sz pn mm /\
      cc_result mx (not_critical_edge top Q) L.

  (* Biconnectivity.cc:63-78 bicc_label, on the (Parents & VAL_MASK, cc) of critical_connectivity
     (482-485); None = the assertion fails *)
  Definition bicc_label (top : nat) (Q L : nat -> nat) (u v : nat) : option nat :=
    if v =? Q u mod top then Some (L u)
    else if u =? Q v mod top then Some (L v)
    else if L u =? L v then Some (L u) else None.
  (* Biconnectivity.cc:84-88, 99-101, 130: the number of labels that occur *)
  Definition num_biccs (top : nat) (Q L : nat -> nat) : nat :=
    length (filter (fun l => existsb (fun e => match bicc_label top Q L (fst e) (snd e) with Some x => x =? l | None => false end) all_arcs)
              (seq 0 n)).
End Bicc.
