(* Model of benchmarks/MaximalMatching/RandomGreedy/MaximalMatching.h.

   outw u: the neighbours of u with the weights of the edges.  Vertices are below 2^31, so that the
   TOP_BIT of the first endpoint is free to mark an edge; marks are modelled as a separate set of
   edge indices.  UINT_E_MAX in R is None.  The final masking with VAL_MASK (234-239) removes the marks. *)
From Coq Require Import Permutation.
From Verif Require Import Base GBModel MIModel.

Section MM.
  Variable W : Type.
  Variable w0 : W.                     (* W() *)
  Variable n : nat.
  Variable outw : nat -> list (nat * W).
  Definition medge : Type := (nat * nat * W)%type.
  Definition eu (e : medge) : nat := fst (fst e).
  Definition ev (e : medge) : nat := snd (fst e).

  (* -- 78-182 get_edges ------------------------------------------------------------------- *)
  Section GetEdges.
    Variable matched : nat -> bool.
    Variable first : bool.               (* round == 0 *)
    (* 85-95 live_degree before the scan *)
    Definition live_degree (i : nat) : nat :=
      if matched i then 0 else length (filter (fun vw => (first || negb (matched (fst vw))) && (i <? fst vw)) (outw i)).
    (* 98 scan_inplace: live_degree[i] afterwards, and tot *)
    Definition live (i : nat) : nat := list_sum (map live_degree (seq 0 i)).
    Definition tot : nat := live n.
    (* 104-115: the indices of the edges to extract: all, or k sorted samples *)
    Definition indices_ok (k : nat) (idxs : list nat) : Prop :=
      if tot <? k then idxs = seq 0 tot
      else length idxs = k /\ (forall i j, i <= j < k -> nth i idxs 0 <= nth j idxs 0) /\ forall i, i < k -> nth i idxs 0 < tot.

    Variable idxs : list nat.            (* indices; k = their number after line 108 *)
    Notation k := (length idxs).
    (* parlay::binary_search, linear_search on the increasing live_degree: the first position from
       cur on whose value is not less than idx, or the length *)
    Definition search (cur idx : nat) : nat :=
      match find (fun c => idx <=? live c) (seq cur (n - cur)) with Some c => c | None => n end.
    (* 139-140, 145-146: our_edge_end.  None = read past the end of live_degree *)
    Definition edge_end (idx c : nat) : option nat :=
      if idx =? n - 1 then Some tot else if S c <? n then Some (live (S c)) else None.
    (* 139-148: skip vertices of degree 0 *)
    Fixpoint skip (fuel idx c : nat) : option nat :=
      match fuel with
      | 0 => None
      | S f => if c <? n then
                 match edge_end idx c with
                 | None => None
                 | Some e => if e - live c =? 0 then skip f idx (S c) else Some c
                 end
               else None
      end.
    Definition write : Type := (nat * medge)%type.
    (* 156-169 map_f on one neighbour: ctr, target (None = max of size_t), offset, writes to out *)
    Definition pick (c : nat) (st : nat * option nat * nat * list write) (vw : nat * W) : nat * option nat * nat * list write :=
      let '(ctr, target, offset, ws) := st in
      if negb (matched (fst vw)) && (c <? fst vw) then
        if (match target with Some t => t =? ctr | None => false end)
        then (S ctr, if S offset <? k then Some (nth (S offset) idxs 0) else None, S offset, ws ++ [(offset, (c, fst vw, snd vw))])
        else (S ctr, target, offset, ws)
      else st.
    (* 130-176: one iteration of the loop of a block: i, cur_id -> i, cur_id, writes.
       None = undefined behaviour *)
    Definition block_iter (i cur : nat) : option (nat * nat * list write) :=
      let idx := nth i idxs 0 in
      let c1 := search cur idx in
      if c1 <? n then
        match skip (S n) idx (if idx <? live c1 then c1 - 1 else c1) with
        | None => None
        | Some c =>
            if (i =? 0) || (nth (i - 1) idxs 0 <? live c) then
              let '(_, _, offset, ws) := fold_left (pick c) (outw c) (live c, Some idx, i, []) in
              Some (offset, c, ws)
            else Some (S i, c, [])
        end
      else None.
    (* outer None = not finished within fuel iterations, inner None = undefined behaviour *)
    Fixpoint block_loop (fuel stop i cur : nat) (ws : list write) : option (option (list write)) :=
      if i <? stop then
        match fuel with
        | 0 => None
        | S f => match block_iter i cur with
                 | None => Some None
                 | Some (i', cur', ws') => block_loop f stop i' cur' (ws ++ ws')
                 end
        end
      else Some (Some ws).
    (* 121-128: block b of size bs = 2^16 *)
    Definition block (bs fuel b : nat) : option (option (list write)) :=
      block_loop fuel (Nat.min k ((b + 1) * bs)) (b * bs) (search 0 (nth (b * bs) idxs 0)) [].
    Definition num_blocks (bs : nat) : nat := (k + bs - 1) / bs.
    (* the blocks run in parallel: their writes reach out in any order *)
    Definition extracted (bs : nat) (E : list medge) : Prop :=
      exists wss order, length wss = num_blocks bs /\
        (forall b, b < num_blocks bs -> exists fuel, block bs fuel b = Some (Some (nth b wss []))) /\
        Permutation order (concat wss) /\ run_stores order (repeat (0, 0, w0) k) = Some E.
    (* some block never finishes *)
    Definition hangs (bs : nat) : Prop := exists b, b < num_blocks bs /\ forall fuel, block bs fuel b = None.
  End GetEdges.
  Definition get_edges (bs k : nat) (matched : nat -> bool) (first : bool) (E : list medge) : Prop :=
    exists idxs, indices_ok matched first k idxs /\ extracted matched first idxs bs E.

  (* -- 36-70 matchStep -------------------------------------------------------------------- *)
  Record mstate := { mR : nat -> option nat; mM : nat -> bool; mmark : nat -> bool }.
  Section Step.
    Variable E : list medge.
    Definition enth (i : nat) : medge := nth i E (0, 0, w0).
    (* 44-51 reserve: does it return 1? *)
    Definition is_live (M : nat -> bool) (i : nat) : bool :=
      negb (M (eu (enth i)) || M (ev (enth i)) || (eu (enth i) =? ev (enth i))).
    (* reserveLoc = write_min, an atomic minimum (C02) *)
    Definition reserve_loc (R : nat -> option nat) (xi : nat * nat) : nat -> option nat :=
      fset R (fst xi) (match R (fst xi) with Some j => if snd xi <? j then Some (snd xi) else Some j | None => Some (snd xi) end).
    Definition oeq (a : option nat) (i : nat) : bool := match a with Some j => j =? i | None => false end.
    (* 53-69 commit *)
    Definition commit (st : mstate * list nat) (i : nat) : mstate * list nat :=
      let '({| mR := R; mM := M; mmark := mk |}, won) := st in
      let u := eu (enth i) in let v := ev (enth i) in
      if oeq (R v) i then
        let R1 := fset R v None in
        if oeq (R1 u) i
        then ({| mR := fset R1 u None; mM := fset (fset M v true) u true; mmark := fset mk i true |}, i :: won)
        else ({| mR := R1; mM := M; mmark := mk |}, won)
      else if oeq (R u) i then ({| mR := fset R u None; mM := M; mmark := mk |}, won)
      else (st).
    (* one round of eff_for.  The reserve loop only reads the matched bits, which do not change before
       the commit loop; its minimum-writes happen in some order.  The commit loop runs
       the iterations in some order: an iteration i only looks at whether two cells of R hold i, and only
       changes cells that do, so that the interleaving of their accesses does not matter. *)
    Definition mm_round (I : list nat) (st st' : mstate) (keep : list bool) : Prop :=
      let lv := filter (is_live (mM st)) I in
      exists stores order won,
        Permutation stores (flat_map (fun i => [(eu (enth i), i); (ev (enth i), i)]) lv) /\
        Permutation order lv /\
        fold_left commit order ({| mR := fold_left reserve_loc stores (mR st); mM := mM st; mmark := mmark st |}, []) = (st', won) /\
        keep = map (fun i => is_live (mM st) i && negb (existsb (Nat.eqb i) won)) I.
  End Step.

  (* -- 189-246 MaximalMatching ------------------------------------------------------------- *)
  Variable bs : nat.                   (* kBlockSize, 2^16 *)
  Variable k : nat.                    (* max(3n/2, 2^20) *)
  (* 225-228 filter, append *)
  Definition marked_edges (E : list medge) (mk : nat -> bool) : list medge := map (enth E) (filter mk (seq 0 (length E))).
  Definition mm_init (R : nat -> option nat) (M : nat -> bool) : mstate := {| mR := R; mM := M; mmark := fun _ => false |}.
  (* 210-232: the loop; round, matched, R, matching before an iteration *)
  Inductive mm_loop : nat -> (nat -> bool) -> (nat -> option nat) -> list medge -> Prop :=
  | mm_start : mm_loop 0 (fun _ => false) (fun _ => None) []
  | mm_next : forall r M R res E st, mm_loop r M R res -> get_edges bs k M (r =? 0) E -> E <> [] ->
      eff_returns (mm_round E) 0 (length E) 50 (Some n) (mm_init R M) st ->
      mm_loop (S r) (mM st) (mR st) (res ++ marked_edges E (mmark st)).
  (* the possible outcomes: a result, an endless loop in get_edges, an abort in eff_for *)
  Definition mm_returns (res : list medge) : Prop := exists r M R, mm_loop r M R res /\ get_edges bs k M (r =? 0) [].
  Definition mm_hangs : Prop := exists r M R res idxs, mm_loop r M R res /\ indices_ok M (r =? 0) k idxs /\ hangs M (r =? 0) idxs bs.
  (* ... or undefined behaviour: a read past the end of live_degree *)
  Definition mm_undefined : Prop := exists r M R res idxs b fuel, mm_loop r M R res /\ indices_ok M (r =? 0) k idxs /\
    b < num_blocks idxs bs /\ block M (r =? 0) idxs bs fuel b = Some None.
  Definition mm_aborts : Prop := exists r M R res E, mm_loop r M R res /\ get_edges bs k M (r =? 0) E /\
    eff_aborts (mm_round E) 0 (length E) 50 (Some n) (mm_init R M).
End MM.
