(* Model of edgeMap: gbbs/edge_map_blocked.h (edgeMapChunked), gbbs/edge_map_data.h and
   the traversal primitives of gbbs/vertex.h.

   Part 1 is the chunked sparse traversal with an arbitrary edge function.
   Part 2 is the visit-once edge function (the shape of BFS_F and of most frontier
   algorithms) under every interleaving, for all traversal modes. *)
From Verif Require Import Base VSModel.

(* parlay::num_blocks(n, b) *)
Definition num_blocks (n b : nat) : nat := match n with O => O | _ => 1 + (n - 1) / b end.

(* ---------------------------------------------------------------------------- *)
(* Part 1                                                                         *)
Section Chunked.
  Variable X Y : Type.           (* a neighbour (with its weight); an output element *)
  Variable B : nat.              (* internal block size: vertex.h:428, compressed_vertex.h:284 *)
  Variable W : nat.              (* work_block_size, edge_map_blocked.h:236 *)
  Variable M : nat.              (* max_block_size, lines 232-233 *)
  Variable bdeg : nat -> nat -> nat.   (* block_degree of a vertex of given degree *)
  Variable ebs : nat -> nat.     (* edge_block_size as a function of the edge count, lines 367-369 *)

  (* The frontier: the neighbour list of its i-th vertex.  ans i j x: what f (cond, then
     updateAtomic, then the output functor) answers for the j-th neighbour of the i-th
     frontier vertex in this execution; None = nothing is written. *)
  Variable nghs : list (list X).
  Variable ans : nat -> nat -> X -> option Y.
  Definition deg (i : nat) : nat := length (nth i nghs []).

  (* lines 330-360: the blocks (i, j) = j-th block of the i-th vertex.  The scan of
     vertex_offs tiles the array blocks by vertices in order, which is this list. *)
  Definition blocks : list (nat * nat) :=
    flat_map (fun i => map (fun j => (i, j)) (seq 0 (num_blocks (deg i) B))) (seq 0 (length nghs)).

  (* parlay::scan_inclusive_inplace *)
  Fixpoint scan_incl (acc : nat) (l : list nat) : list nat :=
    match l with [] => [] | x :: l' => (acc + x) :: scan_incl (acc + x) l' end.
  (* lines 361-363 *)
  Definition degrees : list nat := scan_incl 0 (map (fun b => bdeg (deg (fst b)) (snd b)) blocks).
  Definition outEdgeCount : nat := nth (length blocks - 1) degrees 0.

  (* parlay::internal::binary_search(degrees, v, <): first index whose entry is not
     below v (degrees is sorted) *)
  Fixpoint lower_bound (l : list nat) (v : nat) : nat :=
    match l with [] => 0 | x :: l' => if x <? v then S (lower_bound l' v) else 0 end.

  Definition n_groups : nat := num_blocks outEdgeCount (ebs outEdgeCount).

  (* lines 384-394 *)
  Definition our_start (g : nat) : nat := lower_bound degrees (g * ebs outEdgeCount).
  Definition our_end (g : nat) : nat :=
    if g <? n_groups - 1 then lower_bound degrees ((g + 1) * ebs outEdgeCount) else length blocks.
  (* line 397: the work blocks of a group *)
  Definition work (g : nat) : list (nat * nat) :=
    if (our_start g =? our_end g) || (our_start g =? length blocks) then []
    else firstn (our_end g - our_start g) (skipn (our_start g) blocks).

  (* the edges of a block: positions [b*B, min(b*B+B, degree)); vertex.h:388-391 *)
  Definition block_edges (bl : nat * nat) : list (nat * nat * X) :=
    let '(i, b) := bl in
    let start := b * B in
    let stop := Nat.min (start + B) (deg i) in
    combine (map (fun j => (i, j)) (seq start (stop - start)))
            (firstn (stop - start) (skipn start (nth i nghs []))).

  (* lines 288-308 get_block_and_offset_for_group; the per-group vector of output blocks,
     current one first *)
  Definition get_block (vec : list (list Y)) : list (list Y) :=
    match vec with
    | [] => [[]]
    | cur :: rest => if M <? length cur + W then [] :: cur :: rest else vec
    end.

  (* vertex.h:386-403 decode_block: writes the successful answers compactly from offset =
     length of the current block.  Writing at an index >= M is a buffer overflow (None). *)
  Fixpoint decode_block (es : list (nat * nat * X)) (cur : list Y) : option (list Y) :=
    match es with
    | [] => Some cur
    | (i, j, x) :: es' =>
        match ans i j x with
        | None => decode_block es' cur
        | Some y => if length cur <? M then decode_block es' (cur ++ [y]) else None
        end
    end.

  (* lines 398-423 *)
  Fixpoint run_group (bs : list (nat * nat)) (vec : list (list Y)) : option (list (list Y)) :=
    match bs with
    | [] => Some vec
    | b :: bs' =>
        match get_block vec with
        | [] => None
        | cur :: rest =>
            match decode_block (block_edges b) cur with
            | None => None
            | Some cur' => run_group bs' (cur' :: rest)
            end
        end
    end.

  Fixpoint run_groups (gs : list nat) : option (list (list Y)) :=
    match gs with
    | [] => Some []
    | g :: gs' =>
        match run_group (work g) [], run_groups gs' with
        | Some vec, Some rest => Some (rev vec ++ rest)
        | _, _ => None
        end
    end.

  (* lines 310-457: the whole traversal; the output blocks are copied out in group order *)
  Definition edgeMapChunked : option (list Y) :=
    option_map (@concat Y) (run_groups (seq 0 n_groups)).
  (* the edges to which f is applied, group by group *)
  Definition processed : list (nat * nat * X) :=
    flat_map (fun g => flat_map block_edges (work g)) (seq 0 n_groups).
End Chunked.

(* vertex.h:80-84 block_degree of uncompressed neighbours *)
Definition plain_bdeg (B degree b : nat) : nat := Nat.min (b * B + B) degree - b * B.

(* ---------------------------------------------------------------------------- *)
(* Part 2: visit-once functions, as in benchmarks/BFS/NonDeterministicBFS/BFS.h:31-48:
     update(s,d):       if (par[d] == NONE) { par[d] = s; return 1; } else return 0;
     updateAtomic(s,d): return CAS(&par[d], NONE, s);
     cond(d):           return par[d] == NONE;                                       *)

(* a traversal thread: the remaining attempts (tag, s, d) in order and whether the next
   step is the CAS (after cond has answered true).
   [Brk]: decodeBreakEarly in parallel mode, vertex.h:275-296, where a false cond(d)
   ends the block, and an attempt whose source is not in the frontier only tests cond. *)
Record attempt := { tag : nat * nat; src : nat; dst : nat; active : bool }.
Inductive tstate := Test | DoCas.
Record tthread := { breaks : bool; todo : list attempt; pcs : tstate }.

Definition pstate := (nat -> option nat)%type.
Record estate := { epar : pstate; elog : list attempt; ethr : list tthread }.

(* one shared access: cond reads par[d]; updateAtomic is one CAS.  A success is logged
   with it: the slot written by the output functor is read only after the join. *)
Definition tstep (par : pstate) (log : list attempt) (th : tthread) : pstate * list attempt * tthread :=
  match todo th with
  | [] => (par, log, th)
  | a :: rest =>
      match pcs th with
      | Test =>
          match par (dst a) with
          | Some _ => (par, log, {| breaks := breaks th; todo := if breaks th then [] else rest; pcs := Test |})
          | None => (par, log, if active a
                               then {| breaks := breaks th; todo := todo th; pcs := DoCas |}
                               else {| breaks := breaks th; todo := rest; pcs := Test |})
          end
      | DoCas =>
          let th' := {| breaks := breaks th; todo := rest; pcs := Test |} in
          match par (dst a) with
          | None => (fset par (dst a) (Some (src a)), a :: log, th')
          | Some _ => (par, log, th')
          end
      end
  end.

Definition estep (s : estate) (t : nat) : estate :=
  match nth_error (ethr s) t with
  | None => s
  | Some th => let '(p, l, th') := tstep (epar s) (elog s) th in
               {| epar := p; elog := l; ethr := lset (ethr s) t th' |}
  end.
Definition eexec (sched : list nat) (s : estate) : estate := fold_left estep sched s.
Definition finished (s : estate) : Prop := Forall (fun th => todo th = []) (ethr s).
Definition estart (par : pstate) (ts : list tthread) : estate := {| epar := par; elog := []; ethr := ts |}.

Section Modes.
  Variable n : nat.
  Variable outn : nat -> list nat.      (* neighbours in traversal direction *)
  Variable inn : nat -> list nat.       (* against it *)
  Variable U : vset unit.               (* the frontier *)

  (* edgeMapChunked over the sparse frontier: one thread per group *)
  Definition sparse_nghs : list (list nat) := map (fun i => outn (fst (nth i (vs U) (0, tt)))) (seq 0 (vm U)).
  Definition chunk_threads (B : nat) (bdeg : nat -> nat -> nat) (ebs : nat -> nat) : list tthread :=
    map (fun g => {| breaks := false;
                     todo := map (fun e => {| tag := fst e; src := fst (nth (fst (fst e)) (vs U) (0, tt));
                                              dst := snd e; active := true |})
                                 (flat_map (block_edges B sparse_nghs) (work B bdeg ebs sparse_nghs g));
                     pcs := Test |})
        (seq 0 (n_groups B bdeg ebs sparse_nghs)).
  (* the answers of f in an execution: which attempts were logged *)
  Definition logged (log : list attempt) (i j : nat) : bool :=
    existsb (fun a => (fst (tag a) =? i) && (snd (tag a) =? j)) log.
  Definition chunk_answer (log : list attempt) (i j x : nat) : option (nat * unit) :=
    if logged log i j then Some (x, tt) else None.
  (* lines 310-457 *)
  Definition chunk_output (B W M : nat) (bdeg : nat -> nat -> nat) (ebs : nat -> nat) (log : list attempt)
    : option (vset unit) :=
    option_map (fun out => vs_sparse n out)
      (edgeMapChunked B W M bdeg ebs sparse_nghs (chunk_answer log)).

  (* edge_map_data.h:86-126 edgeMapDenseForward, vertex.h:301-311 decode: every frontier
     edge is an independent task *)
  Definition forward_threads : list tthread :=
    flat_map (fun i => if isIn tt U i
                       then map (fun jd => {| breaks := false;
                                  todo := [{| tag := (i, fst jd); src := i; dst := snd jd; active := true |}];
                                  pcs := Test |})
                                (combine (seq 0 (length (outn i))) (outn i))
                       else []) (seq 0 n).
  (* edge_map_data.h:43-80 edgeMapDense, vertex.h:260-297 decodeBreakEarly.  [big v]: the
     dense_parallel flag is set and v has at least 1000 in-neighbours, so that its
     in-neighbours are processed in parallel blocks of K (lines 277-296).  The cond tests
     of edge_map_data.h:58 and vertex.h:281 only drop work when par[v] is already set, in
     which case the block's own first test (line 285) stops it as well. *)
  Variable big : nat -> bool.
  Definition pull_threads (K : nat) : list tthread :=
    flat_map (fun v => if big v then
      map (fun b => {| breaks := true;
                       todo := map (fun js => {| tag := (v, fst js); src := snd js; dst := v;
                                                  active := isIn tt U (snd js) |})
                                   (firstn K (skipn (b * K) (combine (seq 0 (length (inn v))) (inn v))));
                       pcs := Test |})
          (seq 0 (length (inn v) / K + 1)) else []) (seq 0 n).
  (* the other vertices (vertex.h:264-274): iteration v only touches par[v], so it is a
     sequential loop per vertex: result (par[v], next[v]) *)
  Fixpoint pull_loop (l : list nat) (pv : option nat) (nx : bool) : option nat * bool :=
    match l with
    | [] => (pv, nx)
    | s :: l' =>
        let '(pv, nx) := if isIn tt U s
                         then match pv with None => (Some s, true) | Some _ => (pv, nx) end
                         else (pv, nx) in
        match pv with Some _ => (pv, nx) | None => pull_loop l' pv nx end
    end.
  Definition pull_vertex (par : pstate) (v : nat) : option nat * bool :=
    match par v with None => pull_loop (inn v) None false | Some _ => (par v, false) end.
  (* final parents, from the initial ones and the final state of the parallel blocks *)
  Definition pull_par (par0 : pstate) (s : estate) : pstate :=
    fun v => if v <? n then if big v then epar s v else fst (pull_vertex par0 v) else par0 v.
  Definition pull_output (par0 : pstate) (s : estate) : vset unit :=
    vs_dense n (map (fun v => (if big v then existsb (fun a => dst a =? v) (elog s)
                               else snd (pull_vertex par0 v), tt)) (seq 0 n)).
  (* edgeMapDenseForward: next[d] = 1 for each success *)
  Definition forward_output (s : estate) : vset unit :=
    vs_dense n (map (fun v => (existsb (fun a => dst a =? v) (elog s), tt)) (seq 0 n)).
End Modes.

(* edge_map_data.h:131-190 edgeMapData: the choice of the traversal.  numEdges = GA.m;
   out_degrees is the number of edges out of the frontier (cached or computed).  The
   frontier after the conversions done on the way is returned with the choice. *)
Inductive choice := Nothing | Pull | Forward | Sparse.
Record eflags := { f_dense_only : bool; f_no_dense : bool; f_dense_forward : bool; f_dense_parallel : bool }.
Definition dense_choice (fl : eflags) : choice :=
  if f_dense_forward fl then Forward else Pull.
Definition edgeMap_choice (numEdges : nat) (threshold : option nat) (outn : nat -> list nat)
    (fl : eflags) (U : vset unit) : option (choice * vset unit) :=
  let dense_threshold := match threshold with Some t => t | None => numEdges / 20 end in
  if vm U =? 0 then Some (Nothing, U)
  else if f_dense_only fl || (isDense U && (vn U / 10 <? vm U)) then Some (dense_choice fl, toDense tt U)
  else match toSparse U with
       | None => None
       | Some U =>
           let out_degrees := list_sum (map (fun i => length (outn (fst (nth i (vs U) (0, tt))))) (seq 0 (vm U))) in
           if out_degrees =? 0 then Some (Nothing, U)
           else if (dense_threshold <? vm U + out_degrees) && negb (f_no_dense fl)
                then Some (dense_choice fl, toDense tt U)
                else Some (Sparse, U)
       end.
