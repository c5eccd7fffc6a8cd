(* Model of the spanning forests by breadth-first search:
   benchmarks/SpanningForest/BFSSF/SpanningForest.h and parents_to_edges of
   benchmarks/SpanningForest/common.h.

   None = UINT_E_MAX.  The graph is symmetric: the in-neighbours of the pull traversal are the
   out-neighbours.  Every read, write and compare-and-swap of parents and visited is one step
   of the task that executes it. *)
From Verif Require Import Base VSModel EMModel FAModel.

(* common.h:15-21 parents_to_edges *)
Definition parents_to_edges (n : nat) (par : pstate) : list (nat * nat) :=
  flat_map (fun i => match par i with
                     | Some p => if p =? i then [] else [(i, p)]
                     | None => []
                     end) (seq 0 n).

(* -- the nondeterministic version ------------------------------------------------------- *)
(* lines 33-45: BFS_SpanningForest_F is the visit-once function of EMModel.  Its non-atomic
   update does not test Parents[d]; it is only called after cond(d) was true, by the only
   task that writes Parents[d].
   lines 49-62 BFS_SpanningForest: the loop of BFS from the parents found so far.
   lines 65-75 SpanningForest: the loop over the first i vertices. *)
Inductive bfs_forest (n : nat) (outn : nat -> list nat) (m : nat) : nat -> pstate -> Prop :=
| forest_start : bfs_forest n outn m 0 (fun _ => None)
| forest_skip : forall i par, bfs_forest n outn m i par -> par i <> None -> bfs_forest n outn m (S i) par
| forest_search : forall i par k par' U, bfs_forest n outn m i par -> par i = None ->
    bfs_loop n outn outn m i par k par' U -> size U = 0 ->
    bfs_forest n outn m (S i) par'.
Definition bfs_forest_returns (n : nat) (outn : nat -> list nat) (m : nat) (T : list (nat * nat)) : Prop :=
  exists par, bfs_forest n outn m n par /\ T = parents_to_edges n par.

(* -- the deterministic version ------------------------------------------------------------ *)
(* where a task is in the processing of its first attempt *)
Inductive dpc :=
| VTest                        (* cond, lines 95 and 121: visited[d] *)
| VLoad | VCas (c : option nat) (* write_min of line 91, bridge.h:301-308 *)
| NLoad | NStore               (* update, lines 85-87 *)
| VRead | VSet.                (* lines 106-107 and 114-115 *)
(* dafter: what a task does once cond has answered true *)
Record dthread := { dbreaks : bool; dafter : dpc; dtodo : list attempt; dpcs : dpc }.
Record dstate := { dpar : pstate; dvis : nat -> bool; dlog : list attempt; dthr : list dthread }.

Definition pless (s : nat) (c : option nat) : bool := match c with None => true | Some c => s <? c end.
Definition peqb (a b : option nat) : bool :=
  match a, b with None, None => true | Some x, Some y => x =? y | _, _ => false end.

Definition dstep (s : dstate) (t : nat) : dstate :=
  match nth_error (dthr s) t with
  | None => s
  | Some th =>
      match dtodo th with
      | [] => s
      | a :: rest =>
          let goto pc := lset (dthr s) t {| dbreaks := dbreaks th; dafter := dafter th; dtodo := a :: rest; dpcs := pc |} in
          let next := lset (dthr s) t {| dbreaks := dbreaks th; dafter := dafter th; dtodo := rest; dpcs := VTest |} in
          let stop := lset (dthr s) t {| dbreaks := dbreaks th; dafter := dafter th; dtodo := []; dpcs := VTest |} in
          let only thr := {| dpar := dpar s; dvis := dvis s; dlog := dlog s; dthr := thr |} in
          let write := {| dpar := fset (dpar s) (dst a) (Some (src a)); dvis := dvis s; dlog := dlog s; dthr := next |} in
          match dpcs th with
          | VTest => only (if dvis s (dst a) then if dbreaks th then stop else next
                           else if active a then goto (dafter th) else next)
          | VLoad => only (if pless (src a) (dpar s (dst a)) then goto (VCas (dpar s (dst a))) else next)
          | VCas c => if peqb (dpar s (dst a)) c then write else only (goto VLoad)
          | NLoad => only (if pless (src a) (dpar s (dst a)) then goto NStore else next)
          | NStore => write
          | VRead => only (if peqb (dpar s (dst a)) (Some (src a)) then goto VSet else next)
          | VSet => {| dpar := dpar s; dvis := fset (dvis s) (dst a) true; dlog := a :: dlog s; dthr := next |}
          end
      end
  end.
Definition dexec (sched : list nat) (s : dstate) : dstate := fold_left dstep sched s.
Definition dfinished (s : dstate) : Prop := Forall (fun th => dtodo th = []) (dthr s).

(* the tasks of EMModel, each running the function that begins with [after] *)
Definition dtasks (after : dpc) (ts : list tthread) : list dthread :=
  map (fun th => {| dbreaks := breaks th; dafter := after; dtodo := todo th; dpcs := VTest |}) ts.
Definition dstart (par : pstate) (vis : nat -> bool) (ts : list dthread) : dstate :=
  {| dpar := par; dvis := vis; dlog := []; dthr := ts |}.
(* vertex.h:264-274: the vertices whose in-neighbours are processed by one sequential loop.
   The test of cond after each neighbour (and before the first, edge_map_data.h:58) is the
   test of the task before the next attempt. *)
Definition small_threads (n : nat) (inn : nat -> list nat) (U : vset unit) (big : nat -> bool) : list tthread :=
  map (fun v => {| breaks := true;
                   todo := map (fun js => {| tag := (v, fst js); src := snd js; dst := v; active := isIn tt U (snd js) |})
                               (combine (seq 0 (length (inn v))) (inn v));
                   pcs := Test |})
      (filter (fun v => negb (big v)) (seq 0 n)).

(* the two edge functions: after cond, in updateAtomic and in update *)
Inductive dfun := Det_F | Det_F_2.
Definition atomic_of (f : dfun) : dpc := match f with Det_F => VLoad | Det_F_2 => VRead end.
Definition plain_of (f : dfun) : dpc := match f with Det_F => NLoad | Det_F_2 => VRead end.

(* one edgeMap with the function f: also the converted frontier *)
Inductive edgeMap_det (n : nat) (outn : nat -> list nat) (m : nat) (f : dfun) (U : vset unit) (par : pstate) (vis : nat -> bool)
  : vset unit -> pstate -> (nat -> bool) -> vset unit -> Prop :=
| det_nothing : forall U', edgeMap_choice m None outn bfs_flags U = Some (Nothing, U') ->
    edgeMap_det n outn m f U par vis U' par vis (vs_empty n)
| det_pull : forall U' big K sched, edgeMap_choice m None outn bfs_flags U = Some (Pull, U') -> 1 <= K ->
    let s := dexec sched (dstart par vis (dtasks (atomic_of f) (pull_threads n outn U' big K) ++
                                          dtasks (plain_of f) (small_threads n outn U' big))) in dfinished s ->
    edgeMap_det n outn m f U par vis U' (dpar s) (dvis s)
      (vs_dense n (map (fun v => (existsb (fun a => dst a =? v) (dlog s), tt)) (seq 0 n)))
| det_sparse : forall U' B W M ebs sched out, edgeMap_choice m None outn bfs_flags U = Some (Sparse, U') ->
    1 <= B -> B <= W -> W <= M ->
    let s := dexec sched (dstart par vis (dtasks (atomic_of f) (chunk_threads outn U' B (plain_bdeg B) ebs))) in dfinished s ->
    chunk_output n outn U' B W M (plain_bdeg B) ebs (dlog s) = Some out ->
    edgeMap_det n outn m f U par vis U' (dpar s) (dvis s) out.

(* lines 125-141 BFS_SpanningForest_Det, k rounds done, after lines 150-151 *)
Inductive det_loop (n : nat) (outn : nat -> list nat) (m source : nat) (par0 : pstate) (vis0 : nat -> bool)
  : nat -> pstate -> (nat -> bool) -> vset unit -> Prop :=
| loop_start : det_loop n outn m source par0 vis0 0 (fset par0 source (Some source)) (fset vis0 source true) (vs_sparse n [(source, tt)])
| loop_round : forall k par vis U U1 par1 vis1 out1 U2 par2 vis2 out2,
    det_loop n outn m source par0 vis0 k par vis U -> size U <> 0 ->
    edgeMap_det n outn m Det_F U par vis U1 par1 vis1 out1 ->
    edgeMap_det n outn m Det_F_2 U1 par1 vis1 U2 par2 vis2 out2 ->
    det_loop n outn m source par0 vis0 (S k) par2 vis2 out2.
(* lines 144-156 SpanningForestDet *)
Inductive det_forest (n : nat) (outn : nat -> list nat) (m : nat) : nat -> pstate -> (nat -> bool) -> Prop :=
| dforest_start : det_forest n outn m 0 (fun _ => None) (fun _ => false)
| dforest_skip : forall i par vis, det_forest n outn m i par vis -> par i <> None -> det_forest n outn m (S i) par vis
| dforest_search : forall i par vis k par' vis' U, det_forest n outn m i par vis -> par i = None ->
    det_loop n outn m i par vis k par' vis' U -> size U = 0 ->
    det_forest n outn m (S i) par' vis'.
Definition det_forest_returns (n : nat) (outn : nat -> list nat) (m : nat) (T : list (nat * nat)) : Prop :=
  exists par vis, det_forest n outn m n par vis /\ T = parents_to_edges n par.
