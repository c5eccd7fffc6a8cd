(* Model of the frontier algorithms: BFS (benchmarks/BFS/NonDeterministicBFS/BFS.h),
   BFS-based connectivity (benchmarks/Connectivity/BFSCC/Connectivity.h) and Bellman-Ford
   (benchmarks/GeneralWeightSSSP/BellmanFord/BellmanFord.h).

   Every call of edgeMap is one run of the traversal machines of EMModel (or, for
   Bellman-Ford, of the machine below on the same tasks), under an arbitrary interleaving
   that runs all tasks to the end. *)
From Coq Require Import ZArith.
From Verif Require Import Base VSModel EMModel.

(* edge_map_data.h:131-190 with the visit-once functions: from the parents par and the
   frontier U, possible new parents and output.  B, W, M, ebs: the block sizes of the sparse
   traversal; big and K: which vertices are pulled in parallel blocks of K. *)
Inductive edgeMap_visit (n : nat) (outn inn : nat -> list nat) (numEdges : nat) (threshold : option nat) (fl : eflags)
    (U : vset unit) (par : pstate) : pstate -> vset unit -> Prop :=
| visit_nothing : forall U', edgeMap_choice numEdges threshold outn fl U = Some (Nothing, U') ->
    edgeMap_visit n outn inn numEdges threshold fl U par par (vs_empty n)
| visit_pull : forall U' big K sched, edgeMap_choice numEdges threshold outn fl U = Some (Pull, U') -> 1 <= K ->
    let s := eexec sched (estart par (pull_threads n inn U' big K)) in finished s ->
    edgeMap_visit n outn inn numEdges threshold fl U par (pull_par n inn U' big par s) (pull_output n inn U' big par s)
| visit_forward : forall U' sched, edgeMap_choice numEdges threshold outn fl U = Some (Forward, U') ->
    let s := eexec sched (estart par (forward_threads n outn U')) in finished s ->
    edgeMap_visit n outn inn numEdges threshold fl U par (epar s) (forward_output n s)
| visit_sparse : forall U' B W M ebs sched out, edgeMap_choice numEdges threshold outn fl U = Some (Sparse, U') ->
    1 <= B -> B <= W -> W <= M ->
    let s := eexec sched (estart par (chunk_threads outn U' B (plain_bdeg B) ebs)) in finished s ->
    chunk_output n outn U' B W M (plain_bdeg B) ebs (elog s) = Some out ->
    edgeMap_visit n outn inn numEdges threshold fl U par (epar s) out.

(* sparse_blocked | dense_parallel *)
Definition bfs_flags : eflags := {| f_dense_only := false; f_no_dense := false; f_dense_forward := false; f_dense_parallel := true |}.

(* the loop of BFS.h:59-65 (and of BFSCC/Connectivity.h:63-73), k iterations from parents
   par0 with par0[src] = src set.  m = G.m *)
Inductive bfs_loop (n : nat) (outn inn : nat -> list nat) (m src : nat) (par0 : pstate) : nat -> pstate -> vset unit -> Prop :=
| bfs_start : bfs_loop n outn inn m src par0 0 (fset par0 src (Some src)) (vs_sparse n [(src, tt)])
| bfs_round : forall k par U par' U', bfs_loop n outn inn m src par0 k par U -> size U <> 0 ->
    edgeMap_visit n outn inn m None bfs_flags U par par' U' ->
    bfs_loop n outn inn m src par0 (S k) par' U'.

(* BFS.h:49-68 BFS: a possible result; None = UINT_E_MAX *)
Definition bfs_returns (n : nat) (outn inn : nat -> list nat) (m src : nat) (par : pstate) : Prop :=
  exists k U, bfs_loop n outn inn m src (fun _ => None) k par U /\ size U = 0.

(* -- BFSCC --------------------------------------------------------------------------------- *)
(* BFSCC/Connectivity.h:33-53 BFS_ComponentLabel_F is the same visit-once function except that
   it stores the label src, not the parent; the control flow only looks at whether an entry
   is UINT_E_MAX (None).  lab0: the labels before the search, par: the entries after the
   same search storing parents. *)
Definition label_with (src : nat) (lab0 par : pstate) : pstate :=
  fun v => match lab0 v, par v with None, Some _ => Some src | _, _ => lab0 v end.
(* 57-75 BFS_ComponentLabel *)
Inductive component_label (n : nat) (outn inn : nat -> list nat) (m src : nat) (lab : pstate) : pstate -> Prop :=
| label_isolated : outn src = [] -> component_label n outn inn m src lab lab
| label_search : forall k par U, outn src <> [] -> bfs_loop n outn inn m src lab k par U -> size U = 0 ->
    component_label n outn inn m src lab (label_with src lab par).
(* 78-87 CC: the loop over the first i vertices *)
Inductive cc_loop (n : nat) (outn inn : nat -> list nat) (m : nat) : nat -> pstate -> Prop :=
| cc_start : cc_loop n outn inn m 0 (fun _ => None)
| cc_skip : forall i lab, cc_loop n outn inn m i lab -> lab i <> None -> cc_loop n outn inn m (S i) lab
| cc_search : forall i lab lab', cc_loop n outn inn m i lab -> lab i = None ->
    component_label n outn inn m i lab lab' -> cc_loop n outn inn m (S i) lab'.

(* -- Bellman-Ford ---------------------------------------------------------------------- *)
(* Distances are integers without overflow; None = numeric_limits::max(), infinity.
   wt u j: the weight of the j-th edge of u *)
Section BellmanFord.
  Variable wt : nat -> nat -> Z.
  (* updateAtomic, BellmanFord.h:50-59: read SP[s]; write_min (bridge.h:301-308): load SP[d],
     compare, CAS, repeat; then CAS of Visited[d].  cond is true. *)
  Inductive bpc := BRead | BLoad (new : Z) | BCas (new : Z) (cur : option Z) | BFlag.
  Record bthread := { btodo : list attempt; bpcs : bpc }.
  (* overflow: SP[s] was infinity when it was read as a source *)
  Record bstate := { bsp : nat -> option Z; bvis : nat -> bool; blog : list attempt; boverflow : bool; bthr : list bthread }.
  Definition bless (a : Z) (c : option Z) : bool := match c with None => true | Some c => (a <? c)%Z end.
  Definition oeqb (a b : option Z) : bool :=
    match a, b with None, None => true | Some x, Some y => (x =? y)%Z | _, _ => false end.
  Definition bstep (s : bstate) (t : nat) : bstate :=
    match nth_error (bthr s) t with
    | None => s
    | Some th =>
        let goto pc := lset (bthr s) t {| btodo := btodo th; bpcs := pc |} in
        match btodo th with
        | [] => s
        | a :: rest =>
            let next := lset (bthr s) t {| btodo := rest; bpcs := BRead |} in
            match bpcs th with
            | BRead => match bsp s (src a) with
                       | None => {| bsp := bsp s; bvis := bvis s; blog := blog s; boverflow := true; bthr := next |}
                       | Some x => {| bsp := bsp s; bvis := bvis s; blog := blog s; boverflow := boverflow s;
                                      bthr := goto (BLoad (x + wt (src a) (snd (tag a)))%Z) |}
                       end
            | BLoad new => {| bsp := bsp s; bvis := bvis s; blog := blog s; boverflow := boverflow s;
                              bthr := if bless new (bsp s (dst a)) then goto (BCas new (bsp s (dst a))) else next |}
            | BCas new cur => if oeqb (bsp s (dst a)) cur
                              then {| bsp := fset (bsp s) (dst a) (Some new); bvis := bvis s; blog := blog s; boverflow := boverflow s; bthr := goto BFlag |}
                              else {| bsp := bsp s; bvis := bvis s; blog := blog s; boverflow := boverflow s; bthr := goto (BLoad new) |}
            | BFlag => if bvis s (dst a)
                       then {| bsp := bsp s; bvis := bvis s; blog := blog s; boverflow := boverflow s; bthr := next |}
                       else {| bsp := bsp s; bvis := fset (bvis s) (dst a) true; blog := a :: blog s; boverflow := boverflow s; bthr := next |}
            end
        end
    end.
  Definition bexec (sched : list nat) (s : bstate) : bstate := fold_left bstep sched s.
  Definition bfinished (s : bstate) : Prop := Forall (fun th => btodo th = []) (bthr s).
  (* the tasks are those of EMModel *)
  Definition bstart (sp : nat -> option Z) (vis : nat -> bool) (ts : list tthread) : bstate :=
    {| bsp := sp; bvis := vis; blog := []; boverflow := false; bthr := map (fun th => {| btodo := todo th; bpcs := BRead |}) ts |}.

  (* sparse_blocked | dense_forward, threshold G.m / 10 *)
  Definition bf_flags : eflags := {| f_dense_only := false; f_no_dense := false; f_dense_forward := true; f_dense_parallel := false |}.
  Inductive edgeMap_relax (n : nat) (outn : nat -> list nat) (m : nat) (U : vset unit) (sp : nat -> option Z) (vis : nat -> bool)
    : (nat -> option Z) -> (nat -> bool) -> bool -> vset unit -> Prop :=
  | relax_nothing : forall U', edgeMap_choice m (Some (m / 10)) outn bf_flags U = Some (Nothing, U') ->
      edgeMap_relax n outn m U sp vis sp vis false (vs_empty n)
  | relax_forward : forall U' sched, edgeMap_choice m (Some (m / 10)) outn bf_flags U = Some (Forward, U') ->
      let s := bexec sched (bstart sp vis (forward_threads n outn U')) in bfinished s ->
      edgeMap_relax n outn m U sp vis (bsp s) (bvis s) (boverflow s)
        (vs_dense n (map (fun v => (existsb (fun a => dst a =? v) (blog s), tt)) (seq 0 n)))
  | relax_sparse : forall U' B W M ebs sched out, edgeMap_choice m (Some (m / 10)) outn bf_flags U = Some (Sparse, U') ->
      1 <= B -> B <= W -> W <= M ->
      let s := bexec sched (bstart sp vis (chunk_threads outn U' B (plain_bdeg B) ebs)) in bfinished s ->
      chunk_output n outn U' B W M (plain_bdeg B) ebs (blog s) = Some out ->
      edgeMap_relax n outn m U sp vis (bsp s) (bvis s) (boverflow s) out.

  (* 66-73 BF_Vertex_F, applied by vertexMap to the output *)
  Definition reset (U : vset unit) (vis : nat -> bool) : nat -> bool :=
    fold_left (fun vis v => fset vis v false) (map fst (vertexMap_calls tt U)) vis.

  (* 85-104: the loop, k rounds done *)
  Inductive bf_loop (n : nat) (outn : nat -> list nat) (m start : nat)
    : nat -> (nat -> option Z) -> (nat -> bool) -> bool -> vset unit -> Prop :=
  | bf_start : bf_loop n outn m start 0 (fset (fun _ => None) start (Some 0%Z)) (fun _ => false) false (vs_sparse n [(start, tt)])
  | bf_round : forall k sp vis ov U sp' vis' ov' U', bf_loop n outn m start k sp vis ov U -> size U <> 0 -> k <> n ->
      edgeMap_relax n outn m U sp vis sp' vis' ov' U' ->
      bf_loop n outn m start (S k) sp' (reset U' vis') (ov || ov') U'.
  (* the result and whether a negative cycle is reported *)
  Definition bf_returns (n : nat) (outn : nat -> list nat) (m start : nat) (sp : nat -> option Z) (reported : bool) : Prop :=
    exists k vis U ov, bf_loop n outn m start k sp vis ov U /\ (size U = 0 /\ reported = false \/ size U <> 0 /\ k = n /\ reported = true).
End BellmanFord.
