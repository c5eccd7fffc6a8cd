(* SCAN clustering with an index, benchmarks/SCAN/IndexBased (scan.cc, scan_helpers.h/cc).
   Similarities are Z (see SISpec).  parlay::sample_sort_inplace and integer_sort_inplace give some sorted
   permutation; parlay::binary_search gives the first index at which the predicate fails. *)
From Verif Require Import Base ListUtil UFModel GBModel.
From Coq Require Import ZArith Permutation Sorted.
Local Open Scope nat_scope.

(* similarity_measure.h:27-35 EdgeSimilarity *)
Record esim := { source : nat; neighbor : nat; similarity : Z }.
(* scan_helpers.h:85-91: not (b < a) *)
Definition es_le (a b : esim) : Prop := source a < source b \/ (source a = source b /\ (similarity b <= similarity a)%Z).
(* scan_helpers.cc:67-69, 105-108 *)
Definition deg_le (a b : nat * nat) : Prop := snd a <= snd b.
Definition thr_ge (a b : nat * Z) : Prop := (snd b <= snd a)%Z.
Definition sorts {A} (le : A -> A -> Prop) (f : list A -> list A) : Prop := forall l, Permutation l (f l) /\ StronglySorted le (f l).

Fixpoint bin_search {A} (p : A -> bool) (l : list A) : nat :=
  match l with [] => 0 | x :: l' => if p x then S (bin_search p l') else 0 end.
(* an access outside an array or an impossible slice is None *)
Fixpoint all_some {A} (l : list (option A)) : option (list A) :=
  match l with
  | [] => Some []
  | None :: _ => None
  | Some x :: l' => match all_some l' with Some r => Some (x :: r) | None => None end
  end.
Definition cut {A} (l : list A) (b e : nat) : option (list A) :=
  if (b <=? e) && (e <=? length l) then Some (firstn (e - b) (skipn b l)) else None.

Section Index.
  Variable n : nat.
  Variable adj : nat -> list nat.
  Variable sort_es : list esim -> list esim.
  Variable sort_deg : list (nat * nat) -> list (nat * nat).
  Variable sort_thr : list (nat * Z) -> list (nat * Z).

  (* scan_helpers.h:79-104 NeighborOrder; sims = similarity_measure.AllEdges(graph) *)
  Definition vertex_offset (i : nat) : nat := list_sum (map (fun v => length (adj v)) (seq 0 i)).
  Definition neighbor_order (sims : list esim) : option (list (list esim)) :=
    let s := sort_es sims in
    all_some (map (fun i => cut s (vertex_offset i) (if i + 1 =? n then length s else vertex_offset (i + 1))) (seq 0 n)).

  (* scan_helpers.cc:60-86.  The stores of degree_offsets, in any order in the second loop; the
     array is uninitialised: junk is what it holds before *)
  Definition vertex_degrees (no : list (list esim)) : list (nat * nat) :=
    sort_deg (map (fun v => (v, length (nth v no []))) (seq 0 (length no))).
  Definition degree_at (vd : list (nat * nat)) (i : nat) : nat := snd (nth i vd (0, 0)).
  Definition offset_stores1 (vd : list (nat * nat)) : list (nat * nat) := map (fun j => (j, 0)) (seq 0 (degree_at vd 0 + 1)).
  Definition offset_stores2 (vd : list (nat * nat)) : list (nat * nat) :=
    flat_map (fun i => let degree := degree_at vd i in let prev_degree := degree_at vd (i - 1) in
                       if negb (degree =? prev_degree) then map (fun j => (j, i)) (seq (prev_degree + 1) (degree + 1 - (prev_degree + 1))) else [])
             (seq 1 (length vd - 1)).
  Definition degree_offsets (vd : list (nat * nat)) (order : list (nat * nat)) (junk : list nat) : option (list nat) :=
    match run_stores (offset_stores1 vd) junk with
    | None => None
    | Some a => run_stores order a
    end.
  (* scan_helpers.cc:88-112 get_core_order *)
  Definition core_threshold (no : list (list esim)) (mu : nat) (x : nat * nat) : option (nat * Z) :=
    match nth_error no (fst x) with
    | None => None
    | Some neighbors => match nth_error neighbors (mu - 2) with
                        | None => None
                        | Some e => Some (fst x, similarity e)
                        end
    end.
  Definition get_core_order (no : list (list esim)) (vd : list (nat * nat)) (off : list nat) (mu : nat) : option (list (nat * Z)) :=
    if mu <=? 1 then Some [] else
    match nth_error off (mu - 1) with
    | None => None
    | Some o => match cut vd o (length vd) with
                | None => None
                | Some core_vertices => option_map sort_thr (all_some (map (core_threshold no mu) core_vertices))
                end
    end.
  (* scan_helpers.cc:52-119 ComputeCoreOrder *)
  Definition max_degree (vd : list (nat * nat)) : nat := degree_at vd (length vd - 1).
  Definition core_order (no : list (list esim)) (order : list (nat * nat)) (junk : list nat) : option (list (list (nat * Z))) :=
    match no with
    | [] => Some []
    | _ => let vd := vertex_degrees no in
           match degree_offsets vd order junk with
           | None => None
           | Some off => all_some (map (get_core_order no vd off) (seq 0 (max_degree vd + 2)))
           end
    end.
End Index.

Section Queries.
  Variable n : nat.                            (* num_vertices_ *)
  Variable no : list (list esim).              (* neighbor_order_ *)
  Variable co : list (list (nat * Z)).         (* core_order_.order_ *)
  Variable mx : nat.                           (* UINT_E_MAX, which is kUnclustered and the empty key *)

  (* scan_helpers.cc:125-144 CoreOrder::GetCores *)
  Definition get_cores (mu : nat) (eps : Z) : list nat :=
    if mu <=? 1 then seq 0 n else
    if length co <=? mu then [] else
    let possible := nth mu co [] in
    map fst (firstn (bin_search (fun x => (eps <=? snd x)%Z) possible) possible).
  (* scan.cc:192-201 and 241-250 core_similar_edge_counts *)
  Definition neighbors_of (u : nat) : list esim := nth u no [].
  Definition similar_count (eps : Z) (u : nat) : nat := bin_search (fun e => (eps <=? similarity e)%Z) (neighbors_of u).
  Definition mem (l : list nat) (x : nat) : bool := existsb (Nat.eqb x) l.

  (* scan.cc:59-71: the calls of unite.  The inner loops are sequential; here all calls are concurrent,
     which has every run of the code among its runs.  cores_set (a hash table, C28) is a list *)
  Definition single_calls (cores : list nat) (eps : Z) : list (nat * nat) :=
    flat_map (fun u => map (fun e => (u, neighbor e))
                           (filter (fun e => (neighbor e <? u) && mem cores (neighbor e)) (firstn (similar_count eps u) (neighbors_of u)))) cores.
  (* scan.cc:261-284: as above for several epsilons; set = cores_set, prev = previous_cores.size(),
     counts = previous_core_similar_edge_counts *)
  Definition multi_calls (cores set : list nat) (eps : Z) (prev : nat) (counts : list nat) : list (nat * nat) :=
    flat_map (fun j => let u := nth j cores 0 in
                       let from := if j <? prev then nth j counts 0 else 0 in
                       map (fun e => (u, neighbor e))
                           (filter (fun e => ((prev <=? j) || (neighbor e <? u)) && mem set (neighbor e))
                                   (firstn (similar_count eps u - from) (skipn from (neighbors_of u)))))
             (seq 0 (length cores)).
  Definition unites (calls : list (nat * nat)) : list prog := map (fun e => unite mx FindCompress UUnite (fst e) (snd e)) calls.
  (* scan.cc:53-56 and 254-258: clustering[core] = core *)
  Definition own_cluster (cores : list nat) (P : nat -> nat) (x : nat) : nat := if mem cores x then x else P x.
  (* scan.cc:72-75 and 285-288 *)
  Definition labels (cores : list nat) : list prog := map (label_vertex FindCompress) cores.
  (* all threads have returned *)
  Definition finished (s : sys) : Prop := forall t, t < length (snd s) -> exists r, returned s t r.
  (* the unites and then the finds: P = before, L = after *)
  Definition cluster_cores (cores : list nat) (calls : list (nat * nat)) (P L : nat -> nat) : Prop :=
    exists sched1 sched2,
      let s1 := exec n sched1 (init P (unites calls)) in
      let s2 := exec n sched2 (init (par (fst s1)) (labels cores)) in
      finished s1 /\ finished s2 /\ L = par (fst s2).

  (* scan.cc:103-118 AttachNoncoresToClusters, one call of the inner body: core and neighbor; again all
     of them are concurrent, and each reads the core's cluster itself *)
  Definition attach (cn : nat * nat) : prog :=
    Rd (fst cn) (fun core_cluster => Rd (snd cn) (fun x =>
      if x =? mx then Cas (snd cn) mx core_cluster (fun _ => Ret 0) else Ret 0)).
  Definition similar_pairs (cores : list nat) (eps : Z) : list (nat * nat) :=
    flat_map (fun u => map (fun e => (u, neighbor e)) (firstn (similar_count eps u) (neighbors_of u))) cores.
  Definition attach_any (cores : list nat) (eps : Z) (L out : nat -> nat) : Prop :=
    exists sched, let s := exec n sched (init L (map attach (similar_pairs cores eps))) in finished s /\ out = par (fst s).

  (* scan.cc:136-168 AttachNoncoresToClustersDeterministic: (similarity, core) per neighbor, updated by
     reads and compare-and-swaps of the pair.  -1 is some number below every similarity *)
  Inductive dstate : Type :=
  | DRead                              (* about to read tentative_attachments[neighbor] *)
  | DCas (current : Z * nat)           (* about to compare-and-swap *)
  | DDone.
  Definition dthread : Type := (nat * nat * Z) * dstate.
  Definition tentative : Type := nat -> Z * nat.
  Definition pair_eqb (a b : Z * nat) : bool := (fst a =? fst b)%Z && (snd a =? snd b)%nat.
  Definition better (s : Z) (c : nat) (cur : Z * nat) : bool := (fst cur <? s)%Z || ((s =? fst cur)%Z && (c <? snd cur)).
  Definition dstep (T : tentative) (th : dthread) : tentative * dthread :=
    let '((c, v, s), st) := th in
    match st with
    | DRead => (T, ((c, v, s), if better s c (T v) then DCas (T v) else DDone))
    | DCas cur => if pair_eqb (T v) cur then (fset T v (s, c), ((c, v, s), DDone)) else (T, ((c, v, s), DRead))
    | DDone => (T, th)
    end.
  Definition dsys_step (s : tentative * list dthread) (t : nat) : tentative * list dthread :=
    match nth_error (snd s) t with
    | None => s
    | Some th => let '(T, th') := dstep (fst s) th in (T, lset (snd s) t th')
    end.
  Definition dexec (sched : list nat) (s : tentative * list dthread) := fold_left dsys_step sched s.
  (* clustering is only read here: line 148 *)
  Definition attachments (cores : list nat) (eps : Z) (L : nat -> nat) : list dthread :=
    flat_map (fun u => map (fun e => ((u, neighbor e, similarity e), DRead))
                           (filter (fun e => L (neighbor e) =? mx) (firstn (similar_count eps u) (neighbors_of u)))) cores.
  Definition no_attachment : tentative := fun _ => ((-1)%Z, mx).
  (* scan.cc:169-174 *)
  Definition take_attachment (L : nat -> nat) (T : tentative) (v : nat) : nat := if (0 <? fst (T v))%Z then L (snd (T v)) else L v.
  Definition dfinished (s : tentative * list dthread) : Prop := forall th, In th (snd s) -> snd th = DDone.
  Definition attach_best (cores : list nat) (eps : Z) (L out : nat -> nat) : Prop :=
    exists sched, let s := dexec sched (no_attachment, attachments cores eps L) in dfinished s /\ out = take_attachment L (fst s).

  Definition attach_noncores (det : bool) := if det then attach_best else attach_any.
  Definition array (f : nat -> nat) : list nat := map f (seq 0 n).
  (* scan.cc:183-214 Index::Cluster with one epsilon: a relation, since the runs differ *)
  Definition cluster (mu : nat) (eps : Z) (det : bool) (result : list nat) : Prop :=
    let cores := get_cores mu eps in
    match cores with
    | [] => result = repeat mx n
    | _ => exists L out, cluster_cores cores (single_calls cores eps) (own_cluster cores (fun _ => mx)) L /\
                         attach_noncores det cores eps L out /\ result = array out
    end.
  (* scan.cc:216-305 Index::Cluster with several: the loop; is = sorted_epsilon_indices not yet
     visited, set = cores_set, prev = previous_cores, calls = the calls of f,
     P = previous_core_clustering *)
  Inductive cluster_loop (mu : nat) (epsilons : list Z) (det : bool) :
    list nat -> list nat -> list nat -> list nat -> (nat -> nat) -> list (list nat * nat) -> Prop :=
  | loop_end set prev counts P : cluster_loop mu epsilons det [] set prev counts P []
  | loop_step i is set prev counts P L out calls :
      let eps := nth i epsilons 0%Z in
      let cores := get_cores mu eps in
      let new := skipn (length prev) cores in
      cluster_cores cores (multi_calls cores (set ++ new) eps (length prev) counts) (own_cluster new P) L ->
      attach_noncores det cores eps L out ->
      cluster_loop mu epsilons det is (set ++ new) cores (map (similar_count eps) cores) L calls ->
      cluster_loop mu epsilons det (i :: is) set prev counts P ((array out, i) :: calls).
  Definition eps_ge (epsilons : list Z) (i j : nat) : Prop := (nth j epsilons 0 <= nth i epsilons 0)%Z.
  Definition cluster_many (mu : nat) (epsilons : list Z) (det : bool) (calls : list (list nat * nat)) : Prop :=
    exists is, Permutation (seq 0 (length epsilons)) is /\ StronglySorted (eps_ge epsilons) is /\
               cluster_loop mu epsilons det is [] [] [] (fun _ => mx) calls.
End Queries.

(* scan.h:28-35 the constructor; sims = the similarities of the edges, in any order; order and junk as
   in degree_offsets, for the degrees found *)
Section Built.
  Variable n : nat.
  Variable adj : nat -> list nat.
  Definition built (sims : list esim) (no : list (list esim)) (co : list (list (nat * Z))) : Prop :=
    exists sort_es sort_deg sort_thr order junk, sorts es_le sort_es /\ sorts deg_le sort_deg /\ sorts thr_ge sort_thr /\
      neighbor_order n adj sort_es sims = Some no /\
      Permutation (offset_stores2 (vertex_degrees sort_deg no)) order /\ length junk = max_degree (vertex_degrees sort_deg no) + 1 /\
      core_order sort_deg sort_thr no order junk = Some co.
End Built.
