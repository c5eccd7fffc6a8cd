(* Model of benchmarks/Connectivity/ConnectIt/sampling.h: k-out sampling and BFS sampling, and their
   composition with the union-find algorithms (UFModel).  LDD sampling is the decomposition of
   LDModel. *)
From Coq Require Import Permutation.
From Verif Require Import Base UFModel.

(* -- k-out sampling -------------------------------------------------------------------------- *)
(* 182-188 (and the same loop in the other three variants): while (parents[u] != parents[parents[u]])
   parents[u] = parents[parents[u]], one access at a time *)
CoFixpoint kcompress (u : nat) : prog :=
  Rd u (fun a => Rd u (fun b => Rd b (fun c =>
    if a =? c then Ret u else Rd u (fun d => Rd d (fun e => Wr u e (kcompress u)))))).

Section KOut.
  Variable outn : nat -> list nat.
  Variable rnd : nat -> nat -> nat.       (* the random number of vertex u in round r *)

  (* the neighbour a vertex links to in round r, if any; get_ith_neighbor(i) *)
  Definition ith (u i : nat) : list (nat * nat) :=
    match nth_error (outn u) i with Some v => [(u, v)] | None => [] end.
  (* 138-192 initial_components (hybrid), the choice in 149-180 *)
  Definition hybrid_pair (r u : nat) : list (nat * nat) :=
    let deg := length (outn u) in
    if r =? 0 then if 0 <? deg then ith u 0 else []
    else if 1 <? deg then ith u (1 + rnd r u mod (deg - 1)) else [].
  (* 264-302 initial_components_pure *)
  Definition pure_pair (r u : nat) : list (nat * nat) :=
    let deg := length (outn u) in if 0 <? deg then ith u (rnd r u mod deg) else [].
  (* 304-338 initial_components_afforest *)
  Definition afforest_pair (r u : nat) : list (nat * nat) := if r <? length (outn u) then ith u r else [].
  (* 195-262 initial_components_max_degree; the reduction with identity (0, 0) *)
  Definition max_degree_ngh (u : nat) : nat :=
    fst (fold_left (fun a b => if snd a <? snd b then b else a) (map (fun v => (v, length (outn v))) (outn u)) (0, 0)).
  Definition max_degree_pair (r u : nat) : list (nat * nat) :=
    if r =? 0 then if 0 <? length (outn u) then [(u, max_degree_ngh u)] else [] else pure_pair r u.

  Inductive kout_option := KHybrid | KPure | KAfforest | KMaxDegree.
  Definition kpairs (n : nat) (ko : kout_option) (r : nat) : list (nat * nat) :=
    flat_map (match ko with KHybrid => hybrid_pair r | KPure => pure_pair r | KAfforest => afforest_pair r | KMaxDegree => max_degree_pair r end)
      (seq 0 n).

  (* all pairs of the first r rounds *)
  Definition sampled (n : nat) (ko : kout_option) (r : nat) : list (nat * nat) := flat_map (kpairs n ko) (seq 0 r).

  (* round r: link (UFModel.link, 106-135) every vertex to its neighbour, then compress; sl, sc: the
     schedules of the two parallel loops *)
  Definition link_phase (n : nat) (ko : kout_option) (r : nat) (sl : list nat) (P : nat -> nat) : sys :=
    exec n sl (init P (map (fun e => link (fst e) (snd e)) (kpairs n ko r))).
  Definition compress_phase (n : nat) (sc : list nat) (P : nat -> nat) : sys := exec n sc (init P (map kcompress (seq 0 n))).
  Definition finished (s : sys) : Prop := forall t, t < length (snd s) -> exists r, returned s t r.
  (* the labels after the first r rounds *)
  Inductive kout (n : nat) (ko : kout_option) : nat -> (nat -> nat) -> Prop :=
  | kout_start : kout n ko 0 (fun i => i)
  | kout_round : forall r P sl sc, kout n ko r P ->
      let s1 := link_phase n ko r sl P in finished s1 ->
      let s2 := compress_phase n sc (par (fst s1)) in finished s2 ->
      kout n ko (S r) (par (fst s2)).
End KOut.

(* -- BFS sampling ------------------------------------------------------------------------------ *)
(* 342-360 BFS_ComponentLabel_F.  An attempt (s, d, atomic) of a task first evaluates cond (359:
   Parents[d] == d) and then, as a second access, updateAtomic (355-358: compare-and-swap of d by
   src) or update (347-354: write unless Parents[d] is src already; update is only called when one
   task alone accesses Parents[d], so its read and write are one step).  lab: Parents; log: the
   vertices for which the update returned true *)
Definition attempt := (nat * nat * bool)%type.
Record bthread := { todo : list attempt; checked : bool }.
Record bstate := { lab : nat -> nat; log : list nat; thr : list bthread }.
Definition bstep (src : nat) (s : bstate) (t : nat) : bstate :=
  match nth_error (thr s) t with
  | None => s
  | Some th =>
      match todo th with
      | [] => s
      | (x, d, atomic) :: rest =>
          let next := lset (thr s) t {| todo := rest; checked := false |} in
          if checked th then
            if (if atomic then lab s d =? d else negb (lab s d =? src))
            then {| lab := fset (lab s) d src; log := d :: log s; thr := next |}
            else {| lab := lab s; log := log s; thr := next |}
          else if lab s d =? d
            then {| lab := lab s; log := log s; thr := lset (thr s) t {| todo := todo th; checked := true |} |}
            else {| lab := lab s; log := log s; thr := next |}
      end
  end.
Definition bexec (src : nat) (sched : list nat) (s : bstate) : bstate := fold_left (bstep src) sched s.
Definition bstart (l : nat -> nat) (ts : list (list attempt)) : bstate :=
  {| lab := l; log := []; thr := map (fun as_ => {| todo := as_; checked := false |}) ts |}.
Definition bfinished (s : bstate) : Prop := Forall (fun th => todo th = []) (thr s).

Section BFS.
  Variable n m : nat.                      (* G.n, G.m *)
  Variable outn inn : nat -> list nat.
  Variable big : nat -> bool.              (* vertices pulled by parallel blocks, with updateAtomic *)

  (* edge_map_data.h:139-175: dense if the frontier is stored densely and has more than n/10 vertices,
     or if it has with its edges more than m/20 *)
  Definition dense (stored : bool) (F : list nat) : bool :=
    stored && (n / 10 <? length F) || (m / 20 <? length F + list_sum (map (fun v => length (outn v)) F)).
  Definition isIn (F : list nat) (v : nat) : bool := existsb (Nat.eqb v) F.
  (* sparse: the out-edges of the frontier (a vertex that is twice in the frontier is pushed twice) *)
  Definition push (F : list nat) : list attempt := flat_map (fun x => map (fun d => (x, d, true)) (outn x)) F.
  (* dense: per vertex d with cond(d) its in-neighbours in the frontier, vertex.h:262-292
     decodeBreakEarly; that its loop stops as soon as cond(d) fails is the check before every attempt *)
  Definition pull (F : list nat) : list attempt :=
    flat_map (fun d => map (fun x => (x, d, big d)) (filter (isIn F) (inn d))) (seq 0 n).
  Definition attempts (dn : bool) (F : list nat) : list attempt := if dn then pull F else push F.
  (* 365-384 BFS_ComponentLabel: labels and frontier after k rounds; stored: is the frontier stored
     densely.  The attempts are distributed over tasks in any way.  The output of a dense round has
     each vertex once, that of a sparse one each vertex as often as its update returned true *)
  Inductive bfs (src : nat) : nat -> (nat -> nat) -> bool -> list nat -> Prop :=
  | bfs_start : bfs src 0 (fun i => i) false [src]
  | bfs_round : forall k l stored F ts sched F', bfs src k l stored F -> F <> [] ->
      let dn := dense stored F in
      Permutation (concat ts) (attempts dn F) ->
      let s := bexec src sched (bstart l ts) in bfinished s ->
      (if dn then NoDup F' /\ forall d, In d F' <-> In d (log s) else Permutation F' (log s)) ->
      bfs src (S k) (lab s) dn F'.
  (* 387-424 BFSSamplingTemplate::initial_components: the labels of the last trial, from whatever source *)
  Definition bfs_sample (l : nat -> nat) : Prop := exists src k stored, src < n /\ bfs src k l stored [].
End BFS.

(* -- SamplingAlgorithmTemplate::components, 18-57 with a union-find algorithm ------------------- *)
(* UnionFind/Connectivity.h:56-110 compute_components with sampling: vertices whose sampled label is
   the frequent one are skipped, then every vertex is labelled with its root.  freq: what
   sample_frequent_element returned (any label) *)
Definition union_phase (n mx : nat) (f : find_option) (o : unite_option) (G : list (nat * nat)) (freq : nat) (sched : list nat) (P : nat -> nat) : sys :=
  exec n sched (init P (map (fun e => unite mx f o (fst e) (snd e)) (filter (fun e => negb (P (fst e) =? freq)) G))).
Definition label_phase (n : nat) (f : find_option) (sched : list nat) (P : nat -> nat) : sys :=
  exec n sched (init P (map (label_vertex f) (seq 0 n))).
