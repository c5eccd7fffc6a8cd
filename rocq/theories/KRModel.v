(* Model of benchmarks/MinimumSpanningForest/Kruskal/MinimumSpanningForest.h and of
   symmetric_graph::edges (gbbs/graph.h:115-133), weights being integers. *)
From Coq Require Import ZArith Permutation Sorted.
From Verif Require Import Base GBModel UFModel SFModel.

(* One call that runs alone: the union-find operations of UFModel.v without interleaving
   (UniteRemLock's and UniteND's accesses to the auxiliary cells are not needed here).  No rule for
   an access outside the array. *)
Inductive solo (n : nat) : prog -> mem -> nat -> mem -> Prop :=
| so_ret : forall r m, solo n (Ret r) m r m
| so_rd : forall a k m r m', a < n -> solo n (k (par m a)) m r m' -> solo n (Rd a k) m r m'
| so_wr : forall a v k m r m', a < n -> solo n k (set_par m a v) r m' -> solo n (Wr a v k) m r m'
| so_cas : forall a old new k m r m', a < n ->
    solo n (k (par m a =? old)) (if par m a =? old then set_par m a new else m) r m' -> solo n (Cas a old new k) m r m'
| so_bind : forall q k m x m1 r m', solo n q m x m1 -> solo n (k x) m1 r m' -> solo n (Bind q k) m r m'.

Section Edges.
  Context {W : Type}.
  (* graph.h:115-133 edges(): degs scanned; vertex i stores its edges from degs[i] on.  junk: the
     elements the array starts with; order: the order in which the stores happen *)
  Definition edge_stores (G : csr W) : list (nat * edge W) :=
    flat_map (fun i => combine (seq (sum_before (fun v => length (neighbors G v)) i) (length (neighbors G i)))
                         (map (fun x => (i, fst x, snd x)) (neighbors G i))) (seq 0 (gn G)).
  Definition edges_returns (G : csr W) (es : list (edge W)) : Prop :=
    exists order junk, Permutation order (edge_stores G) /\
      run_stores order (repeat junk (sum_before (fun v => length (neighbors G v)) (gn G))) = Some es.
End Edges.

Section Kruskal.
  Variable fits : Z -> bool.      (* is the number a value of the weight type? *)
  Variable mx : nat.              (* UINT_E_MAX *)
  Variable n : nat.
  Notation find := (find FindCompress).
  Notation unite := (unite mx FindCompress UUnite).
  (* 67-76: the loop over the sorted edges; acc = MST[0..k), wt = weight.  The outcome None: an
     overflow of weight or a store outside MST (whose size is n) *)
  Inductive kr_loop : list (edge Z) -> mem -> list (edge Z) -> Z -> option (list (edge Z)) -> Prop :=
  | kr_done : forall m acc wt, kr_loop [] m acc wt (Some acc)
  | kr_same : forall e es m a m1 m2 acc wt o, solo n (find (src e)) m a m1 -> solo n (find (dst e)) m1 a m2 ->
      kr_loop es m2 acc wt o -> kr_loop (e :: es) m acc wt o
  | kr_join : forall e es m a b m1 m2 r m3 acc wt o, solo n (find (src e)) m a m1 -> solo n (find (dst e)) m1 b m2 -> a <> b ->
      solo n (unite (src e) (dst e)) m2 r m3 -> fits (wt + wgh e)%Z = true -> length acc < n ->
      kr_loop es m3 (acc ++ [e]) (wt + wgh e)%Z o -> kr_loop (e :: es) m acc wt o
  | kr_bad : forall e es m a b m1 m2 r m3 acc wt, solo n (find (src e)) m a m1 -> solo n (find (dst e)) m1 b m2 -> a <> b ->
      solo n (unite (src e) (dst e)) m2 r m3 -> fits (wt + wgh e)%Z = false \/ n <= length acc -> kr_loop (e :: es) m acc wt None.
  (* 36-84; line 48 reads the weight of edges[0], which does not exist if there are no edges.
     sample_sort_inplace: any permutation of the edges ordered by weight *)
  Definition kruskal_returns (G : csr Z) (o : option (list (edge Z))) : Prop :=
    exists es, edges_returns G es /\
      match es with
      | [] => o = None
      | _ => exists sorted, Permutation sorted es /\ StronglySorted (fun e f => (wgh e <= wgh f)%Z) sorted /\
               kr_loop sorted {| par := fun x => x; aux := fun _ => None |} [] 0%Z o
      end.
End Kruskal.
