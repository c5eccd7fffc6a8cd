(* Model of benchmarks/TriangleCounting/ShunTangwongsan15/Triangle.h, on the uncompressed unweighted
   graph (intersect_f_par reads the neighbours as an array of ids).

   thresh, base: the constants of intersect.h:70-71; bsz: block_size, line 118 (50000). *)
From Coq Require Import Permutation.
From Verif Require Import Base GBModel ISModel ISSpec SFModel.

Section Balanced.
  Variables thresh base bsz : nat.
  Variable n : nat.
  Variable dg : nat -> list nat.       (* the out-neighbours in DG *)

  (* 106-115 parallel_work before and after the scan *)
  Definition work (i : nat) : nat := list_sum (map (fun v => length (dg v)) (dg i)).
  Definition scanned : list nat := map (sum_before work) (seq 0 n).
  Definition total_work : nat := sum_before work n.
  (* 118-120 *)
  Definition n_blocks : nat := total_work / bsz + 1.
  Definition work_per_block : nat := (total_work + n_blocks - 1) / n_blocks.
  (* 128-132 map_f over the neighbours l of i, in order: total_ct and the calls of f.  None of the
     recursive intersections shares state with another; each makes its calls in one of the orders in
     which its parallel halves can run. *)
  Inductive run_nghs (i : nat) : list nat -> nat -> list (nat * nat * nat) -> Prop :=
  | rn_nil : run_nghs i [] 0 []
  | rn_cons : forall v l k cs c t cl, intersect_f_par thresh base (dg i) (dg v) = Some (k, cs) -> happens cs c ->
      run_nghs i l t cl -> run_nghs i (v :: l) (k + t) (map (fun x => (i, v, x)) c ++ cl).
  (* 124-136 run_intersection: the stores to counts and the calls *)
  Inductive run_range : list nat -> list (nat * nat) -> list (nat * nat * nat) -> Prop :=
  | rr_nil : run_range [] [] []
  | rr_cons : forall i l t cl st cl', run_nghs i (dg i) t cl -> run_range l st cl' -> run_range (i :: l) ((i, t) :: st) (cl ++ cl').
  (* 138-145: the indices of block b *)
  Definition block_start (b : nat) : nat := bsearch scanned (b * work_per_block).
  Definition block_end (b : nat) : nat := bsearch scanned ((b + 1) * work_per_block).
  (* 99-151 CountDirectedBalanced with counts all 0; the blocks run in parallel *)
  Definition balanced_returns (count : nat) (made : list (nat * nat * nat)) : Prop :=
    exists sts cls order counts,
      length sts = n_blocks /\ length cls = n_blocks /\
      (forall b, b < n_blocks -> run_range (seq (block_start b) (block_end b - block_start b)) (nth b sts []) (nth b cls [])) /\
      Permutation order (concat sts) /\ run_stores order (repeat 0 n) = Some counts /\
      count = list_sum counts /\ Permutation made (concat cls).
End Balanced.

(* 58-72 rankNodes: o = the vertices sorted by degree; r[o[i]] = i *)
Definition rank_nodes (o : list nat) (r : list nat) : Prop :=
  exists order junk, Permutation order (map (fun i => (nth i o 0, i)) (seq 0 (length o))) /\
    run_stores order (repeat junk (length o)) = Some r.

Section Triangle.
  Variables thresh base bsz : nat.
  Variable G : csr unit.
  (* 205-238 Triangle_degeneracy_ordering with the given ordering, and 168-202
     Triangle_degree_ordering with that of rankNodes *)
  Definition triangles_with (rank : list nat) (count : nat) (made : list (nat * nat * nat)) : Prop :=
    exists shuffle junk DG, (forall l, Permutation (shuffle l) l) /\
      filter_graph (fun u x => nth u rank 0 <? nth (fst x) rank 0) shuffle junk G = Some DG /\
      balanced_returns thresh base bsz (gn DG) (fun v => map fst (neighbors DG v)) count made.
  Definition by_degree (count : nat) (made : list (nat * nat * nat)) : Prop :=
    exists o r, Permutation o (seq 0 (gn G)) /\
      (forall i j, i <= j < gn G -> nth (nth i o 0) (gdeg G) 0 <= nth (nth j o 0) (gdeg G) 0) /\
      rank_nodes o r /\ triangles_with r count made.
End Triangle.
