(* Model of benchmarks/SSBetweenessCentrality/Brandes/SSBetweennessCentrality.h.

   The doubles are exact rationals; None is a value that is not finite (1/0 and what is computed
   from it). *)
From Coq Require Import ZArith QArith Qcanon Permutation.
From Verif Require Import Base BKSpec.
Local Open Scope nat_scope.

Definition num := option Qc.
Definition lift2 (f : Qc -> Qc -> Qc) (a b : num) : num := match a, b with Some x, Some y => Some (f x y) | _, _ => None end.
Definition nadd : num -> num -> num := lift2 Qcplus.
Definition nsub : num -> num -> num := lift2 Qcminus.
Definition is0 (a : num) : bool := match a with Some x => if Qc_eq_dec x 0 then true else false | None => false end.
Definition is_pos (a : num) : bool := match a with Some x => if Qclt_le_dec 0 x then true else false | None => false end.
Definition ndiv (a b : num) : num := if is0 b then None else lift2 Qcdiv a b.
Definition nsum (l : list num) : num := fold_right nadd (Some 0%Qc) l.

(* a vertexSubset (vertex_subset.h): its vertices, the flag isDense and the field sum_out_degrees
   (None: not set).  The conversions between the representations are those of C14. *)
Record frontier := { fv : list nat; fdense : bool; fdeg : option nat }.
Definition fresh (l : list nat) (b : bool) : frontier := {| fv := l; fdense := b; fdeg := None |}.

Inductive way := WNone | WDense | WSparse.

Section BC.
  Variable n m : nat.                          (* G.n, G.m *)

  (* edge_map_data.h:131-189 edgeMapData with threshold -1 and neither dense_forward, dense_only nor
     no_dense: the traversal chosen and the frontier afterwards.  deg: out_degree, or in_degree if
     the flag in_edges is set.  sum_out_degrees is read if it was set by an earlier call. *)
  Definition em_way (deg : nat -> nat) (F : frontier) : way * frontier :=
    if length (fv F) =? 0 then (WNone, F)
    else if fdense F && (n / 10 <? length (fv F)) then (WDense, F)
    else
      let d := match fdeg F with Some d => d | None => list_sum (map deg (fv F)) end in
      let F' b := {| fv := fv F; fdense := b; fdeg := Some d |} in
      if d =? 0 then (WNone, F' false)
      else if m / 20 <? length (fv F) + d then (WDense, F' true) else (WSparse, F' false).

  (* 37-58 SSBetweennessCentrality_F: one call of update or updateAtomic on the edge (s, d): Scores
     and the vertices for which it returned true.  Scores[s] is not written during the call of
     edgeMap (its source is visited, the targets are not), so the calls are atomic. *)
  Definition bc_call (st : (nat -> num) * list nat) (e : nat * nat) : (nat -> num) * list nat :=
    let '(X, o) := st in
    (fset X (snd e) (nadd (X (snd e)) (X (fst e))), if is0 (X (snd e)) then snd e :: o else o).
  (* edgeMap (C17): the sparse traversal calls it on the edges nbr of the frontier, the dense one
     scans the reverse edges rnbr of every vertex for sources in the frontier; only for
     targets that satisfy cond; the calls happen in any order *)
  Definition bc_edges (w : way) (nbr rnbr : nat -> list nat) (F : list nat) : list (nat * nat) :=
    match w with
    | WDense => flat_map (fun d => map (fun s => (s, d)) (filter (fun s => mem s F) (rnbr d))) (seq 0 n)
    | _ => flat_map (fun s => map (fun d => (s, d)) (nbr s)) F
    end.
  Inductive bc_edgeMap (nbr rnbr : nat -> list nat) (V : nat -> bool) (F : frontier) (S : nat -> num)
    : (nat -> num) -> frontier -> frontier -> Prop :=
  | bc_none : forall F', em_way (fun v => length (nbr v)) F = (WNone, F') -> bc_edgeMap nbr rnbr V F S S F' (fresh [] false)
  | bc_some : forall w F' es out, em_way (fun v => length (nbr v)) F = (w, F') -> w <> WNone ->
      Permutation es (filter (fun e => negb (V (snd e))) (bc_edges w nbr rnbr (fv F))) ->
      let r := fold_left bc_call es (S, []) in
      Permutation out (snd r) ->
      bc_edgeMap nbr rnbr V F S (fst r) F' (fresh out (match w with WDense => true | _ => false end)).

  (* 197-230 the dense case of sparse_fa_dense_em: every unvisited vertex sums over its reverse
     edges (edge_map_reduce.h:324-378); the sums go to Storage and from there to NumPaths *)
  Definition bc_reduced (rnbr : nat -> list nat) (V : nat -> bool) (S : nat -> num) : (nat -> num) * list nat :=
    let c u := nsum (map S (rnbr u)) in
    let hit u := (u <? n) && negb (V u) && is_pos (c u) in
    (fun u => if hit u then c u else S u, filter hit (seq 0 n)).

  Variable outn inn : nat -> list nat.
  Variable src : nat.
  (* fa: SSBetweennessCentrality_EM (239-312) instead of SSBetweennessCentrality (98-155).  Which of
     the cases sparse_fa_dense_em (157-237) takes depends on degrees of vertices 0, 1, ...; here
     it may take either. *)
  Variable fa : bool.
  Inductive bc_step (nbr rnbr : nat -> list nat) (V : nat -> bool) (F : frontier) (S : nat -> num)
    : (nat -> num) -> frontier -> frontier -> Prop :=
  | step_map : forall S' F' out, bc_edgeMap nbr rnbr V F S S' F' out -> bc_step nbr rnbr V F S S' F' out
  | step_reduce : fa = true -> fv F <> [] ->
      bc_step nbr rnbr V F S (fst (bc_reduced rnbr V S)) F (fresh (snd (bc_reduced rnbr V S)) true).

  (* 60-69 vertexMap with SSBetweennessCentrality_Vertex_F *)
  Definition mark (V : nat -> bool) (F : frontier) : nat -> bool := fun v => V v || mem v (fv F).
  (* 103-125: the forward loop.  The saved levels (last first), NumPaths, Visited, Frontier *)
  Inductive bc_forward : list frontier -> (nat -> num) -> (nat -> bool) -> frontier -> Prop :=
  | fwd_start : bc_forward [] (fset (fun _ => Some 0%Qc) src (Some 1%Qc)) (fset (fun _ => false) src true) (fresh [src] false)
  | fwd_round : forall Ls P V F P' F' out, bc_forward Ls P V F -> fv F <> [] ->
      bc_step outn inn V F P P' F' out -> bc_forward (F' :: Ls) P' (mark V out) out.
  (* 131-133: NumPaths[i] = 1 / NumPaths[i] *)
  Definition inverted (P : nat -> num) (v : nat) : num := ndiv (Some 1%Qc) (P v).
  (* 76-92 vertexMap with SSBetweennessCentrality_Back_Vertex_F *)
  Definition back_vertex (I : nat -> num) (D : nat -> num) (F : frontier) : nat -> num :=
    fold_left (fun D i => fset D i (nadd (D i) (I i))) (fv F) D.
  (* 127-148: the backward loop.  The levels left, Dependencies, Visited, Frontier *)
  Inductive bc_backward (I : nat -> num) (Ls : list frontier) : list frontier -> (nat -> num) -> (nat -> bool) -> frontier -> Prop :=
  | bwd_start : forall F rest, Ls = F :: rest ->
      bc_backward I Ls rest (back_vertex I (fun _ => Some 0%Qc) F) (mark (fun _ => false) F) F
  | bwd_round : forall F1 rest D V F D' F' out, bc_backward I Ls (F1 :: rest) D V F ->
      bc_step inn outn V F D D' F' out ->
      bc_backward I Ls rest (back_vertex I D' F1) (mark V F1) F1.
  (* 151-153 *)
  Definition scores (I D : nat -> num) (v : nat) : num := ndiv (nsub (D v) (I v)) (I v).
  Definition bc_returns (r : nat -> num) : Prop :=
    exists Ls P V F D V' F', bc_forward Ls P V F /\ fv F = [] /\
      bc_backward (inverted P) Ls [] D V' F' /\ r = scores (inverted P) D.
  (* SSBetweennessCentrality_EM, 274-276: prints NumPaths[0..99]; false: reads past the end *)
  Definition print_ok : bool := 100 <=? n.

  (* -- SSBetweennessCentrality_BFS, 330-456 --------------------------------------------------- *)
  (* edgeMap with the visit-once function BFS_F (314-328), by its specification C17 *)
  Definition advances (V : nat -> bool) (F out : list nat) : Prop :=
    NoDup out /\ forall v, In v out <-> v < n /\ V v = false /\ exists u, In u F /\ In v (outn u).
  (* 355-379 and 423-436: a value is the sum over the neighbours with Visited = 2; V: those vertices.
     The vertices that are written are not among them. *)
  Definition reduce_nghs (nb : nat -> list nat) (V : nat -> bool) (S : nat -> num) (F : list nat) : nat -> num :=
    fun v => if mem v F then nsum (map (fun d => if V d then S d else Some 0%Qc) (nb v)) else S v.
  Definition marked (V : nat -> bool) (F : list nat) : nat -> bool := fun v => V v || mem v F.
  Inductive bb_forward : list (list nat) -> (nat -> num) -> (nat -> bool) -> list nat -> Prop :=
  | bb_start : bb_forward [] (fset (fun _ => Some 0%Qc) src (Some 1%Qc)) (fset (fun _ => false) src true) [src]
  | bb_round : forall Ls P V F out, bb_forward Ls P V F -> F <> [] -> advances V F out ->
      bb_forward (F :: Ls) (reduce_nghs inn V P out) (marked V out) out.
  Definition finish (I D : nat -> num) (F : list nat) : nat -> num :=
    fun v => if mem v F then nadd (D v) (I v) else D v.
  Inductive bb_backward (I : nat -> num) (Ls : list (list nat)) : list (list nat) -> (nat -> num) -> (nat -> bool) -> Prop :=
  | bb_bstart : forall F rest, Ls = F :: rest -> bb_backward I Ls rest (finish I (fun _ => Some 0%Qc) F) (marked (fun _ => false) F)
  | bb_bround : forall F1 rest D V, bb_backward I Ls (F1 :: rest) D V ->
      bb_backward I Ls rest (finish I (reduce_nghs outn V D F1) F1) (marked V F1).
  Definition bb_returns (r : nat -> num) : Prop :=
    exists Ls P V D V', bb_forward Ls P V [] /\ bb_backward (inverted P) Ls [] D V' /\ r = scores (inverted P) D.
End BC.
