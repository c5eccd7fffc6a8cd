(* Model of benchmarks/GraphColoring/Hasenplaugh14/GraphColoring.h.

   A colour is a natural number, None = UINT_E_MAX (not coloured yet); degrees are below 2^32-2.
   The random permutation P is a parameter.  m = G.m, which only steers the choice of the
   traversal in edgeMap. *)
From Coq Require Import ZArith.
From Verif Require Import Base VSModel VSSpec EMModel CDModel.

(* 30-61 color: v has the neighbours whose colours, when they are read, are seen.
   bits[c] is set for every colour c < deg that is read; the least i with bits[i] = 0 *)
Definition pick_color (seen : list (option nat)) : nat :=
  let deg := length seen in
  if deg =? 0 then 0
  else match find (fun i => negb (existsb (fun c => match c with Some c => c =? i | None => false end) seen)) (seq 0 deg) with
       | Some i => i
       | None => deg + 1
       end.

Section GC.
  Variable n : nat.
  Variable outn : nat -> list nat.
  Variable m : nat.
  Variable lf : bool.
  Variable P : nat -> nat.

  (* parlay/utilities.h log2_up on uintE: the number of bits of i - 1, hence 32 for i = 0 *)
  Definition log2_up32 (d : nat) : nat := if d =? 0 then 32 else Nat.log2_up d.
  Definition gc_class (v : nat) : nat := if lf then length (outn v) else log2_up32 (length (outn v)).
  (* 107-111, 124-127 count_f: is the neighbour u coloured before v? *)
  Definition earlier (u v : nat) : bool := (gc_class v <? gc_class u) || ((gc_class u =? gc_class v) && (P u <? P v)).
  (* 112, 128 priorities *)
  Definition priorities (v : nat) : Z := Z.of_nat (length (filter (fun u => earlier u v) (outn v))).

  (* 149-152: the parallel loop over the roots R.  Iteration v reads the colours of the neighbours
     of v, each before or after the iteration for that neighbour (if there is one) has written
     it, and its own before it writes: view v u is what it reads for u. *)
  Definition color_roots (R : list nat) (colors colors' : nat -> option nat) : Prop :=
    exists view : nat -> nat -> option nat,
      (forall v u, view v u = colors u \/ (In u R /\ u <> v /\ view v u = colors' u)) /\
      (forall v, colors' v = if existsb (Nat.eqb v) R then Some (pick_color (map (view v) (outn v))) else colors v).

  (* 132-163: the loop; finished, colors, priorities, roots before an iteration *)
  Inductive gc_loop : nat -> (nat -> option nat) -> (nat -> Z) -> vset unit -> Prop :=
  | gc_start : gc_loop 0 (fun _ => None) priorities
      (vs_sparse n (plain (filter (fun v => (priorities v =? 0)%Z) (seq 0 n))))
  | gc_round : forall f colors p U U1 colors' p' U', gc_loop f colors p U -> f <> n ->
      toSparse U = Some U1 -> color_roots (map fst (vs U1)) colors colors' ->
      edgeMap_count (fun _ _ => true) n outn outn m U1 p p' U' ->
      gc_loop (f + size U) colors' p' U'.

  (* 91-167 Coloring: a possible result *)
  Definition coloring_returns (colors : nat -> option nat) : Prop := exists p U, gc_loop n colors p U.
End GC.
