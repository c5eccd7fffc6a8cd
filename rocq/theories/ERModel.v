(* Model of edgeMapReduce_dense (gbbs/edge_map_reduce.h:318-383) and of the reduction over neighbours (vertex.h:135-145).

   parlay::reduce combines the mapped neighbours in order with any bracketing, and may combine with the identity.  map_f reads nothing that
   apply_f writes; apply_f reads and writes only the data of its vertex.  The iterations of the parallel loop run in any order. *)
From Coq Require Import Permutation.
From Verif Require Import Base.

Section ER.
  Variables M O A W : Type.
  Variable f : M -> M -> M.                     (* reduce_f *)
  Variable id : M.
  Variables inn outn : nat -> list (nat * W).
  Variable n : nat.
  Variable cond : nat -> bool.                  (* cond_f *)
  Variable mapf : nat -> nat -> W -> M.         (* map_f *)
  Variable applyf : nat -> M -> A -> option O * A.  (* apply_f: its result and the new data of the vertex *)

  (* parlay::reduce *)
  Inductive reduced : list M -> M -> Prop :=
  | red_id : reduced [] id
  | red_one : forall x, reduced [x] x
  | red_app : forall l1 l2 a b, reduced l1 a -> reduced l2 b -> reduced (l1 ++ l2) (f a b).
  (* 343-345, 362-364 *)
  Definition neighbors (in_edges : bool) (i : nat) : list (nat * W) := if in_edges then inn i else outn i.
  (* vertex.h:136-145 *)
  Definition nbr_reduced (in_edges : bool) (i : nat) (r : M) : Prop :=
    match neighbors in_edges i with
    | [] => r = id
    | l => reduced (map (fun e => mapf i (fst e) (snd e)) l) r
    end.
  (* out, the data of the vertices, and the calls of apply_f in order *)
  Record st := { out : list (option O); data : nat -> A; calls : list (nat * M) }.
  (* 340-350 (without output) and 355-379: iteration i *)
  Inductive body (output in_edges : bool) (i : nat) (s : st) : st -> Prop :=
  | b_skip : cond i = false -> body output in_edges i s {| out := if output then lset (out s) i None else out s; data := data s; calls := calls s |}
  | b_apply : forall r, cond i = true -> nbr_reduced in_edges i r ->
      body output in_edges i s {| out := if output then lset (out s) i (fst (applyf i r (data s i))) else out s;
                                  data := fset (data s) i (snd (applyf i r (data s i))); calls := calls s ++ [(i, r)] |}.
  Inductive loop (output in_edges : bool) : list nat -> st -> st -> Prop :=
  | l_end : forall s, loop output in_edges [] s s
  | l_step : forall i l s s1 s2, body output in_edges i s s1 -> loop output in_edges l s1 s2 -> loop output in_edges (i :: l) s s2.
  (* a vertexSubsetData: its n, and the members with their values *)
  Record subset := { universe : nat; member : nat -> option O }.
  (* 328-383; size = vs.size() = vs.numNonzeros() *)
  Inductive edgeMapReduce_dense (size : nat) (no_output in_edges : bool) (d : nat -> A) : subset -> (nat -> A) -> list (nat * M) -> Prop :=
  | er_empty : size = 0 -> edgeMapReduce_dense size no_output in_edges d {| universe := size; member := fun _ => None |} d []
  | er_no_output : forall order s, size <> 0 -> no_output = true -> Permutation order (seq 0 n) ->
      loop false in_edges order {| out := []; data := d; calls := [] |} s ->
      edgeMapReduce_dense size no_output in_edges d {| universe := n; member := fun _ => None |} (data s) (calls s)
  | er_output : forall order s out0, size <> 0 -> no_output = false -> Permutation order (seq 0 n) -> length out0 = n ->
      loop true in_edges order {| out := out0; data := d; calls := [] |} s ->
      edgeMapReduce_dense size no_output in_edges d {| universe := n; member := fun v => nth v (out s) None |} (data s) (calls s).
End ER.
