(* Specification vocabulary for C17, C18. *)
From Verif Require Import Base VSModel VSSpec EMModel.

(* all frontier edges in order: (frontier index, position, neighbour) *)
Definition all_edges {X} (nghs : list (list X)) : list (nat * nat * X) :=
  flat_map (fun i => combine (map (fun j => (i, j)) (seq 0 (length (nth i nghs [])))) (nth i nghs []))
           (seq 0 (length nghs)).

(* the outputs of the successful edges in order *)
Definition successes {X Y} (ans : nat -> nat -> X -> option Y) (es : list (nat * nat * X)) : list Y :=
  flat_map (fun e => match ans (fst (fst e)) (snd (fst e)) (snd e) with Some y => [y] | None => [] end) es.

(* a consistent graph on [0, n) *)
Record graph_ok (n : nat) (outn inn : nat -> list nat) : Prop := {
  g_dual : forall s d, s < n -> d < n -> (In d (outn s) <-> In s (inn d));
  g_out : forall s d, s < n -> In d (outn s) -> d < n;
  g_in : forall s d, d < n -> In s (inn d) -> s < n }.

(* d is to be visited next *)
Definition next_vertex (outn : nat -> list nat) (par : nat -> option nat) (F : list nat) (d : nat) : Prop :=
  par d = None /\ exists s, In s F /\ In d (outn s).

(* the effect every traversal of frontier F should have: out is exactly the set of
   unvisited out-neighbours of F; each gets a parent in F; nothing else changes *)
Definition advanced (n : nat) (outn : nat -> list nat) (par : nat -> option nat) (F : list nat)
    (par' : nat -> option nat) (out : vset unit) : Prop :=
  (exists l, NoDup l /\ (forall d, In d l <-> next_vertex outn par F d) /\ built n out (plain l) /\ shows tt n out (plain l)) /\
  (forall d, next_vertex outn par F d -> exists s, In s F /\ In d (outn s) /\ par' d = Some s) /\
  (forall d, ~ next_vertex outn par F d -> par' d = par d).
