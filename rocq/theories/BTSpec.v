(* Specification vocabulary for C79: breadth-first search trees. *)
From Verif Require Import Base FASpec.

(* r is the least vertex of the component of v *)
Definition root_of (n : nat) (outn : nat -> list nat) (r v : nat) : Prop :=
  r < n /\ reachable outn r v /\ forall u, reachable outn v u -> r <= u.
(* p is a neighbour of v one edge closer to r; and, if asked, the least such neighbour *)
Definition closer (outn : nat -> list nat) (least : bool) (r v p : nat) : Prop :=
  In v (outn p) /\ exists j, dist outn r p j /\ dist outn r v (S j) /\
    (least = true -> forall q, In v (outn q) -> dist outn r q j -> p <= q).
(* T is a breadth-first search forest: every vertex except the least of its component is the
   first component of exactly one pair, whose second component is closer to the root *)
Definition bfs_tree (n : nat) (outn : nat -> list nat) (least : bool) (T : list (nat * nat)) : Prop :=
  forall v, v < n -> exists r, root_of n outn r v /\
    (v = r /\ (forall p, ~ In (v, p) T) \/
     v <> r /\ exists p, closer outn least r v p /\ forall q, In (v, q) T <-> q = p).
