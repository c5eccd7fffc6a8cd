(* Specification vocabulary for C63. *)
From Verif Require Import Base FASpec.

(* u and v reach each other *)
Definition strongly_connected (outn : nat -> list nat) (u v : nat) : Prop := reachable outn u v /\ reachable outn v u.
(* one vertex of every component *)
Definition representatives (n : nat) (outn : nat -> list nat) (R : list nat) : Prop :=
  NoDup R /\ (forall r, In r R -> r < n) /\ (forall r r', In r R -> In r' R -> strongly_connected outn r r' -> r = r') /\
  forall v, v < n -> exists r, In r R /\ strongly_connected outn v r.
