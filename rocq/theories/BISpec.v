(* Specification vocabulary for C67. *)
From Verif Require Import Base.

(* there is a path from a to b that does not visit c (a and b included) *)
Inductive path_avoiding (outn : nat -> list nat) (c a : nat) : nat -> Prop :=
| pa_here : a <> c -> path_avoiding outn c a a
| pa_step : forall u v, path_avoiding outn c a u -> In v (outn u) -> v <> c -> path_avoiding outn c a v.

(* the edges e and f are in the same biconnected component: there is no vertex c whose removal
   separates them, that is, after the removal of any c everything that is left of e is
   connected with everything that is left of f *)
Definition same_bicc (outn : nat -> list nat) (e f : nat * nat) : Prop :=
  forall c p q, p = fst e \/ p = snd e -> q = fst f \/ q = snd f -> p <> c -> q <> c -> path_avoiding outn c p q.

(* one edge of every biconnected component *)
Definition bicc_representatives (n : nat) (outn : nat -> list nat) (reps : list (nat * nat)) : Prop :=
  (forall u v, In (u, v) reps -> u < n /\ In v (outn u)) /\
  ForallOrdPairs (fun e f => ~ same_bicc outn e f) reps /\
  (forall u v, u < n -> In v (outn u) -> exists e, In e reps /\ same_bicc outn (u, v) e).

(* the edges go both ways and stay in range *)
Definition undirected_graph (n : nat) (outn : nat -> list nat) : Prop :=
  forall u v, u < n -> In v (outn u) -> v < n /\ In u (outn v).
