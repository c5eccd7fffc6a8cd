(* Specification vocabulary for C93. *)
From Verif Require Import Base KCSpec BKSpec.

(* the edges of v into the list R *)
Definition edges_into (outn : nat -> list nat) (R : list nat) (v : nat) : nat := degree_in outn (fun w => mem w R) v.
(* a selection of the k-th returns one of the values; at most b of them are smaller *)
Definition selects (k b : nat) (sel : list nat -> nat -> nat -> Prop) : Prop :=
  forall vals t, sel vals k t -> In t vals /\ length (filter (fun x => x <? t) vals) <= b.
(* it always has a result *)
Definition always_selects (sel : list nat -> nat -> nat -> Prop) : Prop := forall vals k, k < length vals -> exists t, sel vals k t.
(* the exact selection: t is at position k (from 0) of the sorted values *)
Definition exact_kth (vals : list nat) (k t : nat) : Prop :=
  In t vals /\ length (filter (fun x => x <? t) vals) <= k < length (filter (fun x => x <=? t) vals).
(* an order in rounds: every round takes the vertices that have at most t edges into those that are left, where at most b of
   those left have fewer than t *)
Inductive in_rounds (outn : nat -> list nat) (b : nat) : list nat -> Prop :=
| no_round : in_rounds outn b []
| a_round : forall A R t, A <> [] -> (forall v, In v A -> edges_into outn (A ++ R) v <= t) -> (forall v, In v R -> t < edges_into outn (A ++ R) v) ->
    length (filter (fun v => edges_into outn (A ++ R) v <? t) (A ++ R)) <= b -> in_rounds outn b R -> in_rounds outn b (A ++ R).
