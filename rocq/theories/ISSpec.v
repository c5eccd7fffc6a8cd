(* Specification vocabulary for C21, C22. *)
From Verif Require Import Base ISModel.
From Coq Require Export Sorting.Sorted.

(* strictly increasing list *)
Definition increasing (l : list nat) : Prop := StronglySorted lt l.

(* l lists the common elements of A and B in increasing order *)
Definition common (A B l : list nat) : Prop :=
  increasing l /\ forall x, In x l <-> In x A /\ In x B.

(* the orders in which the calls of a fork-join computation can happen *)
Inductive interleaving : list nat -> list nat -> list nat -> Prop :=
| il_nil : interleaving [] [] []
| il_l x l r c : interleaving l r c -> interleaving (x :: l) r (x :: c)
| il_r x l r c : interleaving l r c -> interleaving l (x :: r) (x :: c).
Inductive happens : calls -> list nat -> Prop :=
| h_run l : happens (Run l) l
| h_par cl cr l r c : happens cl l -> happens cr r -> interleaving l r c -> happens (ParDo cl cr) c.
