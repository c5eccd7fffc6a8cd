(* Specification vocabulary for C88. *)
From Verif Require Import Base GNSpec.

(* two labellings group the vertices of a set in the same way *)
Definition same_groups (S : nat -> Prop) (a b : list nat) : Prop :=
  forall i j, S i -> S j -> (nth i a 0 = nth j a 0 <-> nth i b 0 = nth j b 0).
(* labels that are the connected components of a list of edges on n vertices *)
Definition labels_components (n : nat) (es : list (nat * nat)) (l : list nat) : Prop :=
  length l = n /\ (forall i, i < n -> nth i l 0 < n) /\ forall i j, i < n -> j < n -> (nth i l 0 = nth j l 0 <-> joined es i j).
