(* Specification vocabulary for C51 and C84. *)
From Verif Require Import Base HTModel.

(* no cell holds a key *)
Definition all_empty (t : table nat) : Prop := forall c, In c t -> fst c = None.
(* k is not the table's empty key *)
Definition nonempty (empty k : nat) : bool := negb (k =? empty).
