(* Specification of C94: the histories of a resizable table. *)
From Verif Require Import Base RTModel.

(* history hash T all: T is a table after construction, calls of maybe_resize, and batches of concurrent insertions for which
   there is room (ne counts the elements; one cell must stay empty), each followed by update_nelms; all is the list of all
   pairs given to the insertions *)
Inductive history (hash : nat -> nat) : rt -> list (nat * nat) -> Prop :=
| h_new : forall x, history hash (constructed x) []
| h_resize : forall T all n T1, history hash T all -> resized hash T n (Some T1) -> history hash T1 all
| h_insert : forall T all calls T2, history hash T all -> ne T + length calls < length (rtab T) -> inserted hash T calls T2 ->
    history hash (update_nelms T2) (all ++ calls).
(* a list without repetition that has the members of another *)
Definition lists_set (l all : list (nat * nat)) : Prop := NoDup l /\ forall x, In x l <-> In x all.
