(* Specification for C35/C36. *)
From Verif Require Import Base.
From Coq Require Export Relations.

(* vertices connected by a path of edges of E (in either direction) *)
Definition connected (E : list (nat * nat)) : nat -> nat -> Prop :=
  clos_refl_sym_trans nat (fun a b => In (a, b) E).

(* r is the root of the tree containing x *)
Definition tree_root (P : nat -> nat) (x r : nat) : Prop :=
  P r = r /\ exists k, Nat.iter k P x = r.

Definition same_tree (P : nat -> nat) (x y : nat) : Prop :=
  exists r, tree_root P x r /\ tree_root P y r.

(* vertices connected by edges of E, starting from the partition given by the
   parent pointers P0 *)
Definition connected_from (P0 : nat -> nat) (E : list (nat * nat)) : nat -> nat -> Prop :=
  clos_refl_sym_trans nat (fun a b => In (a, b) E \/ b = P0 a).
