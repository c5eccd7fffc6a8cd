(* Specification of C90. *)
From Verif Require Import Base.

(* the insertions of a history of batches: (u, v, true) inserts the edge, (u, v, false) is a query *)
Definition inserted (bs : list (list (nat * nat * bool))) : list (nat * nat) := map fst (filter snd (concat bs)).
(* following the parents from v ends in r *)
Definition root_of (P : nat -> nat) (v r : nat) : Prop := exists k, Nat.iter k P v = r /\ P r = r.
(* every update names vertices below n *)
Definition batches_ok (n : nat) (bs : list (list (nat * nat * bool))) : Prop := forall b u v t, In b bs -> In (u, v, t) b -> u < n /\ v < n.
