(* Specification of C92: counters. *)
From Verif Require Import Base ACModel.

(* the updates of a worker that have not been made yet *)
Definition pending (w : upc) : nat := match w with Ready xs => list_sum xs | Loaded _ x xs => x + list_sum xs end.
(* the sum of the updates of all workers that have not been made yet *)
Definition to_come (s : cstate) : nat := list_sum (map pending (wk s)).
Definition all_done (s : cstate) : Prop := to_come s = 0 /\ forall w, In w (wk s) -> w = Ready [].
(* the sum of all updates *)
Definition grand_total (xss : list (list nat)) : nat := list_sum (map (@list_sum) xss).
(* the entries of a counter after initialisation, or after rounds of concurrent updates (each worker's updates a list), each
   round followed by a reset *)
Inductive fresh (M szT p : nat) : list (option nat) -> Prop :=
| fresh_init : forall e, initialize szT p = Some e -> fresh M szT p e
| fresh_reset : forall e xss sched s e', fresh M szT p e -> length xss = p -> cexec M szT p sched (cstart e xss) = Some s ->
    reset szT p (ent s) = Some e' -> fresh M szT p e'.
