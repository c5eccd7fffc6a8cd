(* Specification vocabulary for C28-C30 and C50. *)
From Verif Require Import Base HTModel.

Definition keys_of {V} (t : table V) : list nat := map fst (entries t).
(* the number of different elements of a list *)
Definition distinct (l : list nat) : nat := length (nodup Nat.eq_dec l).
Definition finished {V} (s : st V) : Prop := forall i p, nth_error (pcs s) i = Some p -> exists r, p = Done r.
(* call i has returned r *)
Definition returned {V} (s : st V) (i : nat) (r : bool) : Prop := nth_error (pcs s) i = Some (Done r).
(* how often call i was scheduled *)
Definition steps (sched : list nat) (i : nat) : nat := count_occ Nat.eq_dec sched i.

(* tables that occur: a fresh table, and what a finished phase of concurrent insertions
   leaves behind, provided the keys fit *)
Inductive reached {V} (hash : nat -> nat) (e0 : V) on_new on_old (m : nat) : table V -> Prop :=
| reached_new : reached hash e0 on_new on_old m (new_table e0 m)
| reached_phase t calls sched :
    reached hash e0 on_new on_old m t ->
    distinct (keys_of t ++ map fst calls) <= m ->
    finished (exec e0 on_new on_old calls sched (start hash t calls)) ->
    reached hash e0 on_new on_old m (tab (exec e0 on_new on_old calls sched (start hash t calls))).

(* the value an association list gives to k *)
Definition lookup {V} (l : list (nat * V)) (k : nat) : option V :=
  option_map snd (List.find (fun e => fst e =? k) l).
(* the elements whose key is k, in order *)
Definition with_key {A} (key : A -> nat) (k : nat) (l : list A) : list A := filter (fun x => key x =? k) l.
(* the results f produces, in order *)
Definition outputs {A E} (f : A -> option E) (l : list A) : list E :=
  flat_map (fun x => match f x with Some y => [y] | None => [] end) l.
(* a run of occupied cells *)
Definition cells {V} (l : list (nat * V)) : table V := map (fun e => (Some (fst e), snd e)) l.
