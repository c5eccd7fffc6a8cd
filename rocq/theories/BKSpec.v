(* Specification vocabulary for C19 and C20: what a user of the bucketing structure does and
   may rely on.  Nothing here looks inside the structure. *)
From Verif Require Import Base BKModel.

(* bucket a comes before bucket b, or is b *)
Definition no_later (inc : bool) (a b : nat) : Prop := if inc then a <= b else b <= a.
Definition earlier (inc : bool) (a b : nat) : Prop := if inc then a < b else b < a.

Definition mem (v : nat) (l : list nat) : bool := existsb (Nat.eqb v) l.

(* one identifier being moved to bucket next; one_arg tells which get_bucket is used *)
Record move := { mv_id : nat; mv_next : nat; mv_one_arg : bool }.
Definition moved (ms : list move) (d : nat -> nat) (v : nat) : nat :=
  match find (fun m => mv_id m =? v) ms with Some m => mv_next m | None => d v end.
(* the batch the user hands to update_buckets: prev is the bucket before the move *)
Definition batch inc o null (s : bst) (d : nat -> nat) (ms : list move) : list (nat * option nat) :=
  map (fun m => (mv_id m, if mv_one_arg m then get_bucket1 inc o s (mv_next m)
                          else get_bucket2 inc o null s (d (mv_id m)) (mv_next m))) ms.

(* a move to a real bucket that is not before the last one returned; the one-argument
   get_bucket is, for increasing order, only for identifiers that are due and move closer *)
Definition legal inc null (d : nat -> nat) (due : nat -> bool) (last : nat) (m : move) : Prop :=
  mv_next m < null /\ no_later inc last (mv_next m) /\
  (mv_one_arg m = true -> inc = true -> due (mv_id m) = true /\ mv_next m < d (mv_id m)).
(* moves that cannot leave two copies of an identifier in one bucket *)
Definition closer inc null (d : nat -> nat) (due : nat -> bool) (m : move) : Prop :=
  d (mv_id m) = null \/
  (due (mv_id m) = true /\ earlier inc (mv_next m) (d (mv_id m)) /\ (mv_one_arg m = true -> inc = true)) \/
  (due (mv_id m) = false /\ no_later inc (mv_next m) (d (mv_id m))).
Definition requeue (due : nat -> bool) (m : move) : Prop := due (mv_id m) = false.

(* histories.  due v: v has been put into the structure since it was last returned;
   last: the last bucket returned (at first, the first bucket in use).
   ok is a further condition on each move *)
Inductive run (inc : bool) (o null n : nat) (d0 : nat -> nat)
  (ok : (nat -> nat) -> (nat -> bool) -> move -> Prop) : bst -> (nat -> nat) -> (nat -> bool) -> nat -> Prop :=
| run_start i : i < n -> d0 i < null -> (forall j, d0 j <= null) ->
    (forall j, j < n -> d0 j < null -> no_later inc (d0 i) (d0 j)) ->
    (forall j, n <= j -> d0 j = null) ->
    run inc o null n d0 ok (make inc o null n d0) d0 (fun v => (v <? n) && (d0 v <? null)) (d0 i)
| run_next s d due last fuel b L s' :
    run inc o null n d0 ok s d due last ->
    next_bucket inc o fuel d s = Ret (Some (b, L)) s' ->
    run inc o null n d0 ok s' d (fun v => due v && negb (mem v L)) b
| run_move s d due last ms :
    run inc o null n d0 ok s d due last ->
    NoDup (map mv_id ms) ->
    (forall m, In m ms -> legal inc null d due last m /\ ok d due m) ->
    run inc o null n d0 ok (update_seq (batch inc o null s d ms) s) (moved ms d)
      (fun v => due v || mem v (map mv_id ms)) last.
Definition any (d : nat -> nat) (due : nat -> bool) (m : move) : Prop := True.

(* asking for the next bucket until the null bucket is returned *)
Inductive drains (inc : bool) (o : nat) (d : nat -> nat) : bst -> list (nat * list nat) -> Prop :=
| drains_end s fuel s' : next_bucket inc o fuel d s = Ret None s' -> drains inc o d s []
| drains_next s fuel b L s' out : next_bucket inc o fuel d s = Ret (Some (b, L)) s' ->
    drains inc o d s' out -> drains inc o d s ((b, L) :: out).
