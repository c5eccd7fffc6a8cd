(* Specification of C11-C13: the operations as they would behave if each call
   were executed alone, and what it means that a concurrent run is explained by
   an order of such calls. *)
From Verif Require Import Base.
From Coq Require Import ZArith.

(* sequential meaning: old value -> new value and returned value *)
Definition seq_op (T R : Type) := T -> T * R.

Definition seq_write_min (v b : Z) : Z * bool := if (b <? v)%Z then (b, true) else (v, false).
Definition seq_write_max (v b : Z) : Z * bool := if (v <? b)%Z then (b, true) else (v, false).
Definition seq_fetch_add (w v b : Z) : Z * Z := (((v + b) mod 2 ^ w)%Z, v).
Definition seq_write_add (w v b : Z) : Z * unit := (((v + b) mod 2 ^ w)%Z, tt).
Definition seq_fetch_add_threshold (w v b max_v : Z) : Z * option Z :=
  if (v <=? max_v)%Z then (((v + b) mod 2 ^ w)%Z, Some v) else (v, None).

(* run the calls whose numbers are in [order], one after the other *)
Fixpoint replay {T R} (call : nat -> seq_op T R) (v : T) (order : list nat) : T * list (nat * R) :=
  match order with
  | [] => (v, [])
  | i :: rest =>
      let '(v1, r) := call i v in
      let '(v2, rs) := replay call v1 rest in (v2, (i, r) :: rs)
  end.

(* [value k] and [res k i]: the memory and the result of call i (None: not yet
   returned) after the first k steps of a run.  The run is linearizable: one
   fixed order of distinct calls explains every moment of the run; a call is in
   the explaining prefix exactly from some step within its execution on (when
   its result is determined), so in particular the order respects real time. *)
Definition linearizable {T R} (call : nat -> seq_op T R) (v0 : T)
           (value : nat -> T) (res : nat -> nat -> option R) : Prop :=
  exists order, NoDup order /\
    forall k, exists j,
      fst (replay call v0 (firstn j order)) = value k /\
      forall i r, res k i = Some r <-> In (i, r) (snd (replay call v0 (firstn j order))).
