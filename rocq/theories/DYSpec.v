(* Specification vocabulary for C89: what the operations of a dynamic array do to a list. *)
From Coq Require Import Permutation.
From Verif Require Import Base DYModel.
Unset Strict Implicit.
Section S.
  Context {E : Type}.
  (* the room after making sure that n more elements fit *)
  Definition room (c len n : nat) : nat := if c <? n + len then Nat.max (2 * (n + len)) kDynArrMinBktSize else c.
  (* the list and the room after an operation; None: the operation is undefined *)
  Definition sem (s : list E * nat) (o : op E) : option (list E * nat) :=
    let '(l, c) := s in
    match o with
    | OResize _ _ n => Some (l, room c (length l) n)
    | OPush v => if length l <? c then Some (l ++ [v], c) else None
    | OInsert v pos => if length l + pos <? c then Some (l, c) else None
    | OCopyIn _ _ f | OBucket _ _ f => Some (l ++ f, room c (length l) (length f))
    | OBucketPush _ v => Some (l ++ [v], room c (length l) 1)
    | OClear _ => Some ([], c)
    end.
  Definition sem_run (ops : list (op E)) (s : list E * nat) : option (list E * nat) :=
    fold_left (fun s o => match s with None => None | Some s => sem s o end) ops (Some s).
  (* every schedule is an order of the iterations *)
  Definition sched_ok (s : nat -> list nat) : Prop := forall n, Permutation (s n) (seq 0 n).
  Definition op_ok (o : op E) : Prop :=
    match o with
    | OResize _ s _ => sched_ok s
    | OCopyIn s1 s2 _ | OBucket s1 s2 _ => sched_ok s1 /\ sched_ok s2
    | OBucketPush s _ => sched_ok s
    | _ => True
    end.
  Definition live (h : heap E) (b : nat) : Prop := exists cs, nth_error h b = Some (Some cs).
  (* the array holds the list l and has room for c elements *)
  Definition holds (st : heap E * darr) (l : list E) (c : nat) : Prop :=
    size (snd st) = length l /\ capacity (snd st) = c /\ length l <= c /\
    forall i, i < length l -> load (fst st) (arr (snd st)) i = nth_error l i.
  (* the constructors: no room, room for s elements, or the elements l of the caller's block b followed by unused cells *)
  Inductive started (h0 : heap E) : option nat -> heap E * darr -> list E -> nat -> Prop :=
  | started0 : started h0 None (h0, dyn_arr0) [] 0
  | started1 s : started h0 None (dyn_arr1 h0 s) [] s
  | started4 b l tl : nth_error h0 b = Some (Some (map Some l ++ tl)) ->
      started h0 (Some b) (h0, dyn_arr4 (Some b) (length l) (length l + length tl) false) l (length l + length tl).
  (* elements appended by a history *)
  Definition appended (o : op E) : nat :=
    match o with OPush _ | OBucketPush _ _ => 1 | OCopyIn _ _ f | OBucket _ _ f => length f | _ => 0 end.
  Definition total_appended (ops : list (op E)) : nat := list_sum (map appended ops).
End S.
