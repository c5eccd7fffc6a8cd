(* Model of the neighbour iterator of an uncompressed vertex (gbbs/vertex.h:36-66) and of the filtering iterator built on it
   (gbbs/bridge.h:384-414).  The edge array is a list that may go on behind the edges of the vertex (all vertices share one
   array); a read behind its end, or of the uninitialised last_edge, is None.  Counters are unbounded. *)
From Verif Require Import Base.
Unset Strict Implicit.

Section iter.
  Context {E : Type}.
  Variable arr : list E.

  (* vertex.h:37-41; edges is the offset of the pointer from the first edge of the vertex *)
  Record iter := { edges : nat; degree : nat; proc : nat; last_edge : option E }.

  (* vertex.h:42-48, 63-66 *)
  Definition get_iter (d : nat) : option iter :=
    if 0 <? d then
      match nth_error arr 0 with
      | Some e => Some {| edges := 1; degree := d; proc := 1; last_edge := Some e |}
      | None => None
      end
    else Some {| edges := 0; degree := d; proc := 0; last_edge := None |}.

  (* vertex.h:50 *)
  Definition cur (it : iter) : option E := last_edge it.

  (* vertex.h:52-58 *)
  Definition next (it : iter) : option (E * iter) :=
    match nth_error arr (edges it) with
    | Some e => Some (e, {| edges := S (edges it); degree := degree it; proc := S (proc it); last_edge := Some e |})
    | None => None
    end.

  (* vertex.h:60 *)
  Definition has_next (it : iter) : bool := proc it <? degree it.

  Variable pred : E -> bool.

  (* bridge.h:385-388; the iterator is held by reference, so it is part of the state *)
  Record filter_iter := { under : iter; cur_val : E }.

  (* bridge.h:392-394, the loop of the constructor; None when the fuel runs out *)
  Fixpoint init_loop (fuel : nat) (it : iter) (c : E) : option filter_iter :=
    match fuel with
    | 0 => None
    | S fuel =>
        if negb (pred c) && has_next it then
          match next it with
          | Some (c', it') => init_loop fuel it' c'
          | None => None
          end
        else Some {| under := it; cur_val := c |}
    end.

  (* bridge.h:390-395, 411-414 *)
  Definition make_filter_iter (it : iter) : option filter_iter :=
    match cur it with
    | Some c => init_loop (S (degree it)) it c
    | None => None
    end.

  (* bridge.h:397 *)
  Definition fcur (f : filter_iter) : E := cur_val f.

  (* bridge.h:400-405, the loop of next *)
  Fixpoint next_loop (fuel : nat) (it : iter) (c : E) : option filter_iter :=
    match fuel with
    | 0 => None
    | S fuel =>
        if has_next it then
          match next it with
          | Some (c', it') => if pred c' then Some {| under := it'; cur_val := c' |} else next_loop fuel it' c'
          | None => None
          end
        else Some {| under := it; cur_val := c |}
    end.

  (* bridge.h:399-407 *)
  Definition fnext (f : filter_iter) : option (E * filter_iter) :=
    match next_loop (S (degree (under f))) (under f) (cur_val f) with
    | Some f' => Some (cur_val f', f')
    | None => None
    end.
End iter.
