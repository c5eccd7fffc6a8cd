(* Model of GoodrichPszona11/DegeneracyOrder.h, DegeneracyOrder (10-69).

   Degrees are uintE, so subtraction is modulo null + 1.  edgeMapCount_sparse as in KCModel; the order of the vertices that a
   filter keeps is kept.  parlay::approximate_kth_smallest is a relation sel between the values, k and its result; it is asked
   only for k below the number of values, otherwise the call is outside its range.  The number ns (14-15) is peel_size of GOModel. *)
From Verif Require Import Base KCModel GOModel.

Section GQ.
  Variable outn : nat -> list nat.
  Variable null : nat.
  Variable sel : list nat -> nat -> nat -> Prop.
  (* 50-51 this_round and active *)
  Definition round_of (D : nat -> nat) (t : nat) (active : list nat) : list nat := filter (fun v => D v <=? t) active.
  Definition rest_of (D : nat -> nat) (t : nat) (active : list nat) : list nat := filter (fun v => t <? D v) active.
  (* 30-66 the loop: active, D and ret, and the result; None: the selection was called outside its range (41) *)
  Inductive gq_loop (ns : nat) : list nat -> (nat -> nat) -> list nat -> option (list nat) -> Prop :=
  | gq_done : forall D ret, gq_loop ns [] D ret (Some ret)
  | gq_range : forall active D ret, active <> [] -> length active <= ns -> gq_loop ns active D ret None
  | gq_round : forall active D ret t res out, active <> [] -> ns < length active -> sel (map D active) ns t ->
      counted (flat_map outn (round_of D t active)) res ->
      gq_loop ns (rest_of D t active) (drop null D res) (ret ++ round_of D t active) out ->
      gq_loop ns active D ret out.
  (* 12-22, 26, 68 *)
  Definition gq_returns (n ns : nat) (out : option (list nat)) : Prop := gq_loop ns (seq 0 n) (fun v => length (outn v)) [] out.
End GQ.
