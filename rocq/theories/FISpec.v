(* Specification for C96: what a client sees that asks an iterator for its current value and then k times for the next one. *)
From Verif Require Import Base.
Unset Strict Implicit.

(* the values of k calls of next, None if one of them fails *)
Fixpoint draws {E I} (nxt : I -> option (E * I)) (k : nat) (it : I) : option (list E * I) :=
  match k with
  | 0 => Some ([], it)
  | S k =>
      match nxt it with
      | Some (e, it') => match draws nxt k it' with Some (l, it2) => Some (e :: l, it2) | None => None end
      | None => None
      end
  end.
