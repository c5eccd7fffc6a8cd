(* Specification of C95. *)
From Verif Require Import Base.

Definition monoid {M} (f : M -> M -> M) (id : M) : Prop := (forall a b c, f a (f b c) = f (f a b) c) /\ (forall a, f id a = a) /\ (forall a, f a id = a).
(* the mapped edges of a vertex combined in order; id if there are none *)
Definition total {M W} (f : M -> M -> M) (id : M) (mapf : nat -> nat -> W -> M) (nbrs : nat -> list (nat * W)) (v : nat) : M :=
  fold_right f id (map (fun e => mapf v (fst e) (snd e)) (nbrs v)).
