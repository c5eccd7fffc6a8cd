(* Specification vocabulary for C60: widths of walks. *)
From Coq Require Import ZArith.
From Verif Require Import Base.

(* a walk from src to v and its width: the least weight on it, inf for the walk without edges *)
Inductive wide_walk (outw : nat -> list (nat * Z)) (src : nat) (inf : Z) : nat -> Z -> Prop :=
| wide_0 : wide_walk outw src inf src inf
| wide_S : forall v x u w, wide_walk outw src inf v x -> In (u, w) (outw v) -> wide_walk outw src inf u (Z.min x w).
(* D v is the greatest width of a walk to v; none if there is no walk wider than none *)
Definition widths_are (n : nat) (outw : nat -> list (nat * Z)) (src : nat) (inf none : Z) (D : nat -> Z) : Prop :=
  forall v, v < n ->
    (D v = none \/ wide_walk outw src inf v (D v)) /\ (none <= D v)%Z /\
    forall x, wide_walk outw src inf v x -> (x <= D v)%Z.
(* the same graph with integer weights *)
Definition zout (outw : nat -> list (nat * nat)) (v : nat) : list (nat * Z) := map (fun e => (fst e, Z.of_nat (snd e))) (outw v).
