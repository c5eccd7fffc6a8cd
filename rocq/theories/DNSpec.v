(* Specification vocabulary for C58. *)
From Verif Require Import Base VSModel EMModel KCSpec.

(* S is a non-empty set of vertices *)
Definition vertex_set (n : nat) (S : list nat) : Prop := NoDup S /\ S <> [] /\ forall v, In v S -> v < n.
(* the number of (directed) edges inside S *)
Definition inside (outn : nat -> list nat) (S : list nat) : nat :=
  list_sum (map (fun u => length (filter (fun v => existsb (Nat.eqb v) S) (outn u))) S).
(* the fraction r is at least the density |E(S)| / |S| divided by a / b *)
Definition at_least (r : nat * nat) (outn : nat -> list nat) (S : list nat) (a b : nat) : Prop :=
  inside outn S * b * snd r <= a * fst r * length S.
(* the fraction r is the density of S *)
Definition is_density (r : nat * nat) (outn : nat -> list nat) (S : list nat) : Prop :=
  fst r * length S = inside outn S * snd r.
(* no parallel edges, no loops *)
Definition simple (n : nat) (outn : nat -> list nat) : Prop :=
  forall u, u < n -> NoDup (outn u) /\ ~ In u (outn u).
