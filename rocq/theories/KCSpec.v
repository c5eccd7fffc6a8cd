(* Specification vocabulary for C39: cores and coreness, counting parallel edges. *)
From Verif Require Import Base.

(* every edge is stored in both directions, with multiplicity *)
Definition symmetric (n : nat) (outn : nat -> list nat) : Prop :=
  (forall u v, u < n -> In v (outn u) -> v < n) /\
  (forall u v, u < n -> v < n -> count_occ Nat.eq_dec (outn u) v = count_occ Nat.eq_dec (outn v) u).
(* the number of edges from v into S *)
Definition degree_in (outn : nat -> list nat) (S : nat -> bool) (v : nat) : nat := length (filter S (outn v)).
(* every member of S has at least k edges into S *)
Definition core (n : nat) (outn : nat -> list nat) (k : nat) (S : nat -> bool) : Prop :=
  forall v, S v = true -> v < n /\ k <= degree_in outn S v.
(* k is the largest number such that v belongs to a k-core *)
Definition coreness (n : nat) (outn : nat -> list nat) (v k : nat) : Prop :=
  (exists S, core n outn k S /\ S v = true) /\ (forall j S, core n outn j S -> S v = true -> j <= k).
