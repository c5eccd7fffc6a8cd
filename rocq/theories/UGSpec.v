(* Specification vocabulary for C85. *)
From Verif Require Import Base.
From Coq Require Import Relations.

(* every vertex is labelled with a vertex that is labelled with itself *)
Definition self_labelled (n : nat) (P : nat -> nat) : Prop := forall x, x < n -> P x < n /\ P (P x) = P x.
(* the edges of the graph *)
Definition edges (n : nat) (outn : nat -> list nat) : list (nat * nat) := flat_map (fun u => map (pair u) (outn u)) (seq 0 n).
(* v can be reached from u *)
Definition reaches (outn : nat -> list nat) : nat -> nat -> Prop := clos_refl_trans nat (fun a b => In b (outn a)).
