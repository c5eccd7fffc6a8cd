(* Specification vocabulary for C83: peeling by the number of cliques. *)
From Verif Require Import Base CQSpec.

Section KP.
  Variable n : nat.
  Variable outn : nat -> list nat.
  Variable K : nat.
  (* the number of cliques of K vertices that contain v and lie inside S *)
  Definition cliques_at (S : nat -> bool) (v : nat) : nat := length (filter (fun c => has c v && forallb S c) (cliques n outn K)).
  (* every member of S is in at least c cliques inside S *)
  Definition clique_core (c : nat) (S : nat -> bool) : Prop := forall v, S v = true -> v < n /\ c <= cliques_at S v.
  (* c is the largest number such that v belongs to such a set *)
  Definition clique_coreness (v c : nat) : Prop :=
    (exists S, clique_core c S /\ S v = true) /\ (forall j S, clique_core j S -> S v = true -> j <= c).
  (* the vertices of S, and the cliques inside S *)
  Definition size (S : nat -> bool) : nat := length (filter S (seq 0 n)).
  Definition inside (S : nat -> bool) : nat := length (filter (forallb S) (cliques n outn K)).
End KP.
