(* Specification vocabulary for C61: cliques. *)
From Verif Require Import Base ISSpec.

(* the sublists of length k *)
Fixpoint subsets (k : nat) (l : list nat) : list (list nat) :=
  match k, l with
  | 0, _ => [[]]
  | S _, [] => []
  | S k', x :: l' => map (cons x) (subsets k' l') ++ subsets k l'
  end.
Definition has (l : list nat) (v : nat) : bool := existsb (Nat.eqb v) l.
(* pairwise adjacent *)
Definition is_clique (outn : nat -> list nat) (c : list nat) : bool :=
  forallb (fun u => forallb (fun v => (u =? v) || has (outn u) v) c) c.
(* the sets of k pairwise adjacent vertices, each written in increasing order *)
Definition cliques (n : nat) (outn : nat -> list nat) (k : nat) : list (list nat) :=
  filter (is_clique outn) (subsets k (seq 0 n)).
(* an undirected graph with sorted neighbour lists without repetitions *)
Definition sgraph (n : nat) (outn : nat -> list nat) : Prop :=
  forall u, u < n -> increasing (outn u) /\ forall v, In v (outn u) -> v < n /\ In u (outn v).
(* a renumbering of the vertices *)
Definition is_rank (n : nat) (rank : nat -> nat) : Prop :=
  (forall u, u < n -> rank u < n) /\ forall u v, u < n -> v < n -> rank u = rank v -> u = v.
(* the sum of the counts handed out for v *)
Definition total (cl : list (nat * nat)) (v : nat) : nat := list_sum (map snd (filter (fun p => fst p =? v) cl)).
