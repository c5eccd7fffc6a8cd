(* Specification vocabulary for C53. *)
From Verif Require Import Base.

(* following the parents from v leads in k steps to c, the centre of the cluster, through
   edges of the graph and vertices of the cluster *)
Inductive in_cluster (outn : nat -> list nat) (clu par : nat -> option nat) (c : nat) : nat -> nat -> Prop :=
| at_center : clu c = Some c -> par c = Some c -> in_cluster outn clu par c 0 c
| at_child : forall k p v, in_cluster outn clu par c k p -> par v = Some p -> p <> v -> In v (outn p) -> clu v = Some c ->
    in_cluster outn clu par c (S k) v.

(* the increments floor(exp(i * beta)) for the rounds i < min(n + 1, 2 + ceil(ln n / beta)),
   beta >= 0: each is at least 1 and together they cover the n vertices *)
Definition covers (n : nat) (incs : list nat) : Prop := Forall (fun x => 1 <= x) incs /\ n <= list_sum incs.
