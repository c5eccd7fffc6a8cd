(* Specification vocabulary for C71: simple graphs, the similarity of neighbours, and a clustering in which
   a vertex outside the cores may belong to several clusters.  core, linked, cluster_of and attracts are
   those of SISpec. *)
From Verif Require Import Base ISSpec SISpec.
From Coq Require Import ZArith.
Local Open Scope nat_scope.
Unset Strict Implicit.

(* an undirected graph without self loops or parallel edges *)
Record simple_adj (n : nat) (adj : nat -> list nat) : Prop := {
  sa_nodup : forall u, u < n -> NoDup (adj u);
  sa_range : forall u v, u < n -> In v (adj u) -> v < n /\ v <> u;
  sa_sym : forall u v, u < n -> In v (adj u) -> In u (adj v) }.

(* the closed neighbourhood, and the similarity of u and v for a formula cos of the number of common
   members and the two sizes *)
Definition closed (adj : nat -> list nat) (u : nat) : list nat := u :: adj u.
Definition in_common (a b : list nat) : nat := length (filter (fun x => existsb (Nat.eqb x) b) a).
Definition structural (cos : nat -> nat -> nat -> Z) (adj : nat -> list nat) (u v : nat) : Z :=
  cos (in_common (closed adj u) (closed adj v)) (length (closed adj u)) (length (closed adj v)).

(* out lists the clusters of every vertex *)
Record all_clusters (n : nat) (adj : nat -> list nat) (sim : nat -> nat -> Z) (mu : nat) (eps : Z) (out : list (list nat)) : Prop := {
  ac_length : length out = n;
  ac_core : forall u, core n adj sim mu eps u -> exists c, nth u out [] = [c] /\ cluster_of n adj sim mu eps u c;
  ac_other : forall v, v < n -> ~ core n adj sim mu eps v -> increasing (nth v out []) /\
    forall c, In c (nth v out []) <-> exists d, attracts n adj sim mu eps d v /\ cluster_of n adj sim mu eps d c }.
