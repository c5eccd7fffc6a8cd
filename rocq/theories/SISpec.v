(* What a SCAN clustering is.  A graph on the vertices 0 .. n-1 with neighbours adj, and a similarity of
   adjacent vertices; similarities are Z: only their order, and which of them are positive, matters, so a
   Z stands for a float that is not a NaN. *)
From Verif Require Import Base.
From Coq Require Import ZArith Relation_Operators.
Local Open Scope nat_scope.

Section Scan.
  Variable n : nat.
  Variable adj : nat -> list nat.
  Variable sim : nat -> nat -> Z.
  Variables (mu : nat) (eps : Z).
  (* u and v are neighbours and their similarity is at least epsilon *)
  Definition similar (u v : nat) : Prop := u < n /\ In v (adj u) /\ (eps <= sim u v)%Z.
  (* a core is similar to at least mu vertices, itself included *)
  Definition core (u : nat) : Prop := u < n /\ mu <= 1 + length (filter (fun v => (eps <=? sim u v)%Z) (adj u)).
  (* reached through similar neighbours, all of them cores *)
  Definition linked : nat -> nat -> Prop := clos_refl_sym_trans nat (fun u v => core u /\ core v /\ similar u v).
  (* c is the least core reached from u *)
  Definition cluster_of (u c : nat) : Prop := core c /\ linked u c /\ forall w, core w -> linked u w -> c <= w.
  (* c is a core similar to v *)
  Definition attracts (c v : nat) : Prop := core c /\ similar c v.
  (* c is the most similar one, and the least of those *)
  Definition attracts_most (c v : nat) : Prop :=
    attracts c v /\ forall d, attracts d v -> (sim d v < sim c v)%Z \/ (sim d v = sim c v /\ c <= d).
  (* the clusters of a run: of cores, of other vertices, and mx for vertices in no cluster *)
  Record scan_clustering (pick : nat -> nat -> Prop) (mx : nat) (out : list nat) : Prop := {
    sc_length : length out = n;
    sc_core : forall u, core u -> cluster_of u (nth u out mx);
    sc_border : forall v, v < n -> ~ core v -> (exists c, attracts c v) -> exists c, pick c v /\ nth v out mx = nth c out mx;
    sc_none : forall v, v < n -> ~ core v -> (forall c, ~ attracts c v) -> nth v out mx = mx }.
End Scan.
