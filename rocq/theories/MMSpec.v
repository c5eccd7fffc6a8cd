(* Specification vocabulary for C42. *)
From Verif Require Import Base MMModel.

(* undirected graph: every edge is stored at both ends *)
Definition undirected {W} (n : nat) (outw : nat -> list (nat * W)) : Prop :=
  forall u v w, u < n -> In (v, w) (outw u) -> v < n /\ exists w', In (u, w') (outw v).
Definition endpoints {W} (M : list (medge W)) : list nat := flat_map (fun e => [eu e; ev e]) M.
(* edges of the graph, no vertex twice, and no edge of the graph could be added *)
Definition maximal_matching {W} (n : nat) (outw : nat -> list (nat * W)) (M : list (medge W)) : Prop :=
  (forall u v w, In (u, v, w) M -> u < n /\ In (v, w) (outw u) /\ u <> v) /\
  NoDup (endpoints M) /\
  (forall u v w, u < n -> In (v, w) (outw u) -> u <> v -> In u (endpoints M) \/ In v (endpoints M)).
(* the number of edges, each counted at its smaller end *)
Definition edge_count {W} (n : nat) (outw : nat -> list (nat * W)) : nat :=
  length (flat_map (fun u => filter (fun vw => u <? fst vw) (outw u)) (seq 0 n)).
(* what the sequential greedy algorithm chooses from a list of edges when the vertices in M0 are taken:
   edge number i is chosen iff it is no loop, its ends are not taken, and no chosen earlier edge has a
   common end with it *)
Definition greedy_choice {W} (E : list (medge W)) (M0 : nat -> bool) (chosen : nat -> Prop) : Prop :=
  forall i e, nth_error E i = Some e ->
    (chosen i <-> eu e <> ev e /\ M0 (eu e) = false /\ M0 (ev e) = false /\
                  forall j e', j < i -> nth_error E j = Some e' -> chosen j ->
                    eu e' <> eu e /\ eu e' <> ev e /\ ev e' <> eu e /\ ev e' <> ev e).
