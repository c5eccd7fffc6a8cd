(* Specification vocabulary for C44 and C55: weighted walks and shortest distances, and what a
   round of relaxations reports. *)
From Verif Require Import Base WBModel.

(* every edge leads to a vertex *)
Definition wgraph_ok (n : nat) (outw : nat -> list (nat * nat)) : Prop :=
  forall v u w, v < n -> In (u, w) (outw v) -> u < n.
(* a walk from src to v of total weight x *)
Inductive wpath (outw : nat -> list (nat * nat)) (src : nat) : nat -> nat -> Prop :=
| wpath_0 : wpath outw src src 0
| wpath_S : forall v x u w, wpath outw src v x -> In (u, w) (outw v) -> wpath outw src u (x + w).
(* the least weight of a walk *)
Definition wdist (outw : nat -> list (nat * nat)) (src v x : nat) : Prop :=
  wpath outw src v x /\ forall y, wpath outw src v y -> x <= y.
(* the distances, with inf for the vertices that cannot be reached or are at distance inf or more *)
Definition distances_are (n : nat) (outw : nat -> list (nat * nat)) (src inf : nat) (D : nat -> nat) : Prop :=
  forall v, v < n ->
    D v <= inf /\ (D v < inf -> wdist outw src v (D v)) /\ (D v = inf -> forall y, wpath outw src v y -> inf <= y).
(* a walk that visits no vertex twice; vs are its vertices, last first *)
Inductive spath (outw : nat -> list (nat * nat)) (src : nat) : list nat -> nat -> nat -> Prop :=
| spath_0 : spath outw src [src] src 0
| spath_S : forall vs v x u w, spath outw src vs v x -> In (u, w) (outw v) -> ~ In u vs -> spath outw src (u :: vs) u (x + w).

(* conditions on a round of DeltaStepping that starts with the distances D, makes the calls cs
   with the interleaving sched and reports res *)
(* the reported previous distance has the bucket of the distance before the round *)
Definition honest (null top : nat) (bkt : nat -> nat) (D : nat -> nat) (cs : list call) (sched : list nat) (res : list (nat * nat)) : Prop :=
  forall v p, In (v, p) res -> ds_bkt null top bkt p = ds_bkt null top bkt (D v).
(* one call at a time, in the order given (a call that runs alone takes at most six steps) *)
Definition one_at_a_time (D : nat -> nat) (cs : list call) (sched : list nat) (res : list (nat * nat)) : Prop :=
  exists order, sched = flat_map (fun i => repeat i 6) order.
