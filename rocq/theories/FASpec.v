(* Specification vocabulary for C37, C38, C46: walks and distances. *)
From Coq Require Import ZArith.
From Verif Require Import Base.

(* there is a walk of k edges from u to v *)
Inductive walk (outn : nat -> list nat) (u : nat) : nat -> nat -> Prop :=
| walk_0 : walk outn u 0 u
| walk_S : forall k v w, walk outn u k v -> In w (outn v) -> walk outn u (S k) w.
(* v is at distance k *)
Definition dist (outn : nat -> list nat) (u v k : nat) : Prop := walk outn u k v /\ forall j, j < k -> ~ walk outn u j v.
Definition reachable (outn : nat -> list nat) (u v : nat) : Prop := exists k, walk outn u k v.

(* weighted edges and walks: wwalk u p v x, a walk from u to v of total weight x visiting
   the vertices p (last first) *)
Definition wedge (outn : nat -> list nat) (wt : nat -> nat -> Z) (u v : nat) (w : Z) : Prop :=
  exists j, nth_error (outn u) j = Some v /\ w = wt u j.
Inductive wwalk (outn : nat -> list nat) (wt : nat -> nat -> Z) (u : nat) : list nat -> nat -> Z -> Prop :=
| ww_0 : wwalk outn wt u [u] u 0
| ww_S : forall p v x w y, wwalk outn wt u p v x -> wedge outn wt v w y -> wwalk outn wt u (w :: p) w (x + y).
(* x is the weight of a shortest walk from u to v *)
Definition shortest (outn : nat -> list nat) (wt : nat -> nat -> Z) (u v : nat) (x : Z) : Prop :=
  (exists p, wwalk outn wt u p v x) /\ forall p y, wwalk outn wt u p v y -> (x <= y)%Z.
Definition negative_cycle (outn : nat -> list nat) (wt : nat -> nat -> Z) (u : nat) : Prop :=
  exists v p x q y, wwalk outn wt u p v x /\ wwalk outn wt v q v y /\ (y < 0)%Z.
