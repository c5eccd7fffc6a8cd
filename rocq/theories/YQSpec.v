(* Specification for C81. *)
From Verif Require Import Base.

(* -- independent sets: see also MISpec.maximal_independent ----------------------------------------- *)
(* the order of the vertices: by hash, ties by id *)
Definition vertex_before (pri : nat -> nat) (u v : nat) : Prop := pri u < pri v \/ pri u = pri v /\ u < v.
(* a vertex is chosen exactly when no earlier neighbour is *)
Definition first_set (n : nat) (outn : nat -> list nat) (before : nat -> nat -> Prop) (S : nat -> bool) : Prop :=
  forall v, v < n -> (S v = true <-> forall u, In u (outn v) -> before u v -> S u = false).

(* -- matchings -------------------------------------------------------------------------------------- *)
(* an edge, given by its smaller and its larger end *)
Definition is_edge (n : nat) (outn : nat -> list nat) (e : nat * nat) : Prop :=
  fst e < snd e /\ snd e < n /\ In (snd e) (outn (fst e)).
Definition touch (e f : nat * nat) : Prop := fst e = fst f \/ fst e = snd f \/ snd e = fst f \/ snd e = snd f.
Definition edge_before (hash : nat * nat -> nat) (e f : nat * nat) : Prop :=
  hash e < hash f \/ hash e = hash f /\ (fst e < fst f \/ fst e = fst f /\ snd e < snd f).
Definition first_matching (n : nat) (outn : nat -> list nat) (before : nat * nat -> nat * nat -> Prop) (M : nat * nat -> bool) : Prop :=
  forall e, is_edge n outn e -> (M e = true <-> forall f, is_edge n outn f -> touch f e -> before f e -> M f = false).
Definition maximal_matching_set (n : nat) (outn : nat -> list nat) (M : nat * nat -> bool) : Prop :=
  (forall e f, is_edge n outn e -> is_edge n outn f -> M e = true -> M f = true -> touch e f -> e = f) /\
  (forall e, is_edge n outn e -> exists f, is_edge n outn f /\ M f = true /\ touch f e).
