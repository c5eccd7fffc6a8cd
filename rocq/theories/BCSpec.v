(* Specification vocabulary for C59: shortest walks and dependencies. *)
From Coq Require Import ZArith QArith Qcanon.
From Verif Require Import Base BKSpec.
Local Open Scope nat_scope.

(* all walks of k edges from u, as lists of the vertices visited; parallel edges count separately *)
Fixpoint walks (outn : nat -> list nat) (k u : nat) : list (list nat) :=
  match k with
  | 0 => [[u]]
  | S k => flat_map (fun v => map (cons u) (walks outn k v)) (outn u)
  end.
Definition walks_to (outn : nat -> list nat) (k u t : nat) : list (list nat) :=
  filter (fun p => last p 0 =? t) (walks outn k u).
(* the distance from u to t in a graph with n vertices *)
Definition level (n : nat) (outn : nat -> list nat) (u t : nat) : option nat :=
  find (fun k => negb (length (walks_to outn k u t) =? 0)) (seq 0 n).
Definition shortest_walks (n : nat) (outn : nat -> list nat) (u t : nat) : list (list nat) :=
  match level n outn u t with Some k => walks_to outn k u t | None => [] end.
Definition through (v : nat) (ps : list (list nat)) : list (list nat) := filter (fun p => mem v p) ps.

Definition qc (k : nat) : Qc := Q2Qc (inject_Z (Z.of_nat k)).
Definition qsum (l : list Qc) : Qc := fold_right Qcplus 0%Qc l.
(* the part of the shortest walks from s to t that visit v; 0 if there are none (x / 0 = 0) *)
Definition part_through (n : nat) (outn : nat -> list nat) (s v t : nat) : Qc :=
  (qc (length (through v (shortest_walks n outn s t))) / qc (length (shortest_walks n outn s t)))%Qc.
(* the dependency of s on v, over all targets but v *)
Definition dependency (n : nat) (outn : nat -> list nat) (s v : nat) : Qc :=
  qsum (map (part_through n outn s v) (filter (fun t => negb (t =? v)) (seq 0 n))).

(* inn lists the edges of outn in reverse, parallel edges included *)
Definition reversed (n : nat) (outn inn : nat -> list nat) : Prop :=
  (forall u v, u < n -> In v (outn u) -> v < n) /\ (forall u v, v < n -> In u (inn v) -> u < n) /\
  forall u v, u < n -> v < n -> count_occ Nat.eq_dec (outn u) v = count_occ Nat.eq_dec (inn v) u.
