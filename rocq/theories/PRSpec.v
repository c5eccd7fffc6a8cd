(* Specification vocabulary for C74: PageRank by power iteration, in exact rational arithmetic.  Vertices are
   0 .. n-1; outs v lists the targets of the edges that leave v (parallel edges repeat a target). *)
From Verif Require Import Base MOSpec.
From Coq Require Import QArith Qcanon.
Local Open Scope nat_scope.

Definition qnat (k : nat) : Qc := Q2Qc (inject_Z (Z.of_nat k)).
Definition at_ (p : list Qc) (i : nat) : Qc := nth i p 0%Qc.
Section PageRank.
  Variable n : nat.
  Variable outs : nat -> list nat.
  Variable alpha : Qc.                                (* damping *)
  (* probability to go from s to d: a random edge, or a random vertex if there is none *)
  Definition prob (s d : nat) : Qc :=
    match outs s with
    | [] => (/ qnat n)%Qc
    | _ => (qnat (count_occ Nat.eq_dec (outs s) d) / qnat (length (outs s)))%Qc
    end.
  (* with probability alpha follow prob, otherwise jump to a random vertex *)
  Definition surf (p : list Qc) : list Qc :=
    map (fun d => (alpha * qsum (map (fun s => at_ p s * prob s d) (seq 0 n)) + (1 - alpha) / qnat n)%Qc) (seq 0 n).
  Definition uniform : list Qc := repeat (/ qnat n)%Qc n.
  (* the distribution after k steps from a random vertex *)
  Fixpoint rank (k : nat) : list Qc := match k with 0 => uniform | S k => surf (rank k) end.
  Definition stationary (p : list Qc) : Prop := length p = n /\ surf p = p.
End PageRank.
Fixpoint qpow (x : Qc) (k : nat) : Qc := match k with 0 => 1%Qc | S k => (x * qpow x k)%Qc end.
Definition qabs (x : Qc) : Qc := if Qclt_le_dec x 0 then (- x)%Qc else x.
(* L1 distance *)
Definition dist (n : nat) (p q : list Qc) : Qc := qsum (map (fun i => qabs (at_ p i - at_ q i)%Qc) (seq 0 n)).
(* ins lists the sources of the edges that outs lists *)
Definition transposes (n : nat) (outs ins : nat -> list nat) : Prop :=
  (forall s d, s < n -> d < n -> count_occ Nat.eq_dec (ins d) s = count_occ Nat.eq_dec (outs s) d) /\
  (forall s d, s < n -> In d (outs s) -> d < n) /\ (forall s d, d < n -> In s (ins d) -> s < n).
