(* Specification vocabulary for C65. *)
From Coq Require Import QArith.
From Verif Require Import Base.
Local Open Scope nat_scope.

(* every element of some set is in one of the sets of l *)
Definition covers (n : nat) (nbr : nat -> list nat) (l : list nat) : Prop :=
  forall u v, u < n -> In v (nbr u) -> exists s, In s l /\ In v (nbr s).

(* the harmonic number 1 + 1/2 + ... + 1/k *)
Fixpoint harmonic (k : nat) : Q :=
  match k with 0 => 0%Q | S k => (harmonic k + 1 / inject_Z (Z.of_nat (S k)))%Q end.
Definition qsum (l : list Q) : Q := fold_right Qplus 0%Q l.

(* what the rounding must respect: a set of d elements is in a bucket b or beyond exactly if
   d reaches the threshold of b, and winning the threshold is enough to join *)
Record levels (bkt thr low : nat -> nat) : Prop := {
  lv_thr : forall d b, 1 <= d -> (thr b <= d <-> b <= bkt d);
  lv_low : forall b, 1 <= low b <= thr b
}.
(* a set in bucket b or before has at most kappa times as many elements as a set that joins
   from bucket b must win *)
Definition steep (bkt low : nat -> nat) (kappa : Q) : Prop :=
  forall d b, 1 <= d -> bkt d <= b ->
    (inject_Z (Z.of_nat d) <= kappa * inject_Z (Z.of_nat (low b)))%Q.
