(* Specification vocabulary for the block codecs: blocks of a list and the calls
   an early-exit traversal makes. *)
From Verif Require Import Base CodecModel PDModel.
From Coq Require Import NArith ZArith.
Local Open Scope N_scope.

(* the i-th block of B consecutive elements *)
Definition block {A} (B i : nat) (l : list A) : list A := firstn B (skipn (i * B) l).

(* number of blocks needed for n elements, n / B rounded up *)
Definition ceil_div (n B : nat) : nat := ((n + B - 1) / B)%nat.

(* the calls for elements at positions id, id+1, ..., up to and including the first
   one answered false *)
Fixpoint upto (t : N -> Z -> nat -> bool) (id : nat) (l : list edge) : list call :=
  match l with
  | [] => []
  | (v, x) :: l' => (v, x, id) :: (if t v x id then upto t (S id) l' else [])
  end.
(* no call is answered false *)
Fixpoint all_true (t : N -> Z -> nat -> bool) (id : nat) (l : list edge) : bool :=
  match l with
  | [] => true
  | (v, x) :: l' => t v x id && all_true t (S id) l'
  end.

(* every neighbour is at distance less than 2^31 from the source (true whenever all
   ids are below 2^31) *)
Definition near (src : N) (l : list edge) : Prop :=
  Forall (fun e => (Z.abs (Z.of_N (fst e) - Z.of_N src) < 2147483648)%Z) l.
