(* Specification vocabulary for the compressed adjacency lists.  Nothing here
   mentions bytes. *)
From Verif Require Import Base CodecModel.
From Coq Require Import NArith ZArith Sorted.
Local Open Scope N_scope.

(* Weights the code can represent: nothing, a 32-bit int other than INT_MIN, a
   32-bit float pattern. *)
Definition valid_w (w : wty) (x : Z) : Prop :=
  match w with
  | WEmpty => x = 0%Z
  | WInt => (-2147483648 < x < 2147483648)%Z
  | WFloat => (0 <= x < 4294967296)%Z
  end.

(* An adjacency list: 32-bit neighbour ids, strictly increasing, valid weights. *)
Definition adj_ok (w : wty) (l : list edge) : Prop :=
  Forall (fun e => fst e < two32 /\ valid_w w (snd e)) l /\ StronglySorted N.lt (map fst l).

(* Running a stateful callback over the list in order, with positions counted
   from i, until it answers false. *)
Fixpoint visit {St} (t : St -> N -> Z -> nat -> St * bool) (i : nat) (l : list edge) (s : St) : St :=
  match l with
  | [] => s
  | (v, x) :: l' =>
      let '(s', continue) := t s v x i in
      if continue then visit t (S i) l' s' else s'
  end.

(* The callback that just records what it is shown. *)
Definition record (s : list (N * Z * nat)) (v : N) (x : Z) (i : nat) : list (N * Z * nat) * bool :=
  (s ++ [(v, x, i)], true).

(* two memories agree inside / outside the addresses [a, e) *)
Definition same_in (m m' : mem) (a e : nat) : Prop := forall b, (a <= b < e)%nat -> m' b = m b.
Definition same_out (m m' : mem) (a e : nat) : Prop := forall b, (b < a \/ e <= b)%nat -> m' b = m b.

