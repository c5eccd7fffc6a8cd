(* Specification vocabulary for the amortized block codec. *)
From Verif Require Import Base CodecModel PDModel PDSpec AMModel.
From Coq Require Import NArith ZArith Permutation.
Local Open Scope N_scope.

(* the type of valid weights, for the two weight types that are really written *)
Definition weights_of (aw : awty) : wty :=
  match aw with AEmpty => WEmpty | AInt => WInt | _ => WFloat end.

(* an order of execution for loops of every length *)
Definition schedule (o : nat -> list nat) : Prop := forall n, Permutation (o n) (seq 0 n).

(* keep the edges satisfying p *)
Definition keep (p : N -> Z -> bool) (l : list edge) : list edge := filter (fun e => p (fst e) (snd e)) l.

(* A history of packs: from memory m and degree d, packing with the predicates ps in
   turn, under any schedules, ends in memory m' and degree d'. *)
Inductive packs (B : nat) (aw : awty) (a : nat) (src : N)
  : mem -> nat -> list (N -> Z -> bool) -> mem -> nat -> Prop :=
| packs_nil m d : packs B aw a src m d [] m d
| packs_snoc m d ps m1 d1 p o1 o2 o3 o4 m2 d2 :
    packs B aw a src m d ps m1 d1 ->
    schedule o1 -> schedule o2 -> schedule o3 -> schedule o4 ->
    am_pack B aw p o1 o2 o3 o4 m1 a src d1 = Some (m2, d2) ->
    packs B aw a src m d (ps ++ [p]) m2 d2.

(* what a reader can see: decoding, block by block, visits the blocks bs *)
Definition position {A} (bs : list (list A)) (i : nat) : nat := length (concat (firstn i bs)).
Definition calls_of (t : N -> Z -> nat -> bool) (bs : list (list edge)) (i : nat) : list call :=
  upto t (position bs i) (nth i bs []).
