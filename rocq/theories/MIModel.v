(* Model of benchmarks/MaximalIndependentSet/RandomGreedy/MaximalIndependentSet.h and of eff_for in
   gbbs/helpers/speculative_for.h. *)
From Coq Require Import ZArith.
From Verif Require Import Base VSModel VSSpec EMModel FAModel CDModel.

(* -- MaximalIndependentSet_rootset ---------------------------------------------------------- *)
Section Rootset.
  Variable n : nat.
  Variable outn : nat -> list nat.
  Variable m : nat.                    (* G.m *)
  Variable perm : nat -> nat.          (* 122 random_permutation *)

  (* 123-130 priorities *)
  Definition mi_priorities (v : nat) : Z := Z.of_nat (length (filter (fun u => perm u <? perm v) (outn v))).
  (* 63-83 GetNghs is the visit-once function of EMModel, with "p[d] > 0" for "not visited": in the
     whole traversal p[d] is only changed from its positive value to 0, by the first successful
     CAS.  (updateAtomic loads p[d] once more before the CAS; if that load sees 0 it returns
     false as the CAS would.) *)
  Definition visited_of (p : nat -> Z) : pstate := fun d => if (0 <? p d)%Z then None else Some 0.
  Definition zero_visited (p : nat -> Z) (par' : pstate) : nat -> Z :=
    fun d => match visited_of p d, par' d with None, Some _ => 0%Z | _, _ => p d end.
  (* vertexMap with an assignment of the constant x *)
  Definition map_set {A} (U : vset unit) (x : A) (a : nat -> A) : nat -> A :=
    fold_left (fun a c => fset a (fst c) x) (vertexMap_calls tt U) a.
  (* 141-175: the loop; finished, in_mis, priorities, roots before an iteration *)
  Inductive mi_loop : nat -> (nat -> bool) -> (nat -> Z) -> vset unit -> Prop :=
  | mi_start : mi_loop 0 (fun _ => false) mi_priorities
      (vs_sparse n (plain (filter (fun v => (mi_priorities v =? 0)%Z) (seq 0 n))))
  | mi_round : forall f in_mis p U par' removed p' U', mi_loop f in_mis p U -> f <> n ->
      edgeMap_visit n outn outn m None cd_flags U (visited_of p) par' removed ->
      edgeMap_count (fun s d => perm s <? perm d) n outn outn m removed (map_set removed 0%Z (zero_visited p par')) p' U' ->
      mi_loop (f + size U + size removed) (map_set U true in_mis) p' U'.
  (* 114-177 MaximalIndependentSet: a possible result *)
  Definition mis_returns (in_mis : nat -> bool) : Prop := exists p U, mi_loop n in_mis p U.
End Rootset.

(* -- speculative_for.h:53-103 eff_for ------------------------------------------------------- *)
(* round I st st' keep: the reserve loop followed by the commit loop on the iterations I may
   lead from st to st', with keep[i] afterwards telling which iterations have to be tried again.
   r = round, done = numberDone, K = the iterations kept (the first numberKeep entries of I).
   currentRoundSize never changes: it starts as maxRoundSize and is only ever set to the minimum of
   maxRoundSize and its double.  maxTries = None: the default LONG_MAX, which is not reached. *)
Section EffFor.
  Variable St : Type.
  Variable round : list nat -> St -> St -> list bool -> Prop.
  Variables s e granularity : nat.
  Variable maxTries : option nat.
  Variable st0 : St.
  Definition max_round : nat := (e - s) / granularity + 1.
  (* line 69: round++ > maxTries aborts *)
  Definition too_many (r : nat) : bool := match maxTries with Some t => t <? r | None => false end.
  (* line 85 pack_out *)
  Definition kept (I : list nat) (keep : list bool) : list nat := map fst (filter snd (combine I keep)).
  (* the state after r rounds *)
  Inductive eff_loop : nat -> nat -> list nat -> St -> Prop :=
  | eff_start : eff_loop 0 s [] st0
  | eff_round : forall r done K st st' keep, eff_loop r done K st -> done < e -> too_many r = false ->
      let sz := Nat.min max_round (e - done) in
      let I := firstn sz K ++ seq (done + length K) (sz - length K) in
      round I st st' keep -> length keep = sz ->
      eff_loop (S r) (done + (sz - length (kept I keep))) (kept I keep) st'.
  Definition eff_returns (st : St) : Prop := exists r done K, eff_loop r done K st /\ e <= done.
  Definition eff_aborts : Prop := exists r done K st, eff_loop r done K st /\ done < e /\ too_many r = true.
End EffFor.

(* -- MaximalIndependentSet_spec_for ---------------------------------------------------------- *)
Section SpecFor.
  Variable n : nat.
  Variable outn : nat -> list nat.
  (* 195-221 reserve: the value stored in FlagsNext[i].  The reserve loop does not change Flags. *)
  Definition mi_reserve (flags : nat -> nat) (i : nat) : nat :=
    let chosen := length (filter (fun u => (u <? i) && (flags u =? 1)) (outn i)) in
    let undecided := length (filter (fun u => (u <? i) && (flags u =? 0)) (outn i)) in
    if 0 <? chosen then 2 else if 0 <? undecided then 0 else 1.
  (* 223 commit; reserve always returns 1 *)
  Definition mi_spec_round (I : list nat) (flags flags' : nat -> nat) (keep : list bool) : Prop :=
    (forall v, flags' v = if existsb (Nat.eqb v) I then mi_reserve flags v else flags v) /\
    keep = map (fun i => negb (0 <? mi_reserve flags i)) I.
  (* 226-236 *)
  Definition spec_mis_returns (flags : nat -> nat) : Prop :=
    eff_returns mi_spec_round 0 n 50 None (fun _ => 0) flags.
End SpecFor.
