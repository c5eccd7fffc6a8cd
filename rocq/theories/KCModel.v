(* Model of benchmarks/KCore/JulienneDBS17/KCore.h on the bucketing structure of BKModel.

   Degrees are uintE, so subtraction is modulo null + 1, null being UINT_E_MAX.  The entries of
   D beyond n do not exist; here they hold null. *)
From Coq Require Import Permutation.
From Verif Require Import Base VSModel EMModel BKModel.

(* edge_map_reduce.h:104-129 edgeMapCount_sparse with cond_f true: the keys handed to the
   histogram are the neighbours of the frontier, one after the other; the histogram
   (helpers/histogram.h) by its specification: every key once, in any order, with the number
   of its occurrences.  C51 proves that of the histogram. *)
Definition counted (keys : list nat) (res : list (nat * nat)) : Prop :=
  NoDup (map fst res) /\ forall v c, In (v, c) res <-> c = count_occ Nat.eq_dec keys v /\ 0 < c.

Section KC.
  Variable n : nat.
  Variable outn : nat -> list nat.
  Variable o : nat.          (* num_buckets - 1 *)
  Variable null : nat.

  (* KCore.h:35-36 *)
  Definition degrees (v : nat) : nat := if v <? n then length (outn v) else null.
  Definition usub (a b : nat) : nat := (a + (null + 1) - b) mod (null + 1).
  (* 54-64 apply_f and wrap (bucket.h:429-436), the calls in any order (the order of res):
     every call reads and writes only D[v] *)
  Definition kc_apply (s : bst) (k : nat) (Dm : (nat -> nat) * list (nat * option nat)) (p : nat * nat)
    : (nat -> nat) * list (nat * option nat) :=
    let '(D, m) := Dm in let '(v, er) := p in
    if k <? D v
    then let nd := Nat.max (usub (D v) er) k in
         (fset D v nd, match get_bucket1 true o s nd with Some b => m ++ [(v, Some b)] | None => m end)
    else (D, m).
  Definition kc_applied (s : bst) (k : nat) (D : nat -> nat) (res : list (nat * nat)) := fold_left (kc_apply s k) res (D, []).

  (* 44-77: the loop; finished, D, the buckets, and (ghost) the buckets returned so far *)
  Inductive kc_loop : nat -> (nat -> nat) -> bst -> list (nat * list nat) -> Prop :=
  | kc_start : kc_loop 0 degrees (make true o null n degrees) []
  | kc_round : forall f D s log fuel k L s' res, kc_loop f D s log -> f <> n ->
      next_bucket true o fuel D s = Ret (Some (k, L)) s' ->
      counted (flat_map outn L) res ->
      kc_loop (f + length L) (fst (kc_applied s' k D res)) (update_seq (snd (kc_applied s' k D res)) s') (log ++ [(k, L)]).
  Definition kc_returns (D : nat -> nat) : Prop := exists s log, kc_loop n D s log.

  (* 141-190 DegeneracyOrder: the same loop; the result is the identifiers in the order in
     which they are returned *)
  Definition degeneracy_returns (order : list nat) : Prop :=
    exists D s log, kc_loop n D s log /\ order = concat (map snd log).
  (* 192-241 DegeneracyOrderWithLoad, called with D = the degrees: the sequence starts with n
     default elements, and append adds behind them *)
  Definition degeneracy_load_returns (order : list nat) : Prop :=
    exists D s log, kc_loop n D s log /\ order = repeat 0 n ++ concat (map snd log).

  (* -- KCore_FA, 100-139 ------------------------------------------------------------------ *)
  (* updateAtomic (93-99) for one edge into d, as done by the sparse traversal; er and the
     vertices emitted so far *)
  Definition fa_atomic (D : nat -> nat) (k : nat) (El : (nat -> nat) * list nat) (d : nat) : (nat -> nat) * list nat :=
    let '(er, l) := El in
    if k <? D d then (fset er d (er d + 1), if er d =? 1 then l ++ [d] else l) else (er, l).
  (* update (85-92), as done by the pulling traversal for the edges from the frontier into d *)
  Definition fa_update (D : nat -> nat) (k : nat) (El : (nat -> nat) * list nat) (d : nat) : (nat -> nat) * list nat :=
    let '(er, l) := El in
    if k <? D d then (fset er d (er d + 1), if er d + 1 =? 1 then l ++ [d] else l) else (er, l).
  Definition pull_dsts (inn : nat -> list nat) (L : list nat) : list nat :=
    flat_map (fun d => flat_map (fun u => if existsb (Nat.eqb u) L then [d] else []) (inn d)) (seq 0 n).
  Definition plain_flags : eflags := {| f_dense_only := false; f_no_dense := false; f_dense_forward := false; f_dense_parallel := false |}.
  (* 125-126 edgeMapData *)
  Inductive fa_map (inn : nat -> list nat) (m : nat) (D er : nat -> nat) (k : nat) (L : list nat) : (nat -> nat) -> list nat -> Prop :=
  | fa_nothing : forall U', edgeMap_choice m None outn plain_flags (vs_sparse n (map (fun v => (v, tt)) L)) = Some (Nothing, U') ->
      fa_map inn m D er k L er []
  | fa_sparse : forall U' dsts, edgeMap_choice m None outn plain_flags (vs_sparse n (map (fun v => (v, tt)) L)) = Some (Sparse, U') ->
      Permutation dsts (flat_map outn L) ->
      fa_map inn m D er k L (fst (fold_left (fa_atomic D k) dsts (er, []))) (snd (fold_left (fa_atomic D k) dsts (er, [])))
  | fa_pull : forall U', edgeMap_choice m None outn plain_flags (vs_sparse n (map (fun v => (v, tt)) L)) = Some (Pull, U') ->
      fa_map inn m D er k L (fst (fold_left (fa_update D k) (pull_dsts inn L) (er, []))) (snd (fold_left (fa_update D k) (pull_dsts inn L) (er, []))).
  (* 116-123 apply_f *)
  Definition fa_apply (s : bst) (k : nat) (X : (nat -> nat) * (nat -> nat) * list (nat * option nat)) (v : nat) :=
    let '(D, er, m) := X in
    let nd := Nat.max (usub (D v) (er v)) k in
    (fset D v nd, fset er v 0, m ++ [(v, get_bucket2 true o null s (D v) nd)]).
  Inductive fa_loop (inn : nat -> list nat) (m : nat) : nat -> (nat -> nat) -> (nat -> nat) -> bst -> Prop :=
  | fa_start : fa_loop inn m 0 degrees (fun _ => 0) (make true o null n degrees)
  | fa_round : forall f D er s fuel k L s' er' l, fa_loop inn m f D er s -> f <> n ->
      next_bucket true o fuel D s = Ret (Some (k, L)) s' ->
      fa_map inn m D er k L er' l ->
      let X := fold_left (fa_apply s' k) l (D, er', []) in
      fa_loop inn m (f + length L) (fst (fst X)) (snd (fst X)) (update_seq (snd X) s').
  Definition fa_returns (inn : nat -> list nat) (m : nat) (D : nat -> nat) : Prop := exists er s, fa_loop inn m n D er s.
End KC.
