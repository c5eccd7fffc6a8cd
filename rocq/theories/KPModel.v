(* Model of benchmarks/CliqueCounting/peel.h, of the part of Clique.h that calls it (206-249), and of
   HybridSpace_lw::setup with a filter (intersect.h:85-235).

   Peel and ApproxPeel are called with k = K - 1 and with DG filtered from G (filter = true in
   Clique.h:186; with relabelling the vertices of DG are not those of G).  The status of a vertex:
   0 remaining, 1 active, 2 deleted.  Each worker counts in its own array; the arrays are all zero
   between rounds and only their sum is used, so the model keeps the list of calls of update_d.  The
   table of changed vertices (sparse_table) is by specification the set of the vertices named in those
   calls: a worker inserts v when its own counter is still zero, so in its first call for v.
   cliques[v] is a size_t, with wide = 2^64 - 1; bucket ids are uintE or size_t, with null the largest
   (Clique.h:239-242).  update_buckets is its sequential version (C20). *)
From Coq Require Import Permutation.
From Verif Require Import Base BKModel KCModel CQModel CQSpec DNModel.

Section KP.
  Variables half wide : nat.
  Variable n : nat.
  Variable outn : nat -> list nat.
  Variable K : nat.
  Variable rank : nat -> nat.
  Variable label : bool.
  Notation dg := (filtered outn K rank).
  Notation space := ((nat -> nat) * (nat -> nat))%type.

  Section Round.
    Variable st : nat -> nat.            (* still_active *)
    (* peel.h:72-78, 140-146, 236-242, 315-321 ignore_f *)
    Definition ignore_f (u v : nat) : bool :=
      if (st u =? 2) || (st v =? 2) then false else if st v =? 0 then true else rank u <? rank v.

    (* 30-51: the values met by both iterators, A that of DG and B that of G *)
    Fixpoint both (A : list nat) : list nat -> list nat :=
      match A with
      | [] => fun _ => []
      | a :: A' => fix go (B : list nat) : list nat :=
          match B with
          | [] => []
          | b :: B' => if a =? b then a :: both A' B' else if a <? b then both A' B else go B'
          end
      end.
    (* 19-54 vtx_intersect: the calls of f *)
    Definition vtx_intersect (vg vdg : nat) : calls :=
      let ws := filter (fun w => ignore_f vg w && ignore_f vdg w) (both (dg vdg) (outn vg)) in
      map (fun w => (w, 1)) ws ++ [(vdg, length ws)].
    (* 90-97, 158-167: one active vertex *)
    Definition tri_root (i : nat) : calls :=
      flat_map (fun v => if ignore_f i v then vtx_intersect i v else []) (outn i).

    (* intersect.h:169-235 setup_labels: the rows and old_labels afterwards.  relabel[o] is only
       written for valid neighbours; the others are in no row and have an empty row *)
    Definition number_f (i : nat) (old : nat -> nat) : nat -> nat :=
      fold_left (fun old p => if ignore_f i (fst p) then fset old (fst p) (snd p + 1) else old) (combine (outn i) (seq 0 (length (outn i)))) old.
    Definition row_f (old : nat -> nat) (v : nat) : list nat :=
      flat_map (fun w => if ignore_f v w then if 0 <? old w then [old w - 1] else [] else []) (dg v).
    Definition setup_labels_f (i : nat) (old : nat -> nat) : (nat -> list nat) * (nat -> nat) :=
      let old1 := number_f i old in
      (fun j => let v := nth j (outn i) 0 in if ignore_f i v then row_f old1 v else [], set_all old1 (outn i) 0).
    (* intersect.h:95-166 setup_intersect *)
    Definition setup_intersect_f (i : nat) : nat -> list nat := fun j =>
      let v := nth j (outn i) 0 in
      if ignore_f i v then
        filter (fun x => let w := nth x (outn i) 0 in ignore_f i w && ignore_f v w) (common_from 0 (outn i) (dg v))
      else [].
    (* peel.h:255-262, 335-339: one active vertex; recursive_level is 0, so the recursion stays in one
       worker, and the active vertex itself is not counted *)
    Definition clique_root (sp : space) (i : nat) : space * (nat * calls) :=
      if length (outn i) =? 0 then (sp, (0, [])) else
      let '(edges, old') := if label then setup_labels_f i (snd sp) else (setup_intersect_f i, snd sp) in
      let '(c, L', cl) := hrec half edges (fun j => nth j (outn i) 0) (fun _ l => [l]) (K - 1 - 1) 1 0 [i] (fst sp) (seq 0 (length (outn i))) in
      ((L', old'), (c, cl)).

    (* 156-169, 252-263: the calls of update_d made for the active vertices L, in any order *)
    Definition calls_of (L : list nat) (cl : calls) : Prop :=
      if K =? 3 then Permutation cl (flat_map tri_root L)
      else exists ws, Permutation (concat ws) L /\ cl = snd (run_workers clique_root ws).
    (* 171-172, 265-266: changed_vtxs *)
    Definition changed (cl : calls) (ch : list nat) : Prop := NoDup ch /\ forall v, In v ch <-> In v (map fst cl).
    (* 89-98, 333-340: the same, one after the other *)
    Definition serial_calls (L : list nat) : calls :=
      if K =? 3 then flat_map tri_root L else snd (run_worker clique_root L).
    (* 80-88, 323-331 update_d of the serial versions: per_processor_counts and update_idxs *)
    Definition touch (X : (nat -> nat) * list nat) (c : nat * nat) : (nat -> nat) * list nat :=
      let '(ppc, idxs) := X in
      (fset ppc (fst c) (ppc (fst c) + snd c), if ppc (fst c) =? 0 then idxs ++ [fst c] else idxs).
    Definition serial_idxs (L : list nat) : (nat -> nat) * list nat := fold_left touch (serial_calls L) ((fun _ => 0), []).
  End Round.

  Section Peel.
    Variables o null : nat.
    (* 421-434, 446-459 update_changed, update_changed_serial: cliques, per_processor_counts, D and the
       pairs put into D_filter *)
    Definition upd_changed (s : bst) (k : nat) (X : (nat -> nat) * (nat -> nat) * (nat -> nat) * list (nat * option nat)) (v : nat) :=
      let '(C, ppc, D, m) := X in
      let c := usub wide (C v) (ppc v) in
      if k <? D v then
        let nd := Nat.max c k in
        (fset C v c, fset ppc v 0, fset D v nd, m ++ [(v, get_bucket2 true o null s (D v) nd)])
      else (fset C v c, fset ppc v 0, D, m).
    (* get_max_deg (induced_hybrid.h:10-18): the size of update_idxs *)
    Definition max_deg : nat := fold_right Nat.max 0 (map (fun v => length (outn v)) (seq 0 n)).
    (* the vertices handed to update_changed, with the counts: 420-443 for several active vertices,
       444-469 for one *)
    Inductive touched (st : nat -> nat) (L : list nat) : list nat -> (nat -> nat) -> Prop :=
    | many : forall cl ch, 1 < length L -> calls_of (set_all st L 1) L cl -> changed cl ch -> touched st L ch (total cl)
    | single : length L <= 1 -> touched st L (snd (serial_idxs (set_all st L 1) L)) (fst (serial_idxs (set_all st L 1) L)).

    Variable start : nat -> nat.                  (* cliques *)
    Definition start_D (v : nat) : nat := if v <? n then start v else null.
    (* peel.h:368-484: the loop; finished, cliques, D, still_active, the buckets *)
    Inductive peel_loop : nat -> (nat -> nat) -> (nat -> nat) -> (nat -> nat) -> bst -> Prop :=
    | peel_start : peel_loop 0 start start_D (fun _ => 0) (make true o null n start_D)
    | peel_round : forall f C D st s fuel k L s' idxs ppc, peel_loop f C D st s -> f <> n ->
        next_bucket true o fuel D s = Ret (Some (k, L)) s' ->
        touched st L idxs ppc ->
        (length L <= 1 -> length idxs <= max_deg) ->
        let X := fold_left (upd_changed s' k) idxs (C, ppc, D, []) in
        let st' := set_all st L 2 in
        peel_loop (f + length L) (set_all (fst (fst (fst X))) L 0) (snd (fst X)) st'
          (update_seq (filter (fun e => negb (st' (fst e) =? 2)) (snd X)) s').
    Definition peel_returns (D : nat -> nat) : Prop := exists C st s, peel_loop n C D st s.
    (* the loop reaches a round that writes outside update_idxs *)
    Definition peel_overflows : Prop := exists f C D st s fuel k L s' idxs ppc,
      peel_loop f C D st s /\ f <> n /\ next_bucket true o fuel D s = Ret (Some (k, L)) s' /\
      touched st L idxs ppc /\ length L <= 1 /\ max_deg < length idxs.
  End Peel.

  (* 499-631 ApproxPeel: rounds so far, vertices remaining, D, still_active, max_density.  Densities are
     exact fractions, eps = p / q.  The first round (531-566) takes the number of cliques, the others
     (568-619) the sum of D *)
  Section Approx.
    Variables p q num_cliques : nat.
    Variable start : nat -> nat.
    Definition remaining_edges (r : nat) (rem : list nat) (D : nat -> nat) : nat := if r =? 0 then num_cliques else list_sum (map D rem).
    Definition drop (r : nat) (rem : list nat) (D : nat -> nat) (v : nat) : bool :=
      D v * (q * length rem) <=? K * (q + p) * remaining_edges r rem D.
    Inductive approx_loop : nat -> list nat -> (nat -> nat) -> (nat -> nat) -> nat * nat -> Prop :=
    | approx_start : approx_loop 0 (seq 0 n) start (fun _ => 0) (0, 1)
    | approx_round : forall r rem D st best cl, approx_loop r rem D st best -> rem <> [] ->
        let cur := (remaining_edges r rem D, length rem) in
        let L := filter (drop r rem D) rem in
        let kept := filter (fun v => negb (drop r rem D v)) rem in
        r = 0 \/ kept <> [] ->
        calls_of (set_all st L 1) L cl ->
        approx_loop (S r) kept (set_all (fun v => usub wide (D v) (total cl v)) L 0) (set_all st L 2) (if frac_lt best cur then cur else best)
    | approx_last : forall r rem D st best, approx_loop r rem D st best -> rem <> [] ->
        let cur := (remaining_edges r rem D, length rem) in
        filter (fun v => negb (drop r rem D v)) rem = [] -> r <> 0 ->
        approx_loop (S r) [] D st (if frac_lt best cur then cur else best).
    Definition approx_returns (best : nat * nat) : Prop := exists r D st, approx_loop r [] D st best.
  End Approx.
End KP.
