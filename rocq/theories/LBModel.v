(* Model of process_batch of benchmarks/Connectivity/LiuTarjan/Connectivity.h and of reorder_updates in
   benchmarks/Connectivity/common.h.

   The connect phase and the shortcut are those of LTModel and SVModel.  In the update phase every read of P, every
   compare-and-swap of a flag and every update of a cell is one step, and the iterations interleave arbitrarily: a cell is
   written only by the iteration that set its flag, so that an update is one step.  P, messages and flags are functions;
   that all accesses are in bounds is part of the theorems. *)
From Coq Require Import Permutation.
From Verif Require Import Base EMModel SVModel LTModel.

Section LB.
  Variable largest : nat.

  (* an update: u, v and whether it is an insertion (connectit.h:64) *)
  Definition lupd := (nat * nat * bool)%type.
  (* common.h:15-21 reorder_updates: parlay::split_two puts the elements whose flag (query) is false first, in order *)
  Definition reorder_updates (ups : list lupd) : list lupd * nat :=
    (filter snd ups ++ filter (fun x => negb (snd x)) ups, length (filter snd ups)).

  (* liu_tarjan_rules.h:91-107 for one cell *)
  Definition update_cell (o : update_option) (P msgs : nat -> nat) (x : nat) : nat :=
    match o with
    | SimpleUpdate => lt_min largest (P x) (msgs x)
    | RootUpdate => if x =? P x then lt_min largest (P x) (msgs x) else P x
    end.

  (* 216-237 the iteration of an edge: U1, U2: the reads of P[u], P[v]; UT: the test and compare-and-swap for the cells to
     come; UW: the update of a cell whose flag was set *)
  Inductive upc := U1 (u v : nat) | U2 (u v pu : nat) | UT (xs : list nat) | UW (x : nat) (xs : list nat).
  Record ustate := { uP : nat -> nat; uF : nat -> bool; uthr : list upc }.
  Definition fsetb (F : nat -> bool) (x : nat) (b : bool) (y : nat) : bool := if y =? x then b else F y.
  Definition ustep (o : update_option) (msgs : nat -> nat) (s : ustate) (t : nat) : ustate :=
    let go P F pc := {| uP := P; uF := F; uthr := lset (uthr s) t pc |} in
    match nth_error (uthr s) t with
    | None => s
    | Some (U1 u v) => go (uP s) (uF s) (U2 u v (uP s u))
    | Some (U2 u v pu) => go (uP s) (uF s) (UT [u; v; pu; uP s v])
    | Some (UT []) => s
    | Some (UT (x :: xs)) => if uF s x then go (uP s) (uF s) (UT xs) else go (uP s) (fsetb (uF s) x true) (UW x xs)
    | Some (UW x xs) => go (fset (uP s) x (update_cell o (uP s) msgs x)) (uF s) (UT xs)
    end.
  Definition uexec (o : update_option) (msgs : nat -> nat) (sched : list nat) (s : ustate) : ustate := fold_left (ustep o msgs) sched s.
  Definition ustart (P : nat -> nat) (F : nat -> bool) (E : list (nat * nat)) : ustate :=
    {| uP := P; uF := F; uthr := map (fun e => U1 (fst e) (snd e)) E |}.
  Definition ufinished (s : ustate) : Prop := forall pc, In pc (uthr s) -> pc = UT [].

  (* 238-252: the flags of the endpoints and of their new parents are cleared; P does not change, so the order does not matter *)
  Definition clear_flags (P : nat -> nat) (E : list (nat * nat)) (F : nat -> bool) (x : nat) : bool :=
    F x && negb (existsb (fun e => (x =? fst e) || (x =? P (fst e)) || (x =? snd e) || (x =? P (snd e))) E).
  Definition endpoints (E : list (nat * nat)) : list nat := nodup Nat.eq_dec (flat_map (fun e => [fst e; snd e]) E).
  (* 258-271: the endpoints whose flag is not set are shortcut by one iteration each, which then stores P[u] to messages[u] *)
  Definition shortcut_cells (E : list (nat * nat)) (F : nat -> bool) : list nat := filter (fun u => negb (F u)) (endpoints E).
  Definition reset_msgs (vs : list nat) (P msgs : nat -> nat) (x : nat) : nat := if existsb (Nat.eqb x) vs then P x else msgs x.
  (* 275-283 *)
  Definition clear_ends (E : list (nat * nat)) (F : nat -> bool) (x : nat) : bool := F x && negb (existsb (Nat.eqb x) (endpoints E)).
  (* 286-305 *)
  Definition alter_edges (P : nat -> nat) (E : list (nat * nat)) : list (nat * nat) :=
    filter (fun e => negb (fst e =? snd e)) (map (fun e => (P (fst e), P (snd e))) E).

  Record lbst := { bP : nat -> nat; bM : nat -> nat; bF : nat -> bool }.
  (* one iteration of the loop 193-307 over the edges E *)
  Inductive lb_round (c : connect_option) (o : update_option) (full alter : bool) (E : list (nat * nat)) (s : lbst) : list (nat * nat) -> lbst -> bool -> Prop :=
  | lb_round_intro : forall calls msgs ch usched sched,
      Permutation calls (flat_map (connect_calls largest c (bP s)) E) ->
      msg_writes largest calls (bM s) = (msgs, ch) ->
      let us := uexec o msgs usched (ustart (bP s) (bF s) E) in
      ufinished us ->
      let F1 := clear_flags (uP us) E (uF us) in
      let vs := shortcut_cells E F1 in
      let js := jexec largest sched (jstart (B1 full) (uP us) vs) in
      jfinished js ->
      let F2 := fun x => F1 x || existsb (Nat.eqb x) vs in
      lb_round c o full alter E s (if alter then alter_edges (jpar js) E else E)
        {| bP := jpar js; bM := reset_msgs vs (jpar js) msgs; bF := clear_ends E F2 |} ch.
  (* 192-307 the loop after k rounds (the counter of 194); the flag is parents_changed *)
  Inductive lb_loop (c : connect_option) (o : update_option) (full alter : bool) (E0 : list (nat * nat)) (s0 : lbst) : nat -> list (nat * nat) -> lbst -> bool -> Prop :=
  | lb_start : lb_loop c o full alter E0 s0 0 E0 s0 true
  | lb_next : forall k E s E' s' ch, lb_loop c o full alter E0 s0 k E s true -> lb_round c o full alter E s E' s' ch -> lb_loop c o full alter E0 s0 (S k) E' s' ch.

  (* 175-323 process_batch.  The queries at 311-322 run over updates[i], not queries[i], for i below the number of queries;
     their loop is the one of Shiloach-Vishkin (A1 ... of SVModel).  An iteration treats u before v; the model lets the two
     run as tasks of their own, which allows more interleavings *)
  Inductive lb_batch (c : connect_option) (o : update_option) (full alter : bool) (ups : list lupd) (s : lbst) : lbst -> Prop :=
  | lb_batch_intro : forall re k r E s1 sched, reorder_updates ups = (re, k) ->
      lb_loop c o full alter (map fst (firstn k re)) s r E s1 false ->
      let js := jexec largest sched (jstart A1 (bP s1) (flat_map (fun x => [fst (fst x); snd (fst x)]) (firstn (length ups - k) ups))) in
      jfinished js ->
      lb_batch c o full alter ups s {| bP := jpar js; bM := bM s1; bF := bF s1 |}.
  (* initialize (115-119) on P = identity, then one batch after the other *)
  Definition lb_init : lbst := {| bP := fun i => i; bM := fun i => i; bF := fun _ => false |}.
  Inductive lb_batches (c : connect_option) (o : update_option) (full alter : bool) : list (list lupd) -> lbst -> Prop :=
  | lbs_nil : lb_batches c o full alter [] lb_init
  | lbs_snoc : forall bs b s s', lb_batches c o full alter bs s -> lb_batch c o full alter b s s' -> lb_batches c o full alter (bs ++ [b]) s'.
End LB.
