(* Model of benchmarks/Connectivity/ShiloachVishkin/Connectivity.h and of the pointer-jumping
   loops it shares with benchmarks/Connectivity/LiuTarjan/liu_tarjan_rules.h.

   Pointer jumping: one task per vertex; every read and write of the array is one step and the
   tasks interleave arbitrarily. *)
From Verif Require Import Base EMModel.

Section Jump.
  Variable largest : nat.    (* Connectivity/common.h:13 largest_comp *)
  Inductive jpc :=
  (* ShiloachVishkin/Connectivity.h:102-106
       while (parents[u] != parents[parents[u]]) parents[u] = parents[parents[u]];
       prev_parents[u] = parents[u];
     A1: left operand; A2: inner index; A3: right operand; A4, A5: right-hand side; A6: store;
     A7: the value for prev_parents[u] *)
  | A1 | A2 (a : nat) | A3 (a b : nat) | A4 | A5 (b : nat) | A6 (c : nat) | A7
  (* liu_tarjan_rules.h:109-114 shortcut (full = false), 116-122 root_shortcut (full = true)
     B1: p_u = P[u]; B2: P[p_u] in the test; B3: P[p_u] on the right-hand side; B4: store *)
  | B1 (full : bool) | B2 (full : bool) (p : nat) | B3 (full : bool) (p : nat) | B4 (full : bool) (q : nat)
  | JDone (x : nat).
  (* the step of the task of u: the value stored to its own cell, if any, and the next pc *)
  Definition jact (par : nat -> nat) (u : nat) (pc : jpc) : option nat * jpc :=
    match pc with
    | A1 => (None, A2 (par u))
    | A2 a => (None, A3 a (par u))
    | A3 a b => (None, if a =? par b then A7 else A4)
    | A4 => (None, A5 (par u))
    | A5 b => (None, A6 (par b))
    | A6 c => (Some c, A1)
    | A7 => (None, JDone (par u))
    | B1 f => (None, B2 f (par u))
    | B2 f p => (None, if p =? largest then JDone p else if p =? par p then JDone p else B3 f p)
    | B3 f p => (None, B4 f (par p))
    | B4 f q => (Some q, if f then B1 f else JDone q)
    | JDone x => (None, JDone x)
    end.
  Record jstate := { jpar : nat -> nat; jthr : list (nat * jpc) }.
  Definition jstep (s : jstate) (t : nat) : jstate :=
    match nth_error (jthr s) t with
    | None => s
    | Some (u, pc) =>
        let (w, pc') := jact (jpar s) u pc in
        {| jpar := match w with Some c => fset (jpar s) u c | None => jpar s end;
           jthr := lset (jthr s) t (u, pc') |}
    end.
  Definition jexec (sched : list nat) (s : jstate) : jstate := fold_left jstep sched s.
  Definition jfinished (s : jstate) : Prop := forall u pc, In (u, pc) (jthr s) -> exists x, pc = JDone x.
  Definition jstart (pc : jpc) (par : nat -> nat) (vs : list nat) : jstate :=
    {| jpar := par; jthr := map (fun u => (u, pc)) vs |}.
End Jump.

(* a set of concurrent write_min calls (cell, value): each is one atomic step (C11), in
   some order *)
Definition min_writes (calls : list (nat * nat)) (par : nat -> nat) : nat -> nat :=
  fold_left (fun p c => if snd c <? p (fst c) then fset p (fst c) (snd c) else p) calls par.

(* lines 83-94 (compute_components), 126-137 (process_batch): the call made for edge (u, v) *)
Definition hook_call (prev : nat -> nat) (e : nat * nat) : list (nat * nat) :=
  let p_u := prev (fst e) in let p_v := prev (snd e) in
  let l := Nat.min p_u p_v in let h := Nat.max p_u p_v in
  if negb (l =? h) && (h =? prev h) then [(h, l)] else [].

(* prev_parents[u] = parents[u], the value read by the task of u *)
Definition store_prev (s : jstate) (prev : nat -> nat) : nat -> nat :=
  fold_left (fun pr c => match snd c with JDone x => fset pr (fst c) x | _ => pr end) (jthr s) prev.

(* one iteration of the while loop: hook over the edges E, compress the vertices vs
   (lines 75-108, 118-198) *)
Inductive sv_round (E : list (nat * nat)) (vs : list nat) (par prev : nat -> nat)
  : (nat -> nat) -> (nat -> nat) -> bool -> Prop :=
| sv_round_intro : forall calls sched,
    Permutation calls (flat_map (hook_call prev) E) ->
    let s := jexec 0 sched (jstart A1 (min_writes calls par) vs) in
    jfinished s ->
    sv_round E vs par prev (jpar s) (store_prev s prev) (match calls with [] => false | _ => true end).

(* k iterations done; the flag is [changed] *)
Inductive sv_loop (E : list (nat * nat)) (vs : list nat) (par0 prev0 : nat -> nat)
  : nat -> (nat -> nat) -> (nat -> nat) -> bool -> Prop :=
| sv_start : sv_loop E vs par0 prev0 0 par0 prev0 true
| sv_next : forall k par prev par' prev' ch, sv_loop E vs par0 prev0 k par prev true ->
    sv_round E vs par prev par' prev' ch -> sv_loop E vs par0 prev0 (S k) par' prev' ch.

(* lines 53-73, 95: the edges mapped over; freq: frequent_comp with sampling *)
Definition sv_edges (n : nat) (outn : nat -> list nat) (par : nat -> nat) (freq : option nat) : list (nat * nat) :=
  flat_map (fun u => map (fun v => (u, v)) (outn u))
    (filter (fun u => match freq with Some f => negb (par u =? f) | None => true end) (seq 0 n)).
(* initialize (39-42) and compute_components (44-110) from the labels par0 *)
Definition sv_returns (n : nat) (outn : nat -> list nat) (par0 : nat -> nat) (freq : option nat) (par : nat -> nat) : Prop :=
  exists k prev, sv_loop (sv_edges n outn par0 freq) (seq 0 n) par0 par0 k par prev false.

(* process_batch (112-199).  An update is (u, v, true) for an insertion and (u, v, false) for
   a query.  The flags make every endpoint be compressed by exactly one task; here by a task of
   its own. *)
Definition sv_inserts (ups : list (nat * nat * bool)) : list (nat * nat) := map fst (filter snd ups).
Definition sv_endpoints (ups : list (nat * nat * bool)) : list nat :=
  nodup Nat.eq_dec (flat_map (fun x => [fst (fst x); snd (fst x)]) ups).
Definition sv_batch (ups : list (nat * nat * bool)) (par prev par' prev' : nat -> nat) : Prop :=
  exists k, sv_loop (sv_inserts ups) (sv_endpoints ups) par prev k par' prev' false.
Inductive sv_batches : list (list (nat * nat * bool)) -> (nat -> nat) -> (nat -> nat) -> (nat -> nat) -> (nat -> nat) -> Prop :=
| svb_nil : forall par prev, sv_batches [] par prev par prev
| svb_cons : forall b bs par prev par1 prev1 par2 prev2, sv_batch b par prev par1 prev1 ->
    sv_batches bs par1 prev1 par2 prev2 -> sv_batches (b :: bs) par prev par2 prev2.
