(* Models of benchmarks/IntegralWeightSSSP/JulienneDBS17/wBFS.h and
   benchmarks/PositiveWeightSSSP/DeltaStepping/DeltaStepping.h on the bucketing structure of
   BKModel.

   Weights and distances are natural numbers (integral, non-negative weights; an unweighted
   graph is one in which all weights are 1: wBFS.h:121, DeltaStepping.h:61).  outw v are the
   out-edges of v, each with its weight.

   The traversal (edgeMapData, sparse or dense_forward) calls updateAtomic once per out-edge of
   the frontier, and returns the targets of the calls that return a value, with that value
   (C17).  Here every call is a thread of its own, so the calls may overlap in any way at all;
   every access to the shared arrays is one step.  The entries of the distances at n and beyond
   do not exist in the code. *)
From Coq Require Import Permutation.
From Verif Require Import Base BKModel.

(* a call: source, target, weight *)
Definition call : Type := nat * nat * nat.
Definition c_src (c : call) : nat := fst (fst c).
Definition c_dst (c : call) : nat := snd (fst c).
Definition c_wgh (c : call) : nat := snd c.
Definition calls (outw : nat -> list (nat * nat)) (L : list nat) : list call :=
  flat_map (fun s => map (fun e => (s, fst e, snd e)) (outw s)) L.

(* threads: one per call; act is one step of a call *)
Section Machine.
  Context {M pc : Type} (act : M -> call -> pc -> M * pc).
  Definition step (cs : list call) (st : M * list pc) (i : nat) : M * list pc :=
    match nth_error cs i, nth_error (snd st) i with
    | Some c, Some p => let (m', p') := act (fst st) c p in (m', lset (snd st) i p')
    | _, _ => st
    end.
  Definition exec (cs : list call) (sched : list nat) (st : M * list pc) : M * list pc := fold_left (step cs) sched st.
End Machine.
(* the value returned by a call; None: the call is not finished *)
Definition outputs {pc} (result : pc -> option (option nat)) (cs : list call) (pcs : list pc) : list (nat * nat) :=
  flat_map (fun cp => match result (snd cp) with Some (Some x) => [(c_dst (fst cp), x)] | _ => [] end) (combine cs pcs).
Definition all_done {pc} (result : pc -> option (option nat)) (pcs : list pc) : Prop :=
  Forall (fun p => result p <> None) pcs.

(* -- wBFS ---------------------------------------------------------------------------------- *)
Section WB.
  Variable n : nat.
  Variable outw : nat -> list (nat * nat).
  Variable src : nat.
  Variable o : nat.           (* num_buckets - 1 *)
  Variable half : nat.        (* wBFS.h:33 TOP_BIT, 2^31; words are below 2 * half *)

  (* INT_E_MAX = VAL_MASK and UINT_E_MAX *)
  Definition unreached : nat := half - 1.
  Definition null : nat := 2 * half - 1.
  (* x | TOP_BIT and x & VAL_MASK *)
  Definition flagged (x : nat) : nat := if x <? half then x + half else x.
  Definition masked (x : nat) : nat := x mod half.

  (* wBFS.h:54-68 updateAtomic, with write_min (bridge.h:301-308) inlined *)
  Inductive wpc :=
  | WStart                             (* 56 *)
  | WSource (oval : nat)               (* 58 *)
  | WCas (oval nd : nat)               (* 60-62 *)
  | WLoad (nd : nat) | WMin (nd c : nat)   (* 65 *)
  | WDone (r : option nat).
  Definition wact (m : nat -> nat) (c : call) (p : wpc) : (nat -> nat) * wpc :=
    match p with
    | WStart => (m, WSource (m (c_dst c)))
    | WSource oval =>
        let nd := (flagged (m (c_src c)) + c_wgh c) mod (2 * half) in
        (m, if nd <? flagged oval then if oval <? half then WCas oval nd else WLoad nd else WDone None)
    | WCas oval nd => if m (c_dst c) =? oval then (fset m (c_dst c) nd, WDone (Some oval)) else (m, WLoad nd)
    | WLoad nd => (m, if nd <? m (c_dst c) then WMin nd (m (c_dst c)) else WDone None)
    | WMin nd v => if m (c_dst c) =? v then (fset m (c_dst c) nd, WDone None) else (m, WLoad nd)
    | WDone r => (m, WDone r)
    end.
  Definition wresult (p : wpc) : option (option nat) := match p with WDone r => Some r | _ => None end.

  (* 90-96 get_bkt, get_ring *)
  Definition wb_bkt (x : nat) : nat := if x =? unreached then null else x.
  Definition wb_ring (D : nat -> nat) (v : nat) : nat := if v <? n then wb_bkt (D v) else null.
  (* 99-106 apply_f; the bucket is written back into the output (105) and read by
     update_buckets (127-131) *)
  Definition wb_apply (s : bst) (X : (nat -> nat) * list (nat * option nat)) (p : nat * nat) : (nat -> nat) * list (nat * option nat) :=
    let '(D, m) := X in let '(v, old) := p in
    let nd := masked (D v) in
    (fset D v nd, m ++ [(v, get_bucket2 true o null s (wb_bkt old) (wb_bkt nd))]).
  (* 86-88 *)
  Definition wb_init (v : nat) : nat := if v =? src then 0 else unreached.

  (* 97, 111-134: the loop, r rounds done.  The calls of apply_f (vertexMap) touch different
     vertices; they are made in the order of res.  update_buckets by C20. *)
  Inductive wb_loop : nat -> (nat -> nat) -> bst -> Prop :=
  | wb_start : wb_loop 0 wb_init (make true o null n (wb_ring wb_init))
  | wb_round : forall r D s fuel k L s' sched res, wb_loop r D s ->
      next_bucket true o fuel (wb_ring D) s = Ret (Some (k, L)) s' ->
      let st := exec wact (calls outw L) sched (D, repeat WStart (length (calls outw L))) in
      all_done wresult (snd st) ->
      Permutation res (outputs wresult (calls outw L) (snd st)) ->
      let X := fold_left (wb_apply s') res (fst st, []) in
      wb_loop (S r) (fst X) (update_seq (snd X) s').
  Definition wb_returns (D : nat -> nat) : Prop :=
    exists r s fuel s', wb_loop r D s /\ next_bucket true o fuel (wb_ring D) s = Ret None s'.
End WB.

(* -- DeltaStepping ----------------------------------------------------------------------------- *)
Notation dmem := ((nat -> nat) * (nat -> bool))%type.
Section DS.
  Variable n : nat.
  Variable outw : nat -> list (nat * nat).
  Variable src : nat.
  Variable o null : nat.      (* num_buckets - 1; UINT_E_MAX *)
  Variable top : nat.         (* kMaxWeight *)
  Variable bkt : nat -> nat.  (* (uintE)(dist / delta) *)

  (* DeltaStepping.h:56-74 updateAtomic.  The memory: distances and flags.  DOverflow: the
     signed addition at 63 overflows (undefined behaviour) *)
  Inductive dpc :=
  | DStart                                    (* 58 *)
  | DSource (dist : nat)                      (* 59-64 *)
  | DLoad (dist nd : nat) | DMin (dist nd c : nat)   (* 66 *)
  | DFlag (dist : nat) | DCas (dist : nat)    (* 67-69 *)
  | DDone (r : option nat)
  | DOverflow.
  Definition dact (m : dmem) (c : call) (p : dpc) : dmem * dpc :=
    match p with
    | DStart => (m, DSource (fst m (c_dst c)))
    | DSource dist =>
        let nd := fst m (c_src c) + c_wgh c in
        (m, if top <? nd then DOverflow else if nd <? dist then DLoad dist nd else DDone None)
    | DLoad dist nd => (m, if nd <? fst m (c_dst c) then DMin dist nd (fst m (c_dst c)) else DFlag dist)
    | DMin dist nd v => if fst m (c_dst c) =? v then ((fset (fst m) (c_dst c) nd, snd m), DFlag dist) else (m, DLoad dist nd)
    | DFlag dist => (m, if snd m (c_dst c) then DDone None else DCas dist)
    | DCas dist => if snd m (c_dst c) then (m, DDone None) else ((fst m, fset (snd m) (c_dst c) true), DDone (Some dist))
    | DDone r => (m, DDone r)
    | DOverflow => (m, DOverflow)
    end.
  Definition dresult (p : dpc) : option (option nat) := match p with DDone r => Some r | _ => None end.

  (* 94-100 *)
  Definition ds_bkt (x : nat) : nat := if x =? top then null else bkt x.
  Definition ds_ring (D : nat -> nat) (v : nat) : nat := if v <? n then ds_bkt (D v) else null.
  (* 103-109 apply_f; bkts[v] is read by update_buckets (138-144) *)
  Definition ds_apply (s : bst) (X : dmem * list (nat * option nat)) (p : nat * nat) : dmem * list (nat * option nat) :=
    let '(m, l) := X in let '(v, old) := p in
    ((fst m, fset (snd m) v false), l ++ [(v, get_bucket2 true o null s (ds_bkt old) (ds_bkt (fst m v)))]).
  (* 89-91 *)
  Definition ds_init : dmem := (fun v => if v =? src then 0 else top, fun _ => false).

  (* 101, 113-148: the loop, r rounds done.  ok is a condition on every round: the distances
     before it, its calls, the schedule, and what is reported *)
  Inductive ds_loop (ok : (nat -> nat) -> list call -> list nat -> list (nat * nat) -> Prop) : nat -> dmem -> bst -> Prop :=
  | ds_start : ds_loop ok 0 ds_init (make true o null n (ds_ring (fst ds_init)))
  | ds_round : forall r m s fuel k L s' sched res, ds_loop ok r m s ->
      next_bucket true o fuel (ds_ring (fst m)) s = Ret (Some (k, L)) s' ->
      let st := exec dact (calls outw L) sched (m, repeat DStart (length (calls outw L))) in
      all_done dresult (snd st) ->
      Permutation res (outputs dresult (calls outw L) (snd st)) ->
      ok (fst m) (calls outw L) sched res ->
      let X := fold_left (ds_apply s') res (fst st, []) in
      ds_loop ok (S r) (fst X) (update_seq (snd X) s').
  (* 155-157 *)
  Definition ds_returns (ok : (nat -> nat) -> list call -> list nat -> list (nat * nat) -> Prop) (D : nat -> nat) : Prop :=
    exists r m s fuel s', ds_loop ok r m s /\ next_bucket true o fuel (ds_ring (fst m)) s = Ret None s' /\ D = fst m.
End DS.
