(* Model of the correctness checks of the connectivity and spanning-forest benchmarks:
   benchmarks/Connectivity/ConnectIt/mains/check.h and benchmarks/SpanningForest/check.h (num_cc, largest_cc also
   in Connectivity/SimpleUnionAsync/Connectivity.h:154-182 and WorkEfficientSDB14/Connectivity.h:76-103).
   An access outside an array is None. *)
From Verif Require Import Base GBModel.

(* check.h:6-20 num_cc (both files); order: of the parallel loop.  Racing stores write the same value *)
Definition set_flag (fl : option (list nat)) (l : nat) : option (list nat) :=
  match fl with None => None | Some fl => if l <? length fl then Some (lset fl l 1) else None end.
Definition num_cc (labels order : list nat) : option nat :=
  let n := length labels in
  match fold_left set_flag (map (fun i => nth i labels 0) order) (Some (repeat 0 (n + 1))) with
  | None => None
  | Some fl => Some (list_sum (firstn n fl))             (* flags[n] after the exclusive scan *)
  end.
(* check.h:22-34 largest_cc *)
Definition add_flag (fl : option (list nat)) (l : nat) : option (list nat) :=
  match fl with None => None | Some fl => if l <? length fl then Some (lset fl l (nth l fl 0 + 1)) else None end.
Definition largest_cc (labels : list nat) : option nat :=
  match fold_left add_flag labels (Some (repeat 0 (length labels + 1))) with
  | None => None
  | Some fl => Some (list_max fl)
  end.

(* ConnectIt/mains/check.h:36-51, SpanningForest/check.h:27-43 RelabelDet: the loop from some vertex on *)
Fixpoint relabel_loop (cm : list nat) (cur : nat) (ids : list nat) : option (list nat) :=
  match ids with
  | [] => Some []
  | comp :: ids =>
      match nth_error cm comp with
      | None => None
      | Some 0 => option_map (cons cur) (relabel_loop (lset cm comp cur) (S cur) ids)
      | Some x => option_map (cons x) (relabel_loop cm cur ids)
      end
  end.
Definition RelabelDet (ids : list nat) : option (list nat) := relabel_loop (repeat 0 (length ids + 1)) 0 ids.

(* ConnectIt/mains/check.h:53-79 cc_check, after RelabelDet(correct) in the callers (unite_bfs.cc:70), and
   SpanningForest/check.h:45-70, which relabels both: Some false if it aborts.  Whatever the order of the loop,
   it aborts iff some pair differs *)
Definition cc_check (correct check : list nat) : option bool :=
  match RelabelDet correct, RelabelDet check with
  | Some a, Some b => if length a <=? length b then Some (forallb (fun p => fst p =? snd p) (combine a b)) else None
  | _, _ => None
  end.

(* SpanningForest/check.h:72-87 double_edges *)
Definition double_edges (es : list (nat * nat)) : list (nat * nat) :=
  map (fun i => let '(u, v) := nth (i / 2) es (0, 0) in if i mod 2 =? 0 then (u, v) else (v, u)) (seq 0 (2 * length es)).
(* SpanningForest/check.h:89-112 check_spanning_forest; cc: from_edges followed by workefficient_cc::CC *)
Definition check_spanning_forest (cc : nat -> list (nat * nat) -> list nat) (n : nat) (correct check : list (nat * nat)) : option bool :=
  if negb (length correct =? length check) then Some false
  else cc_check (cc n (double_edges correct)) (cc n (double_edges check)).
