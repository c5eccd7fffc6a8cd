(* benchmarks/SCAN/IndexBased/utils.cc CompactClustering and utils.h DetermineUnclusteredType.

   Every step of a parallel loop makes one access to memory that other iterations write; the schedule is
   arbitrary.  mx = kUnclustered = UINT_E_MAX; a neighbour is a vertex of the graph (the reading of clustering at a
   neighbour outside of the list is given the value mx, the code would leave the array).  Counts are at most the number of vertices, so uintE does not
   overflow. *)
From Verif Require Import Base SIModel.
Local Open Scope nat_scope.

Section Compact.
  Variable mx : nat.
  Variable clustering : list nat.
  (* utils.cc:35-40, iteration i *)
  Inductive mpc := MTest | MSet | MDone | MFail.     (* MFail: outside of cluster_relabel_map *)
  Definition mark_step (i : nat) (relabel : list nat) (p : mpc) : list nat * mpc :=
    match nth_error clustering i with
    | None => (relabel, MFail)
    | Some cluster_id =>
        match p with
        | MTest => if cluster_id =? mx then (relabel, MDone)
                   else match nth_error relabel cluster_id with
                        | None => (relabel, MFail)
                        | Some 0 => (relabel, MSet)
                        | Some _ => (relabel, MDone)
                        end
        | MSet => if cluster_id <? length relabel then (lset relabel cluster_id 1, MDone) else (relabel, MFail)
        | _ => (relabel, p)
        end
    end.
  Definition mark_sys (s : list nat * list mpc) (i : nat) : list nat * list mpc :=
    match nth_error (snd s) i with
    | None => s
    | Some p => let r := mark_step i (fst s) p in (fst r, lset (snd s) i (snd r))
    end.
  (* utils.cc:33-34 *)
  Definition mark_start : list nat * list mpc := (repeat 0 (length clustering), repeat MTest (length clustering)).
  Definition mark_run (sched : list nat) : list nat * list mpc := fold_left mark_sys sched mark_start.
  Definition all_marked (s : list nat * list mpc) : bool := forallb (fun p => match p with MDone => true | _ => false end) (snd s).
  (* utils.cc:41 parlay::scan_inplace: the sums of the elements before each, and the total *)
  Definition scan_exclusive (l : list nat) : list nat := map (fun i => list_sum (firstn i l)) (seq 0 (length l)).
  (* utils.cc:42-47: every iteration reads and writes its own entry *)
  Definition relabel_all (relabel : list nat) : option (list nat) :=
    all_some (map (fun cluster_id => if cluster_id =? mx then Some cluster_id else nth_error relabel cluster_id) clustering).
  (* utils.cc:31-49: the new clustering and the number of clusters; None: not all iterations have ended, or
     one left the array *)
  Definition compact (sched : list nat) : option (list nat * nat) :=
    let s := mark_run sched in
    if all_marked s then
      match relabel_all (scan_exclusive (fst s)) with
      | Some out => Some (out, list_sum (fst s))
      | None => None
      end
    else None.
End Compact.

(* utils.h:128-160 DetermineUnclusteredType: the calls of check_neighbor share candidate_cluster and is_hub *)
Inductive hpc :=
| HTest      (* neighbor_cluster != kUnclustered && candidate_cluster == UINT_E_MAX *)
| HCas       (* atomic_compare_and_swap(&candidate_cluster, UINT_E_MAX, neighbor_cluster) *)
| HCompare   (* candidate_cluster != neighbor_cluster *)
| HLook      (* !is_hub *)
| HSet       (* is_hub = true *)
| HDone.
Record hst := { candidate : nat; is_hub : bool; hpcs : list hpc }.
Section Unclustered.
  Variable mx : nat.
  Variable clustering : list nat.
  Variable nghs : list nat.                           (* out_neighbors *)
  Definition hub_step (c : nat) (s : hst) (p : hpc) : nat * bool * hpc :=
    match p with
    | HTest => (candidate s, is_hub s, if c =? mx then HDone else if candidate s =? mx then HCas else HCompare)
    | HCas => if candidate s =? mx then (c, is_hub s, HDone) else (candidate s, is_hub s, HCompare)
    | HCompare => (candidate s, is_hub s, if candidate s =? c then HDone else HLook)
    | HLook => (candidate s, is_hub s, if is_hub s then HDone else HSet)
    | HSet => (candidate s, true, HDone)
    | HDone => (candidate s, is_hub s, HDone)
    end.
  Definition hub_sys (s : hst) (i : nat) : hst :=
    match nth_error nghs i, nth_error (hpcs s) i with
    | Some x, Some p =>
        let '(cand, h, p') := hub_step (nth x clustering mx) s p in
        {| candidate := cand; is_hub := h; hpcs := lset (hpcs s) i p' |}
    | _, _ => s
    end.
  Definition hub_start : hst := {| candidate := mx; is_hub := false; hpcs := repeat HTest (length nghs) |}.
  Definition hub_run (sched : list nat) : hst := fold_left hub_sys sched hub_start.
  (* Some true: kHub, Some false: kOutlier, None: not all calls have ended *)
  Definition unclustered_type (sched : list nat) : option bool :=
    let s := hub_run sched in
    if forallb (fun p => match p with HDone => true | _ => false end) (hpcs s) then Some (is_hub s) else None.
End Unclustered.
