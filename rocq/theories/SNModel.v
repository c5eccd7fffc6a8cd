(* Model of benchmarks/Spanner/MPXV15/Spanner.h and of sparse_table::insert_check
   (gbbs/helpers/sparse_table.h:155-181).

   LDD_parents (Spanner.h:198-283) is the decomposition of LDModel (LDD_edges): update and
   updateAtomic set the cluster and the parent of a vertex together.  A key (a, b) of the edge
   table with a, b < n is the number a * n + b.  Weights are dropped, as in the code. *)
From Coq Require Import Permutation.
From Verif Require Import Base VSModel EMModel FAModel HTModel HTSpec LDModel CTModel.

(* -- insert_check: one shared access per step -------------------------------------------------- *)
Section Check.
  Variable V : Type.
  Variable hash : nat -> nat.
  Variable e0 : V.
  Variable limit : nat.                   (* 10000 in the code *)

  Inductive cpc :=
  | CEnter                                (* if ( *abort) *)
  | CTest (h probes : nat)                (* if (get<0>(table[h]) == empty_key) *)
  | CCas (h probes : nat)                 (* atomic_compare_and_swap(&get<0>(table[h]), empty_key, k) *)
  | CCheck (h probes : nat)               (* if (get<0>(table[h]) == k); next index, n_probes++ and its test *)
  | CUpd (h : nat)                        (* get<1>(table[h]) = get<1>(kv) *)
  | CAbort                                (* *abort = true *)
  | CDone (r : bool).
  Record cst := { ctab : table V; cpcs : list cpc; cab : bool }.

  Definition cstep (kv : nat * V) (t : table V) (p : cpc) (ab : bool) : table V * cpc * bool :=
    let k := fst kv in
    match p with
    | CEnter => (t, if ab then CDone false else CTest (firstIndex hash t k) 0, ab)
    | CTest h q => (t, match tkey e0 t h with None => CCas h q | Some _ => CCheck h q end, ab)
    | CCas h q => match tkey e0 t h with
                  | None => (set_key e0 t h k, CUpd h, ab)
                  | Some _ => (t, CCheck h q, ab)
                  end
    | CCheck h q => let other := if limit <? q + 1 then CAbort else CTest (incrementIndex t h) (q + 1) in
                    match tkey e0 t h with
                    | Some k' => if k' =? k then (t, CDone false, ab) else (t, other, ab)
                    | None => (t, other, ab)
                    end
    | CUpd h => (set_val e0 t h (snd kv), CDone true, ab)
    | CAbort => (t, CDone false, true)
    | CDone r => (t, CDone r, ab)
    end.
  Definition csys_step (calls : list (nat * V)) (s : cst) (i : nat) : cst :=
    match nth_error calls i, nth_error (cpcs s) i with
    | Some kv, Some p => let '(t, p', ab) := cstep kv (ctab s) p (cab s) in {| ctab := t; cpcs := lset (cpcs s) i p'; cab := ab |}
    | _, _ => s
    end.
  Definition cexec (calls : list (nat * V)) (sched : list nat) (s : cst) : cst := fold_left (csys_step calls) sched s.
  Definition cstart (t : table V) (calls : list (nat * V)) : cst :=
    {| ctab := t; cpcs := map (fun _ => CEnter) calls; cab := false |}.
  Definition cfinished (s : cst) : Prop := forall i p, nth_error (cpcs s) i = Some p -> exists r, p = CDone r.
  Definition creturned (s : cst) (i : nat) (r : bool) : Prop := nth_error (cpcs s) i = Some (CDone r).
End Check.
Arguments CEnter : clear implicits.

Section Spanner.
  Variable hash : nat -> nat.             (* hash_pair, 75-80 and 121-126, on encoded keys *)
  Variable limit : nat.
  Notation pair := (nat * nat)%type.
  Definition no_edge : pair := (0, 0).

  (* 157-163 *)
  Definition span_tree (n : nat) (par : nat -> option nat) : list pair :=
    filter (fun e => negb (fst e =? snd e)) (map (fun i => (i, match par i with Some p => p | None => S n end)) (seq 0 n)).
  (* 167-168; a vertex without a cluster would have the id UINT_E_MAX *)
  Definition cluster_of (n : nat) (clu : nat -> option nat) (v : nat) : nat := match clu v with Some c => c | None => S n end.
  (* 169-179: the race on flags is between equal writes *)
  Definition span_num_clusters (n : nat) (cl : nat -> nat) : nat :=
    length (filter (fun c => existsb (fun v => cl v =? c) (seq 0 n)) (seq 0 n)).

  Section Inter.
    Variable n : nat.
    Variable outn : nat -> list nat.
    Variable cl : nat -> nat.
    (* map_f, 85-92 and 133-141: one insertion per edge with c_src < c_ngh *)
    Definition span_calls : list (nat * pair) :=
      flat_map (fun u => flat_map (fun v => if cl u <? cl v then [(cl u * n + cl v, (u, v))] else []) (outn u)) (seq 0 n).
    (* 108-158 fetch_intercluster *)
    Inductive intercluster : list pair -> Prop :=
    | inter_estimated sched :
        let s := cexec hash no_edge limit span_calls sched
                   (cstart (new_table no_edge (table_for (span_num_clusters n cl * 5))) span_calls) in
        cfinished s -> cab s = false -> intercluster (map snd (entries (ctab s)))
    (* 143-146, 44-105 fetch_intercluster_te *)
    | inter_exact sched sched' :
        let s := cexec hash no_edge limit span_calls sched
                   (cstart (new_table no_edge (table_for (span_num_clusters n cl * 5))) span_calls) in
        cfinished s -> cab s = true ->
        let s' := exec no_edge (fun _ v => v) None span_calls sched'
                   (start hash (new_table no_edge (table_for (length span_calls))) span_calls) in
        finished s' -> intercluster (map snd (entries (tab s'))).
  End Inter.

  (* 150-186, 285-307; incs: the increments of the shifts *)
  Inductive spanner_returns (n : nat) (outn : nat -> list nat) (m : nat) (incs : list nat) : (nat -> option nat) -> (nat -> option nat) -> list pair -> Prop :=
  | spanner_done perm clu par inter : Permutation perm (seq 0 n) ->
      ldd_returns n outn outn m (generate_shifts incs) perm clu par ->
      intercluster n outn (cluster_of n clu) inter ->
      spanner_returns n outn m incs clu par (span_tree n par ++ inter).
End Spanner.
