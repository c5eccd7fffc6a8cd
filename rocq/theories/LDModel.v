(* Model of the low-diameter decomposition: benchmarks/LowDiameterDecomposition/MPX13/
   LowDiameterDecomposition.h (LDD) and benchmarks/SpanningForest/SDB14/SpanningForest.h
   (LDD_edges, the same code that also records parents).

   Every call of edgeMap is a run of the traversal machines (FAModel.edgeMap_visit).
   cluster_ids[d] and parents[d] leave UINT_E_MAX (None) together: at a centre, and in
   update / updateAtomic, where d gets s as its parent and the cluster of s, which is in the
   frontier and keeps its cluster.  So the machine is run on parents and the clusters are read
   off afterwards.  The oracle of LDD_oracle and the unused parameter pack are left out. *)
From Verif Require Import Base VSModel EMModel FAModel.

(* LowDiameterDecomposition.h:33-48 total_rounds, generate_shifts: the exclusive scan of the increments
   floor(exp(i * beta)), i < total_rounds(n, beta).  The increments are left abstract. *)
Fixpoint shifts_from (acc : nat) (incs : list nat) : list nat :=
  match incs with
  | [] => [acc]
  | x :: incs => acc :: shifts_from (acc + x) incs
  end.
Definition generate_shifts (incs : list nat) : list nat := shifts_from 0 incs.

(* sparse_blocked, default threshold *)
Definition ldd_flags : eflags := {| f_dense_only := false; f_no_dense := false; f_dense_forward := false; f_dense_parallel := false |}.

Record ldd_state := { l_round : nat; l_added : nat; l_visited : nat; l_par : pstate; l_clu : pstate; l_front : vset unit }.

Section LDD.
  Variable n : nat.
  Variable outn inn : nat -> list nat.
  Variable m : nat.
  Variable shifts perm : list nat.    (* perm: vertex_perm, or the identity if !permute *)

  (* lines 152-174 (SpanningForest.h:83-106): the candidates of the round become centres if
     they have no cluster yet.  None: a read of shifts or perm out of bounds, or end - start
     wraps around *)
  Definition unset (p : pstate) (v : nat) : bool := match p v with None => true | Some _ => false end.
  Definition set_all (p : pstate) (vs : list nat) : pstate := fold_left (fun p v => fset p v (Some v)) vs p.
  Definition ldd_centers (s : ldd_state) : option ldd_state :=
    match nth_error shifts (l_round s), nth_error shifts (l_round s + 1) with
    | Some start, Some next =>
        let end_ := Nat.min next n in
        if end_ <? start then None
        else if n <? l_added s + (end_ - start) then None
        else let candidates := firstn (end_ - start) (skipn (l_added s) perm) in
             let new_centers := filter (unset (l_clu s)) candidates in
             Some {| l_round := l_round s; l_added := l_added s + (end_ - start); l_visited := l_visited s;
                     l_par := set_all (l_par s) new_centers; l_clu := set_all (l_clu s) new_centers;
                     l_front := if 0 <? end_ - start then add_to_vsubset (l_front s) new_centers else l_front s |}
    | _, _ => None
    end.
  (* line 176 (SpanningForest.h:108) *)
  Definition ldd_count (s : ldd_state) : ldd_state :=
    {| l_round := l_round s; l_added := l_added s; l_visited := l_visited s + size (l_front s);
       l_par := l_par s; l_clu := l_clu s; l_front := l_front s |}.
  (* lines 180-184 (SpanningForest.h:111-116) *)
  Definition spread (clu par' : pstate) : pstate :=
    fun d => match clu d with
             | Some c => Some c
             | None => match par' d with Some s => clu s | None => None end
             end.
  Definition ldd_next (s : ldd_state) (par' : pstate) (U : vset unit) : ldd_state :=
    {| l_round := l_round s + 1; l_added := l_added s; l_visited := l_visited s;
       l_par := par'; l_clu := spread (l_clu s) par'; l_front := U |}.
  Definition ldd_init : ldd_state :=
    {| l_round := 0; l_added := 0; l_visited := 0; l_par := fun _ => None; l_clu := fun _ => None; l_front := vs_empty n |}.

  (* lines 148-188 (SpanningForest.h:79-119): states at the head of the loop *)
  Inductive ldd_loop : ldd_state -> Prop :=
  | ldd_start : ldd_loop ldd_init
  | ldd_step : forall s s1 par' U, ldd_loop s -> l_visited s < n -> ldd_centers s = Some s1 ->
      l_visited (ldd_count s1) < n ->
      edgeMap_visit n outn inn m None ldd_flags (l_front s1) (l_par s1) par' U ->
      ldd_loop (ldd_next (ldd_count s1) par' U).
  (* (cluster_ids, parents) *)
  Inductive ldd_returns : pstate -> pstate -> Prop :=
  | ldd_done : forall s, ldd_loop s -> n <= l_visited s -> ldd_returns (l_clu s) (l_par s)
  | ldd_break : forall s s1, ldd_loop s -> l_visited s < n -> ldd_centers s = Some s1 ->
      n <= l_visited (ldd_count s1) -> ldd_returns (l_clu s1) (l_par s1).
End LDD.
