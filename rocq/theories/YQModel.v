(* Model of benchmarks/MaximalIndependentSet/Yoshida and benchmarks/MaximalMatching/Yoshida.

   [smax] is the largest size_t.  Failing assertions and exit(-1) are the outcome Exit; Deep is
   the exhaustion of the recursion depth of the model, not an outcome of the program.  Sorting is
   by specification: a permutation without inversions.  parlay::hash64 is any function. *)
From Coq Require Import Permutation Sorted.
From Verif Require Import Base.

Section Yoshida.
  Variable smax : nat.

  (* MIS.h:30, MM.h:33 *)
  Inductive status := In_ | Out_ | Unknown.
  Inductive outcome := Ret (s : status) (work : nat) | Exit | Deep.

  (* -- reorder.h: both versions; comp is comp_f (lines 29-40) for the list of vertex i ------- *)
  (* lines 11-14: offs after the scan *)
  Definition offset (outn : nat -> list nat) (i : nat) : nat := list_sum (map (fun v => length (outn v)) (seq 0 i)).
  (* lines 17-43: the slices are written and sorted independently; [edges] is the whole array *)
  Definition sorted_by (comp : nat -> nat -> bool) (l : list nat) : Prop := StronglySorted (fun a b => comp b a = false) l.
  Definition reordered (comp : nat -> nat -> nat -> bool) (n : nat) (outn : nat -> list nat) (edges : list nat) : Prop :=
    exists f, (forall v, v < n -> Permutation (f v) (outn v) /\ sorted_by (comp v) (f v)) /\ edges = flat_map f (seq 0 n).
  (* lines 45-50: the neighbours of v in the new graph *)
  Definition slice (outn : nat -> list nat) (edges : list nat) (v : nat) : list nat :=
    firstn (offset outn (v + 1) - offset outn v) (skipn (offset outn v) edges).

  (* -- maximal independent set ---------------------------------------------------------------- *)
  Section Mis.
    Variable pri : nat -> nat.              (* 32 get_vertex_pri *)
    (* reorder.h:29-40 *)
    Definition vertex_comp (_ l r : nat) : bool :=
      if pri l <? pri r then true else if pri r <? pri l then false else l <? r.
    Variable nghs : nat -> list nat.        (* the reordered graph *)
    Variable cutoff : nat.
    (* 36-76 mis_query *)
    Fixpoint mis_query (depth : nat) (u work : nat) : outcome :=
      match depth with
      | 0 => Deep
      | S depth =>
          (fix loop (l : list nat) (work last_pri : nat) : outcome :=
             match l with
             | [] => Ret In_ work
             | ngh :: l =>
                 if work =? cutoff then Ret Unknown work
                 else if pri ngh <? last_pri then Exit
                 else if pri u <? pri ngh then Ret In_ (work + 1)
                 else if (pri u =? pri ngh) && (u <=? ngh) then Ret In_ (work + 1)
                 else match mis_query depth ngh (work + 1) with
                      | Ret In_ w => Ret Out_ w
                      | Ret Unknown w => Ret Unknown w
                      | Ret Out_ w => loop l w (pri ngh)
                      | o => o
                      end
             end) (nghs u) work 0
      end.
    Definition is_in (o : outcome) : bool := match o with Ret In_ _ => true | _ => false end.
    Definition is_answer (o : outcome) : bool := match o with Ret In_ _ => true | Ret Out_ _ => true | _ => false end.
    Definition work_of (o : outcome) : nat := match o with Ret _ w => w | _ => 0 end.
    Definition returned (o : outcome) : bool := match o with Ret _ _ => true | _ => false end.
  End Mis.
  (* 82-137 MaximalIndependentSet: every iteration of the first loop writes its own cells, and
     write_max leaves the maximum (C11).  The result also lists mis and answered, which the
     program only uses in the verification and for the counts; fraction_covered is the number of
     answers over n.  None: exit, or a query that is too deep for the model. *)
  Definition MaximalIndependentSet (pri : nat -> nat) (n : nat) (outn : nat -> list nat) (edges : list nat) (cutoff depth : nat)
    : option ((nat -> bool) * (nat -> bool) * nat * nat * nat) :=
    let q i := mis_query pri (slice outn edges) cutoff depth i 0 in
    if forallb (fun i => returned (q i)) (seq 0 n) then
      let mis i := is_in (q i) in
      (* 112-135 *)
      let good i := let nghs_ct := length (filter mis (outn i)) in if mis i then nghs_ct =? 0 else negb (nghs_ct =? 0) in
      if negb (cutoff =? smax) || forallb good (seq 0 n) then
        Some (mis, fun i => is_answer (q i),
              list_max (map (fun i => work_of (q i)) (seq 0 n)),
              list_sum (map (fun i => work_of (q i)) (seq 0 n)) mod (smax + 1),
              length (filter (fun i => is_answer (q i)) (seq 0 n)))
      else None
    else None.

  (* -- maximal matching ----------------------------------------------------------------------- *)
  Section Mm.
    Variable hash : nat * nat -> nat.       (* utils:8-10: hash64 of the pair packed into 64 bits *)
    (* utils:4-11 *)
    Definition get_edge_pri (u v : nat) : nat := hash (Nat.min u v, Nat.max u v).
    (* MaximalMatching/Yoshida/reorder.h:29-40 *)
    Definition edge_comp (i l r : nat) : bool :=
      if get_edge_pri i l <? get_edge_pri i r then true else if get_edge_pri i r <? get_edge_pri i l then false else l <? r.
    Definition pair_ltb (e f : nat * nat) : bool := (fst e <? fst f) || (fst e =? fst f) && (snd e <? snd f).
    Definition pair_eqb (e f : nat * nat) : bool := (fst e =? fst f) && (snd e =? snd f).
    (* utils:37-53 lt; None: an assertion fails *)
    Definition it_lt (a b : nat * nat) : option (nat * nat) :=
      if (fst a <? snd a) && (fst b <? snd b) then
        let a_p := get_edge_pri (fst a) (snd a) in let b_p := get_edge_pri (fst b) (snd b) in
        Some (if a_p <? b_p then a else if b_p <? a_p then b else if pair_ltb a b then a else b)
      else None.
    Definition ordered (u v : nat) : nat * nat := (Nat.min u v, Nat.max u v).
    (* utils:55-81 get_next on the neighbours that are left *)
    Definition get_next (id_a id_b : nat) (la lb : list nat) : option ((nat * nat) * (list nat * list nat)) :=
      match la, lb with
      | a :: la', b :: lb' =>
          let pair_a := ordered id_a a in let pair_b := ordered id_b b in
          match it_lt pair_a pair_b with
          | Some ret => Some (ret, if pair_eqb ret pair_a then (la', lb) else (la, lb'))
          | None => None
          end
      | a :: la', [] => Some (ordered id_a a, (la', lb))
      | [], b :: lb' => Some (ordered id_b b, (la, lb'))
      | [], [] => None
      end.
    Variable nghs : nat -> list nat.
    Variable cutoff : nat.
    (* MM.h:36-81 mm_query; [k] = tot - (ct_a + ct_b), utils:83 has_next *)
    Fixpoint mm_query (depth : nat) (u v work : nat) : outcome :=
      match depth with
      | 0 => Deep
      | S depth =>
          if u <? v then
            (fix loop (k : nat) (la lb : list nat) (work last_pri : nat) : outcome :=
               match k with
               | 0 => Ret In_ work
               | S k =>
                   if work =? cutoff then Ret Unknown cutoff
                   else match get_next u v la lb with
                        | None => Exit
                        | Some (e, (la, lb)) =>
                            let ep := get_edge_pri (fst e) (snd e) in
                            if ep <? last_pri then Exit
                            else if get_edge_pri u v <? ep then Ret In_ (work + 1)
                            else if (get_edge_pri u v =? ep) && (pair_eqb e (u, v) || pair_ltb (u, v) e) then Ret In_ (work + 1)
                            else match mm_query depth (fst e) (snd e) (work + 1) with
                                 | Ret In_ w => Ret Out_ w
                                 | Ret Unknown w => Ret Unknown w
                                 | Ret Out_ w => loop k la lb w ep
                                 | o => o
                                 end
                        end
               end) (length (nghs u) + length (nghs v)) (nghs u) (nghs v) work 0
          else Exit
      end.
  End Mm.
  (* 100-118: the pairs for which map_f makes a query *)
  Definition upper_edges (n : nat) (nghs : nat -> list nat) : list (nat * nat) :=
    flat_map (fun u => map (fun v => (u, v)) (filter (fun v => u <? v) (nghs u))) (seq 0 n).
  (* 86-150 MaximalMatching: write_add adds without loss (C12).  The result also lists the pairs in
     the matching, which the program only counts at the vertices; fraction_covered is the number of
     answers over m / 2.  None: a failing assertion, or a query that is too deep for the model. *)
  Definition MaximalMatching (hash : nat * nat -> nat) (n : nat) (outn : nat -> list nat) (edges : list nat) (cutoff depth : nat)
    : option (list (nat * nat) * nat * nat * nat) :=
    let nghs := slice outn edges in
    let q e := mm_query hash nghs cutoff depth (fst e) (snd e) 0 in
    let E := upper_edges n nghs in
    if forallb (fun e => returned (q e)) E then
      let M := filter (fun e => is_in (q e)) E in
      (* 107-110 *)
      let matching_cts i := length (filter (fun e => fst e =? i) M) + length (filter (fun e => snd e =? i) M) in
      (* 128-146 *)
      if negb (cutoff =? smax)
         || forallb (fun i => matching_cts i <=? 1) (seq 0 n)
            && forallb (fun u => forallb (fun v => negb ((matching_cts u =? 0) && (matching_cts v =? 0))) (outn u)) (seq 0 n)
      then Some (M, list_max (map (fun e => work_of (q e)) E),
                 list_sum (map (fun e => work_of (q e)) E) mod (smax + 1),
                 length (filter (fun e => is_answer (q e)) E))
      else None
    else None.
End Yoshida.
