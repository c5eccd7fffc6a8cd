(* Model of edgeMap with the counting-down edge functions of
   benchmarks/GraphColoring/Hasenplaugh14/GraphColoring.h (coloring_f, 65-88) and
   benchmarks/MaximalIndependentSet/RandomGreedy/MaximalIndependentSet.h (mis_f, 92-111).

   ok s d: the guard of mis_f, perm[s] < perm[d]; always true for coloring_f.  (coloring_f exits
   when s = d; a vertex of the frontier has counter 0, so cond rejects that edge before.)
   Counters are intE without overflow. *)
From Coq Require Import ZArith.
From Verif Require Import Base VSModel EMModel.
Local Open Scope Z_scope.

Section CD.
  Variable ok : nat -> nat -> bool.

  (* the sparse traversal: cond(d), then updateAtomic.  The tasks are those of EMModel *)
  Inductive cpc := CTest | CSub.
  Record cthread := { ctodo : list attempt; cpcs : cpc }.
  Record cstate := { cp : nat -> Z; clog : list attempt; cthr : list cthread }.
  Definition cstep (s : cstate) (t : nat) : cstate :=
    match nth_error (cthr s) t with
    | None => s
    | Some th =>
        match ctodo th with
        | [] => s
        | a :: rest =>
            let next := lset (cthr s) t {| ctodo := rest; cpcs := CTest |} in
            match cpcs th with
            | CTest => {| cp := cp s; clog := clog s;
                          cthr := if 0 <? cp s (dst a)
                                  then (if ok (src a) (dst a) then lset (cthr s) t {| ctodo := a :: rest; cpcs := CSub |} else next)
                                  else next |}
            | CSub => let old := cp s (dst a) in      (* fetch_and_add(&p[d], -1) == 1 *)
                      {| cp := fset (cp s) (dst a) (old - 1); clog := if old =? 1 then a :: clog s else clog s; cthr := next |}
            end
        end
    end.
  Definition cexec (sched : list nat) (s : cstate) : cstate := fold_left cstep sched s.
  Definition cfinished (s : cstate) : Prop := Forall (fun th => ctodo th = []) (cthr s).
  Definition cstart (p : nat -> Z) (ts : list tthread) : cstate :=
    {| cp := p; clog := []; cthr := map (fun th => {| ctodo := todo th; cpcs := CTest |}) ts |}.

  (* the pulling traversal: vertex.h:262-272 decodeBreakEarly, the loop over the in-neighbours of d (the
     flag dense_parallel is not set); p = p[d], m = the output bit, set when update returns true *)
  Fixpoint pull_count (isin : nat -> bool) (d : nat) (ins : list nat) (p : Z) (m : bool) : Z * bool :=
    match ins with
    | [] => (p, m)
    | s :: rest =>
        let '(p', m') := if isin s && ok s d then (p - 1, m || (p - 1 =? 0)) else (p, m) in
        if 0 <? p' then pull_count isin d rest p' m' else (p', m')
    end.
  (* edge_map_data.h:40-72 edgeMapDense: if (f.cond(d)) *)
  Definition pull_one (inn : nat -> list nat) (U : vset unit) (p : nat -> Z) (d : nat) : Z * bool :=
    if 0 <? p d then pull_count (isIn tt U) d (inn d) (p d) false else (p d, false).

  (* sparse_blocked, default threshold *)
  Definition cd_flags : eflags := {| f_dense_only := false; f_no_dense := false; f_dense_forward := false; f_dense_parallel := false |}.
  Inductive edgeMap_count (n : nat) (outn inn : nat -> list nat) (m : nat) (U : vset unit) (p : nat -> Z) : (nat -> Z) -> vset unit -> Prop :=
  | count_nothing : forall U', edgeMap_choice m None outn cd_flags U = Some (Nothing, U') ->
      edgeMap_count n outn inn m U p p (vs_empty n)
  | count_pull : forall U', edgeMap_choice m None outn cd_flags U = Some (Pull, U') ->
      edgeMap_count n outn inn m U p (fun d => if (d <? n)%nat then fst (pull_one inn U' p d) else p d)
        (vs_dense n (map (fun d => (snd (pull_one inn U' p d), tt)) (seq 0 n)))
  | count_sparse : forall U' B W M ebs sched out, edgeMap_choice m None outn cd_flags U = Some (Sparse, U') ->
      (1 <= B)%nat -> (B <= W)%nat -> (W <= M)%nat ->
      let s := cexec sched (cstart p (chunk_threads outn U' B (plain_bdeg B) ebs)) in cfinished s ->
      chunk_output n outn U' B W M (plain_bdeg B) ebs (clog s) = Some out ->
      edgeMap_count n outn inn m U p (cp s) out.
End CD.
