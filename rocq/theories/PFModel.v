(* Model of benchmarks/SpanningForest/LabelPropagation/SpanningForest.h.

   Every read, write and compare-and-swap of Parents, changed and Edges is one step of the
   task that executes it; PrevParents is constant during both traversals of a round and
   Parents during the second.  None = empty_edge; a compare-and-swap of a pair is atomic. *)
From Verif Require Import Base VSModel EMModel LPModel RSModel.

Section PF.
  Variable largest : nat.      (* common.h:12 largest_comp; lp_less (lines 37-44) is that of LPModel *)

  (* -- lines 46-72 LabelProp_F: updateAtomic, with write_min (bridge.h:301-308) inlined ---- *)
  Inductive mpc :=
  | MTest                       (* 59, 62 *)
  | MLoadD | MCasD (c : nat)    (* 60: write_min(&Parents[d], PrevParents[s]) *)
  | MEmit | MEmitCas (c : nat)  (* 61: write_min(&changed[d], emitted) *)
  | MLoadS | MCasS (c : nat)    (* 63: write_min(&Parents[s], PrevParents[d]) *)
  | MCheck                      (* 64 *)
  | MNeed | MNeedCas (c : nat). (* 65: write_min(&changed[s], need_emit) *)
  Record mthread := { mtodo : list attempt; mpcs : mpc }.
  Record mstate := { mpar : nat -> nat; mchg : nat -> nat; mlog : list attempt; mthr : list mthread }.
  Inductive meffect := MGo (pc : mpc) | MNext | MWrite (v x : nat) (pc : mpc) | MMark (v x : nat) (logged : bool).
  Definition maction (prev par chg : nat -> nat) (a : attempt) (pc : mpc) : meffect :=
    let s := src a in let d := dst a in
    match pc with
    | MTest => if lp_less largest (prev s) (prev d) then MGo MLoadD
               else if lp_less largest (prev d) (prev s) then MGo MLoadS else MNext
    | MLoadD => if lp_less largest (prev s) (par d) then MGo (MCasD (par d)) else MGo MEmit
    | MCasD c => if par d =? c then MWrite d (prev s) MEmit else MGo MLoadD
    | MEmit => if chg d <? emitted then MGo (MEmitCas (chg d)) else MNext
    | MEmitCas c => if chg d =? c then MMark d emitted true else MGo MEmit
    | MLoadS => if lp_less largest (prev d) (par s) then MGo (MCasS (par s)) else MNext
    | MCasS c => if par s =? c then MWrite s (prev d) MCheck else MGo MLoadS
    | MCheck => if chg s =? unemitted then MGo MNeed else MNext
    | MNeed => if chg s <? need_emit then MGo (MNeedCas (chg s)) else MNext
    | MNeedCas c => if chg s =? c then MMark s need_emit false else MGo MNeed
    end.
  Definition mstep (prev : nat -> nat) (st : mstate) (t : nat) : mstate :=
    match nth_error (mthr st) t with
    | None => st
    | Some th =>
        match mtodo th with
        | [] => st
        | a :: rest =>
            let goto pc := lset (mthr st) t {| mtodo := a :: rest; mpcs := pc |} in
            let next := lset (mthr st) t {| mtodo := rest; mpcs := MTest |} in
            match maction prev (mpar st) (mchg st) a (mpcs th) with
            | MGo pc => {| mpar := mpar st; mchg := mchg st; mlog := mlog st; mthr := goto pc |}
            | MNext => {| mpar := mpar st; mchg := mchg st; mlog := mlog st; mthr := next |}
            | MWrite v x pc => {| mpar := fset (mpar st) v x; mchg := mchg st; mlog := mlog st; mthr := goto pc |}
            | MMark v x lg => {| mpar := mpar st; mchg := fset (mchg st) v x;
                                 mlog := if lg then a :: mlog st else mlog st; mthr := next |}
            end
        end
    end.
  Definition mexec (prev : nat -> nat) (sched : list nat) (st : mstate) : mstate := fold_left (mstep prev) sched st.
  Definition mfinished (st : mstate) : Prop := Forall (fun th => mtodo th = []) (mthr st).
  Definition mstart (par chg : nat -> nat) (ts : list tthread) : mstate :=
    {| mpar := par; mchg := chg; mlog := []; mthr := map (fun th => {| mtodo := todo th; mpcs := MTest |}) ts |}.

  (* -- lines 74-106 LabelProp_F_2 --------------------------------------------------------- *)
  (* 88-90 and 95-97: the entry of Edges to be replaced *)
  Definition target (prev par : nat -> nat) (a : attempt) : option nat :=
    let s := src a in let d := dst a in
    if lp_less largest (prev s) (prev d) then if par d =? prev s then Some d else None
    else if lp_less largest (prev d) (prev s) then if par s =? prev d then Some s else None
    else None.
  Definition eeqb (e f : option (nat * nat)) : bool :=
    match e, f with
    | None, None => true
    | Some (a, b), Some (c, d) => (a =? c) && (b =? d)
    | _, _ => false
    end.
  Inductive epc := ETest | ELoad (v : nat) | ECas (v : nat) (c : option (nat * nat)).
  Record ethread := { etodo : list attempt; epcs : epc }.
  Record estate := { eedges : nat -> option (nat * nat); ethr : list ethread }.
  Definition estep (prev par : nat -> nat) (st : estate) (t : nat) : estate :=
    match nth_error (ethr st) t with
    | None => st
    | Some th =>
        match etodo th with
        | [] => st
        | a :: rest =>
            let goto pc := {| eedges := eedges st; ethr := lset (ethr st) t {| etodo := a :: rest; epcs := pc |} |} in
            let next Ed := {| eedges := Ed; ethr := lset (ethr st) t {| etodo := rest; epcs := ETest |} |} in
            match epcs th with
            | ETest => match target prev par a with Some v => goto (ELoad v) | None => next (eedges st) end
            | ELoad v => goto (ECas v (eedges st v))
            | ECas v c => next (if eeqb (eedges st v) c then fset (eedges st) v (Some (src a, dst a)) else eedges st)
            end
        end
    end.
  Definition eexec (prev par : nat -> nat) (sched : list nat) (st : estate) : estate := fold_left (estep prev par) sched st.
  Definition efinished (st : estate) : Prop := Forall (fun th => etodo th = []) (ethr st).
  Definition estart (Ed : nat -> option (nat * nat)) (ts : list tthread) : estate :=
    {| eedges := Ed; ethr := map (fun th => {| etodo := todo th; epcs := ETest |}) ts |}.

  (* line 145: edgeMap with LabelProp_F; also the converted frontier *)
  Inductive edgeMap_mark (n : nat) (outn : nat -> list nat) (m : nat) (prev : nat -> nat) (U : vset unit) (par chg : nat -> nat)
    : vset unit -> (nat -> nat) -> (nat -> nat) -> vset unit -> Prop :=
  | mark_nothing : forall U', edgeMap_choice m None outn lp_flags U = Some (Nothing, U') ->
      edgeMap_mark n outn m prev U par chg U' par chg (vs_empty n)
  | mark_forward : forall U' sched, edgeMap_choice m None outn lp_flags U = Some (Forward, U') ->
      let s := mexec prev sched (mstart par chg (forward_threads n outn U')) in mfinished s ->
      edgeMap_mark n outn m prev U par chg U' (mpar s) (mchg s)
        (vs_dense n (map (fun v => (existsb (fun a => dst a =? v) (mlog s), tt)) (seq 0 n)))
  | mark_sparse : forall U' B W M ebs sched out, edgeMap_choice m None outn lp_flags U = Some (Sparse, U') ->
      1 <= B -> B <= W -> W <= M ->
      let s := mexec prev sched (mstart par chg (chunk_threads outn U' B (plain_bdeg B) ebs)) in mfinished s ->
      chunk_output n outn U' B W M (plain_bdeg B) ebs (mlog s) = Some out ->
      edgeMap_mark n outn m prev U par chg U' (mpar s) (mchg s) out.

  (* edge_map_blocked.h:68-86 edgeMapSparseNoOutput, vertex.h:314-330 *)
  Definition each_threads (outn : nat -> list nat) (U : vset unit) : list tthread :=
    flat_map (fun i => let v := fst (nth i (vs U) (0, tt)) in
                       map (fun jd => {| breaks := false;
                                         todo := [{| tag := (i, fst jd); src := v; dst := snd jd; active := true |}];
                                         pcs := Test |})
                           (combine (seq 0 (length (outn v))) (outn v))) (seq 0 (vm U)).
  (* line 148: edgeMap with LabelProp_F_2 and no_output *)
  Inductive edgeMap_record (n : nat) (outn : nat -> list nat) (m : nat) (prev par : nat -> nat) (U : vset unit)
      (Ed : nat -> option (nat * nat)) : vset unit -> (nat -> option (nat * nat)) -> Prop :=
  | record_nothing : forall U', edgeMap_choice m None outn lp_flags U = Some (Nothing, U') ->
      edgeMap_record n outn m prev par U Ed U' Ed
  | record_forward : forall U' sched, edgeMap_choice m None outn lp_flags U = Some (Forward, U') ->
      let s := eexec prev par sched (estart Ed (forward_threads n outn U')) in efinished s ->
      edgeMap_record n outn m prev par U Ed U' (eedges s)
  | record_sparse : forall U' sched, edgeMap_choice m None outn lp_flags U = Some (Sparse, U') ->
      let s := eexec prev par sched (estart Ed (each_threads outn U')) in efinished s ->
      edgeMap_record n outn m prev par U Ed U' (eedges s).

  (* lines 162-165: the vertexMap; unmark of LPModel is its second assignment *)
  Definition copied (U : vset unit) (par prev : nat -> nat) : nat -> nat :=
    fold_left (fun prev v => fset prev v (par v)) (map fst (vertexMap_calls tt U)) prev.

  (* lines 121-132: the first frontier; freq = None: no sampling *)
  Definition first_frontier (n : nat) (freq : option nat) (par0 : nat -> nat) : vset unit :=
    vs_dense n (map (fun v => (match freq with None => true | Some f => negb (par0 v =? f) end, tt)) (seq 0 n)).
  (* lines 115-171 compute_spanning_forest, k rounds done *)
  Inductive pf_loop (n : nat) (outn : nat -> list nat) (m : nat) (freq : option nat) (par0 : nat -> nat) (Ed0 : nat -> option (nat * nat))
    : nat -> (nat -> nat) -> (nat -> nat) -> (nat -> nat) -> (nat -> option (nat * nat)) -> vset unit -> Prop :=
  | pf_start : pf_loop n outn m freq par0 Ed0 0 par0 par0 (fun _ => unemitted) Ed0 (first_frontier n freq par0)
  | pf_round : forall k prev par chg Ed U U1 par' chg' next U2 Ed' V,
      pf_loop n outn m freq par0 Ed0 k prev par chg Ed U -> size U <> 0 ->
      edgeMap_mark n outn m prev U par chg U1 par' chg' next ->
      edgeMap_record n outn m prev par' U1 Ed U2 Ed' -> toSparse U2 = Some V ->
      let next' := add_to_vsubset next (new_vtxs V chg') in
      pf_loop n outn m freq par0 Ed0 (S k) (copied next' par' prev) par' (unmark next' chg') Ed' next'.
  Definition pf_returns (n : nat) (outn : nat -> list nat) (m : nat) (freq : option nat) (par0 : nat -> nat) (Ed0 : nat -> option (nat * nat))
      (par : nat -> nat) (Ed : nat -> option (nat * nat)) : Prop :=
    exists k prev chg U, pf_loop n outn m freq par0 Ed0 k prev par chg Ed U /\ size U = 0.
End PF.
(* lines 174-191 SpanningForest: Ed0 is empty, par0 the identity or a permutation; the result is
   [recorded n Ed] of RSModel *)
