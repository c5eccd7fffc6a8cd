(* Model of benchmarks/Connectivity/LabelPropagation/Connectivity.h.

   Every read, write and compare-and-swap of Parents and changed is one step of the task that
   executes it.  [flip]: the order in which the compiler evaluates the two arguments of
   lp_less (unspecified in C++; the same at every call here). *)
From Verif Require Import Base VSModel EMModel.

(* lines 32-34 *)
Definition unemitted := 0.
Definition need_emit := 1.
Definition emitted := 2.

Section LP.
  Variable flip : bool.
  Variable largest : nat.      (* common.h:13 largest_comp *)
  (* lines 36-43 *)
  Definition lp_less (u v : nat) : bool :=
    if u =? largest then negb (v =? largest) else if v =? largest then false else u <? v.

  (* lines 55-69 updateAtomic, with write_min (bridge.h:301-308) inlined *)
  Inductive lpc :=
  | First                           (* 56: first argument of lp_less(Parents[s], Parents[d]) *)
  | Second (x : nat)                (*     second argument *)
  | ReadS                           (* 57: Parents[s], the value to write to Parents[d] *)
  | LoadD (b : nat) | CasD (b c : nat)
  | Emit | EmitCas (c : nat)        (* 58 *)
  | First2 | Second2 (x : nat)      (* 59: lp_less(Parents[d], Parents[s]) *)
  | ReadD                           (* 60: Parents[d] *)
  | LoadS (b : nat) | CasS (b c : nat)
  | Check                           (* 61 *)
  | Need | NeedCas (c : nat).       (* 62 *)
  Record lthread := { ltodo : list attempt; lpcs : lpc }.
  Record lstate := { lpar : nat -> nat; lchg : nat -> nat; llog : list attempt; lthr : list lthread }.

  Inductive leffect := LGo (pc : lpc) | LNext | LWrite (v x : nat) (pc : lpc) | LMark (v x : nat) (logged : bool).
  Definition laction (par chg : nat -> nat) (a : attempt) (pc : lpc) : leffect :=
    let s := src a in let d := dst a in
    match pc with
    | First => LGo (Second (par (if flip then d else s)))
    | Second x => let ps := if flip then par s else x in
                  let pd := if flip then x else par d in
                  if lp_less ps pd then LGo ReadS else LGo First2
    | ReadS => LGo (LoadD (par s))
    | LoadD b => if lp_less b (par d) then LGo (CasD b (par d)) else LGo Emit
    | CasD b c => if par d =? c then LWrite d b Emit else LGo (LoadD b)
    | Emit => if chg d <? emitted then LGo (EmitCas (chg d)) else LNext
    | EmitCas c => if chg d =? c then LMark d emitted true else LGo Emit
    | First2 => LGo (Second2 (par (if flip then s else d)))
    | Second2 x => let ps := if flip then x else par s in
                   let pd := if flip then par d else x in
                   if lp_less pd ps then LGo ReadD else LNext
    | ReadD => LGo (LoadS (par d))
    | LoadS b => if lp_less b (par s) then LGo (CasS b (par s)) else LNext
    | CasS b c => if par s =? c then LWrite s b Check else LGo (LoadS b)
    | Check => if chg s =? unemitted then LGo Need else LNext
    | Need => if chg s <? need_emit then LGo (NeedCas (chg s)) else LNext
    | NeedCas c => if chg s =? c then LMark s need_emit false else LGo Need
    end.
  Definition lstep (st : lstate) (t : nat) : lstate :=
    match nth_error (lthr st) t with
    | None => st
    | Some th =>
        match ltodo th with
        | [] => st
        | a :: rest =>
            let goto pc := lset (lthr st) t {| ltodo := a :: rest; lpcs := pc |} in
            let next := lset (lthr st) t {| ltodo := rest; lpcs := First |} in
            match laction (lpar st) (lchg st) a (lpcs th) with
            | LGo pc => {| lpar := lpar st; lchg := lchg st; llog := llog st; lthr := goto pc |}
            | LNext => {| lpar := lpar st; lchg := lchg st; llog := llog st; lthr := next |}
            | LWrite v x pc => {| lpar := fset (lpar st) v x; lchg := lchg st; llog := llog st; lthr := goto pc |}
            | LMark v x lg => {| lpar := lpar st; lchg := fset (lchg st) v x;
                                 llog := if lg then a :: llog st else llog st; lthr := next |}
            end
        end
    end.
  Definition lexec (sched : list nat) (st : lstate) : lstate := fold_left lstep sched st.
  Definition lfinished (st : lstate) : Prop := Forall (fun th => ltodo th = []) (lthr st).
  Definition lstart (par chg : nat -> nat) (ts : list tthread) : lstate :=
    {| lpar := par; lchg := chg; llog := []; lthr := map (fun th => {| ltodo := todo th; lpcs := First |}) ts |}.

  (* dense_forward, default threshold *)
  Definition lp_flags : eflags := {| f_dense_only := false; f_no_dense := false; f_dense_forward := true; f_dense_parallel := false |}.
  (* line 107: edgeMap; also the converted frontier *)
  Inductive edgeMap_label (n : nat) (outn : nat -> list nat) (m : nat) (U : vset unit) (par chg : nat -> nat)
    : vset unit -> (nat -> nat) -> (nat -> nat) -> vset unit -> Prop :=
  | label_nothing : forall U', edgeMap_choice m None outn lp_flags U = Some (Nothing, U') ->
      edgeMap_label n outn m U par chg U' par chg (vs_empty n)
  | label_forward : forall U' sched, edgeMap_choice m None outn lp_flags U = Some (Forward, U') ->
      let s := lexec sched (lstart par chg (forward_threads n outn U')) in lfinished s ->
      edgeMap_label n outn m U par chg U' (lpar s) (lchg s)
        (vs_dense n (map (fun v => (existsb (fun a => dst a =? v) (llog s), tt)) (seq 0 n)))
  | label_sparse : forall U' B W M ebs sched out, edgeMap_choice m None outn lp_flags U = Some (Sparse, U') ->
      1 <= B -> B <= W -> W <= M ->
      let s := lexec sched (lstart par chg (chunk_threads outn U' B (plain_bdeg B) ebs)) in lfinished s ->
      chunk_output n outn U' B W M (plain_bdeg B) ebs (llog s) = Some out ->
      edgeMap_label n outn m U par chg U' (lpar s) (lchg s) out.

  (* lines 109-121: the rest of a round *)
  Definition new_vtxs (V : vset unit) (chg : nat -> nat) : list nat :=
    filter (fun v => chg v =? need_emit) (map (fun i => fst (nth i (vs V) (0, tt))) (seq 0 (vm V))).
  Definition unmark (U : vset unit) (chg : nat -> nat) : nat -> nat :=
    fold_left (fun chg v => fset chg v unemitted) (map fst (vertexMap_calls tt U)) chg.

  (* lines 80-126 compute_components<no_sampling>, k rounds done *)
  Inductive lp_loop (n : nat) (outn : nat -> list nat) (m : nat) (par0 : nat -> nat)
    : nat -> (nat -> nat) -> (nat -> nat) -> vset unit -> Prop :=
  | lp_start : lp_loop n outn m par0 0 par0 (fun _ => unemitted) (vs_dense n (repeat (true, tt) n))
  | lp_round : forall k par chg U U' par' chg' next V, lp_loop n outn m par0 k par chg U -> size U <> 0 ->
      edgeMap_label n outn m U par chg U' par' chg' next -> toSparse U' = Some V ->
      let next' := add_to_vsubset next (new_vtxs V chg') in
      lp_loop n outn m par0 (S k) par' (unmark next' chg') next'.
  (* lines 129-145 CC: par0 is the identity or a permutation *)
  Definition lp_returns (n : nat) (outn : nat -> list nat) (m : nat) (par0 par : nat -> nat) : Prop :=
    exists k chg U, lp_loop n outn m par0 k par chg U /\ size U = 0.
End LP.
