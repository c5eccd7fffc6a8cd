(* Model of benchmarks/SpanningForest/ShiloachVishkin/SpanningForest.h and of
   benchmarks/SpanningForest/LiuTarjan/{liu_tarjan_rules.h, SpanningForest.h}.

   Every loop of a round touches a cell from one task only or through atomic operations (each one
   step, in any order), except the pointer-jumping loops, which are the interleaving model of
   SVModel (the code of the loops is the same as in the connectivity algorithms). *)
From Verif Require Import Base SVModel LTModel.

(* ---- ShiloachVishkin/SpanningForest.h -------------------------------------------------------- *)
(* lines 95-110 map_f_2: the edges es in the order in which their CAS takes place.  The values
   read before the CAS do not change during the loop.  None = empty_edge *)
Definition sv_record (prev par : nat -> nat) (Ed : nat -> option (nat * nat)) (e : nat * nat) : nat -> option (nat * nat) :=
  let p_u := prev (fst e) in let p_v := prev (snd e) in
  let l := Nat.min p_u p_v in let h := Nat.max p_u p_v in
  if negb (l =? h) && (h =? prev h) && (par h =? l) then
    match Ed h with None => fset Ed h (Some e) | Some _ => Ed end
  else Ed.
(* one iteration of the while loop, lines 74-121: write_min over the edges (hook_call is the call of
   lines 79-90), CAS over the edges, compress all vertices (the loop 113-120 is the loop of
   SVModel's jact A1-A7) *)
Inductive svf_round (n : nat) (E : list (nat * nat)) (par prev : nat -> nat) (Ed : nat -> option (nat * nat))
  : (nat -> nat) -> (nat -> nat) -> (nat -> option (nat * nat)) -> bool -> Prop :=
| svf_round_intro : forall calls es sched,
    Permutation calls (flat_map (hook_call prev) E) ->
    Permutation es E ->
    let par1 := min_writes calls par in
    let s := jexec 0 sched (jstart A1 par1 (seq 0 n)) in
    jfinished s ->
    svf_round n E par prev Ed (jpar s) (store_prev s prev) (fold_left (sv_record prev par1) es Ed)
      (match calls with [] => false | _ => true end).
(* compute_spanning_forest (lines 40-123) from Parents = par0, Edges = Ed0: k iterations done; the
   flag is [changed].  freq: frequent_comp with sampling (lines 49-68: the candidates are chosen
   once) *)
Inductive svf_loop (n : nat) (outn : nat -> list nat) (freq : option nat) (par0 : nat -> nat) (Ed0 : nat -> option (nat * nat))
  : nat -> (nat -> nat) -> (nat -> nat) -> (nat -> option (nat * nat)) -> bool -> Prop :=
| svf_start : svf_loop n outn freq par0 Ed0 0 par0 par0 Ed0 true
| svf_next : forall k par prev Ed par' prev' Ed' ch, svf_loop n outn freq par0 Ed0 k par prev Ed true ->
    svf_round n (sv_edges n outn par0 freq) par prev Ed par' prev' Ed' ch ->
    svf_loop n outn freq par0 Ed0 (S k) par' prev' Ed' ch.

(* ---- LiuTarjan ------------------------------------------------------------------------------- *)
Inductive sf_connect := SFParent | SFExtended.
(* liu_tarjan_rules.h:44-52 message: component and original_edge (None = empty_edge) *)
Definition message := (nat * option (nat * nat))%type.
Section LT.
  Variable largest : nat.    (* SpanningForest/common.h:12 largest_comp = UINT_E_MAX *)
  (* the write_min calls on messages (cell, message) of one edge; lt_less, lt_greater, lt_min and
     lt_max (liu_tarjan_rules.h:8-42) are those of the connectivity version *)
  Definition sf_calls (c : sf_connect) (P : nat -> nat) (e : nat * nat) : list (nat * message) :=
    let p_u := P (fst e) in let p_v := P (snd e) in
    match c with
    | SFParent =>           (* 63-74 parent_connect *)
        let min_v := lt_min largest p_u p_v in let max_v := lt_max largest p_u p_v in
        if min_v =? max_v then [] else [(max_v, (min_v, Some e))]
    | SFExtended =>         (* 79-96 extended_connect *)
        if lt_less largest p_v p_u then [(fst e, (p_v, Some e)); (p_u, (p_v, Some e))]
        else if lt_greater largest p_v p_u then [(p_v, (p_u, Some e)); (snd e, (p_u, Some e))] else []
    end.
  (* write_min(&messages[h], m, message_less) (54-56); the flag: some call updated its cell *)
  Definition sf_write (s : (nat -> message) * bool) (c : nat * message) : (nat -> message) * bool :=
    if lt_less largest (fst (snd c)) (fst (fst s (fst c))) then (fset (fst s) (fst c) (snd c), true) else s.
  (* 98-112 root_update for all vertices: P[u] and Edges[u] *)
  Definition sf_update (n : nat) (P : nat -> nat) (msgs : nat -> message) (u : nat) : nat :=
    if (u <? n) && (u =? P u) then lt_min largest (P u) (fst (msgs u)) else P u.
  Definition sf_update_edge (n : nat) (P : nat -> nat) (msgs : nat -> message) (Ed : nat -> option (nat * nat)) (u : nat) : option (nat * nat) :=
    if (u <? n) && (u =? P u) && negb (P u =? sf_update n P msgs u) then snd (msgs u) else Ed u.
  (* SpanningForest.h:112-141: connect over the edges E, update, shortcut (114-119; full: root_shortcut
     121-127; the loops of SVModel's jact B1-B4) *)
  Inductive ltf_round (n : nat) (c : sf_connect) (full : bool) (E : list (nat * nat)) (P : nat -> nat) (msgs : nat -> message) (Ed : nat -> option (nat * nat))
    : (nat -> nat) -> (nat -> message) -> (nat -> option (nat * nat)) -> bool -> Prop :=
  | ltf_round_intro : forall calls sched msgs' ch,
      Permutation calls (flat_map (sf_calls c P) E) ->
      fold_left sf_write calls (msgs, false) = (msgs', ch) ->
      let s := jexec largest sched (jstart (B1 full) (sf_update n P msgs') (seq 0 n)) in
      jfinished s ->
      ltf_round n c full E P msgs Ed (jpar s) msgs' (sf_update_edge n P msgs' Ed) ch.
  (* initialize (100-103) and compute_spanning_forest (105-142), k rounds done; the flag is
     parents_changed.  freq: with sampling the vertices whose parent is now freq are skipped *)
  Inductive ltf_loop (n : nat) (outn : nat -> list nat) (c : sf_connect) (full : bool) (freq : option nat) (P0 : nat -> nat) (Ed0 : nat -> option (nat * nat))
    : nat -> (nat -> nat) -> (nat -> message) -> (nat -> option (nat * nat)) -> bool -> Prop :=
  | ltf_start : ltf_loop n outn c full freq P0 Ed0 0 P0 (fun i => (i, None)) Ed0 true
  | ltf_next : forall k P msgs Ed P' msgs' Ed' ch, ltf_loop n outn c full freq P0 Ed0 k P msgs Ed true ->
      ltf_round n c full (sv_edges n outn P freq) P msgs Ed P' msgs' Ed' ch ->
      ltf_loop n outn c full freq P0 Ed0 (S k) P' msgs' Ed' ch.
End LT.

(* the entries of Edges other than empty_edge: the filter at the end *)
Definition recorded (n : nat) (Ed : nat -> option (nat * nat)) : list (nat * nat) :=
  flat_map (fun i => match Ed i with Some e => [e] | None => [] end) (seq 0 n).
