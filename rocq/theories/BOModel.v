(* Model of benchmarks/MinimumSpanningForest/Boruvka/MinimumSpanningForest.h, weights being integers.
   An edge of a batch is known by its position in the batch, as in the code; edge ids are unbounded
   here (the code needs fewer than 2^31 of them, as the top bit marks self-edges), UINT_E_MAX as an
   edge id is None.  Arrays of n vertices are functions; the sampling of get_top_k is
   over-approximated (see top_k). *)
From Coq Require Import ZArith Permutation.
From Verif Require Import Base GBModel SFModel SFSpec FRSpec.
Local Open Scope nat_scope.

Definition memb (v : nat) (l : list nat) : bool := existsb (Nat.eqb v) l.

Section Boruvka.
  Variable top : Z.      (* 77: std::numeric_limits<int32_t>::max(), whatever the weight type is *)

  Definition pair_w := (option nat * Z)%type.
  (* 51-54 less *)
  Definition id_lt (a b : option nat) : bool :=
    match a, b with
    | Some i, Some j => i <? j
    | Some _, None => true
    | None, _ => false
    end.
  Definition less (a b : pair_w) : bool := ((snd a <? snd b)%Z || ((snd a =? snd b)%Z && id_lt (fst a) (fst b)))%bool.
  (* one write_min (its CAS loop is C11) *)
  Definition wmin (me : nat -> pair_w) (v : nat) (x : pair_w) : nat -> pair_w :=
    if less x (me v) then fset me v x else me.
  (* 73-78 *)
  Definition init (vs : list nat) (me : nat -> pair_w) : nat -> pair_w := fun v => if memb v vs then (None, top) else me v.
  (* 85-91: two write_min per edge; the parallel loop performs them in any order *)
  Definition writes (cur : nat -> edge Z) (ids : list nat) : list (nat * nat) :=
    flat_map (fun i => [(src (cur i), i); (dst (cur i), i)]) ids.
  Definition do_writes (cur : nat -> edge Z) (ws : list (nat * nat)) (me : nat -> pair_w) : nat -> pair_w :=
    fold_left (fun me p => wmin me (fst p) (Some (snd p), wgh (cur (snd p)))) ws me.

  (* 98-123: what happens to the active vertex v *)
  Inductive kind := KExhausted | KRoot | KHook (u i : nat).
  Definition mark (cur : nat -> edge Z) (me : nat -> pair_w) (v : nat) : kind :=
    match fst (me v) with
    | None => KExhausted
    | Some i =>
        let u := Nat.lxor (Nat.lxor (src (cur i)) (dst (cur i))) v in
        if ((v <? u) && match fst (me u) with Some j => i =? j | None => false end)%bool then KRoot else KHook u i
    end.
  Definition hooked (cur : nat -> edge Z) (me : nat -> pair_w) (vs : list nat) (P : nat -> nat) : nat -> nat :=
    fun v => if memb v vs then match mark cur me v with KExhausted => P v | KRoot => v | KHook u _ => u end else P v.
  Definition exhaust (cur : nat -> edge Z) (me : nat -> pair_w) (vs : list nat) (ex : nat -> bool) : nat -> bool :=
    fun v => if memb v vs then match mark cur me v with KExhausted => true | _ => ex v end else ex v.
  (* 130-131: the edge ids that are not UINT_E_MAX, packed *)
  Definition new_edges (cur : nat -> edge Z) (me : nat -> pair_w) (vs : list nat) : list nat :=
    flat_map (fun v => match mark cur me v with KHook _ i => [i] | _ => [] end) vs.
  Definition is_root (cur : nat -> edge Z) (me : nat -> pair_w) (v : nat) : bool :=
    match mark cur me v with KRoot => true | _ => false end.

  (* 140-147 and 424-430: the pointer jumping of vertex v.  parents[v] is written by this task only,
     so its reads are merged with the next access: test compares parents[v] with
     parents[parents[v]], move reads parents[parents[v]], write stores what move read. *)
  Inductive jpc := JTest | JMove | JWrite (b : nat) | JDone.
  Inductive jstep (v : nat) : jpc * (nat -> nat) -> jpc * (nat -> nat) -> Prop :=
  | j_stop : forall P, P v = P (P v) -> jstep v (JTest, P) (JDone, P)
  | j_go : forall P, P v <> P (P v) -> jstep v (JTest, P) (JMove, P)
  | j_move : forall P, jstep v (JMove, P) (JWrite (P (P v)), P)
  | j_write : forall P b, jstep v (JWrite b, P) (JTest, fset P v b).
  (* the tasks of vs, interleaved in any way *)
  Inductive jrun (vs : list nat) : (nat -> jpc) * (nat -> nat) -> (nat -> jpc) * (nat -> nat) -> Prop :=
  | jr_nil : forall s, jrun vs s s
  | jr_step : forall ps P v pc P' s, In v vs -> jstep v (ps v, P) (pc, P') -> jrun vs (fset ps v pc, P') s -> jrun vs (ps, P) s.
  Definition jump (vs : list nat) (P P' : nat -> nat) : Prop :=
    exists ps', jrun vs (fun _ => JTest, P) (ps', P') /\ forall v, In v vs -> ps' v = JDone.

  (* the arrays of Boruvka; vs = vtxs[0..n), ids = edge_ids[0..m) (self-edges packed out), cur = edges, out = mst[0..n_in_mst) *)
  Record bstate := { b_vs : list nat; b_me : nat -> pair_w; b_P : nat -> nat; b_ex : nat -> bool;
                     b_cur : nat -> edge Z; b_ids : list nat; b_out : list nat }.
  (* 163-180 *)
  Definition relabel (P : nat -> nat) (ids : list nat) (cur : nat -> edge Z) : nat -> edge Z :=
    fun i => if memb i ids then (P (src (cur i)), P (dst (cur i)), wgh (cur i)) else cur i.
  (* 184-189: pack_out of the whole array, although the sequence of flags is given the length n *)
  Definition crossing (cur : nat -> edge Z) (i : nat) : bool := negb (src (cur i) =? dst (cur i)).
  (* 67-194: one iteration of the while loop *)
  Inductive bround : bstate -> bstate -> Prop :=
  | b_round : forall s ws P', Permutation ws (writes (b_cur s) (b_ids s)) ->
      let me := do_writes (b_cur s) ws (init (b_vs s) (b_me s)) in
      jump (b_vs s) (hooked (b_cur s) me (b_vs s) (b_P s)) P' ->
      let cur' := relabel P' (b_ids s) (b_cur s) in
      bround s {| b_vs := filter (is_root (b_cur s) me) (b_vs s); b_me := me; b_P := P';
                  b_ex := exhaust (b_cur s) me (b_vs s) (b_ex s); b_cur := cur';
                  b_ids := filter (crossing cur') (b_ids s); b_out := b_out s ++ new_edges (b_cur s) me (b_vs s) |}.
  Definition bgoes (s : bstate) : bool := ((1 <? length (b_vs s)) && (0 <? length (b_ids s)))%bool.
  Inductive bloop : bstate -> bstate -> Prop :=
  | bl_done : forall s, bgoes s = false -> bloop s s
  | bl_step : forall s s1 s', bgoes s = true -> bround s s1 -> bloop s1 s' -> bloop s s'.

  (* filter_edges and filter_all_edges (models of C33) under some schedule; thr, fb: the constants of
     the block decomposition *)
  Variable thr fb : nat.
  Definition filters (pred : nat -> nat * Z -> nat) (G : csr Z) (es : list (edge Z)) (G' : csr Z) : Prop :=
    exists vorder ord sh vshuffle junk, Permutation vorder (seq 0 (gn G)) /\
      (forall v, v < gn G -> good_order fb G v (ord v)) /\ (forall v, reorders (sh v)) /\ reorders vshuffle /\
      filter_edges thr fb pred vorder ord sh vshuffle junk G = Some (es, G').
  (* 213-219 get_all_edges *)
  Definition get_all_edges (G : csr Z) (es : list (edge Z)) (G' : csr Z) : Prop :=
    exists vshuffle junk, reorders vshuffle /\ filter_all_edges (fun _ _ => true) vshuffle junk G = Some (es, G').
  (* 291-298 and 309-319.  The second predicate takes an edge of the split weight when its hash is
     small (hb), the first takes all of them: hb true everywhere *)
  Definition top_pred (split : Z) (hb : nat -> nat -> bool) (u : nat) (x : nat * Z) : nat :=
    if fst x <? u then 1
    else if (snd x <? split)%Z then 2
    else if (snd x =? split)%Z then (if hb u (fst x) then 2 else 0)
    else 0.
  (* 221-322 get_top_k.  The split weight is the weight of one of the sampled edges: here of any
     edge of the graph; the hash function is arbitrary *)
  Definition get_top_k (G : csr Z) (k : nat) (es : list (edge Z)) (G' : csr Z) : Prop :=
    if k =? gm G then get_all_edges G es G'
    else exists e hb, In e (graph_edges G) /\ filters (top_pred (wgh e) hb) G es G'.

  (* 366-370 *)
  Definition split_idx (largemem : bool) (round n m : nat) : nat :=
    if largemem then (if round =? 0 then Nat.min (9 * n / 8) m else Nat.min (n / 2) m) else Nat.min (3 * n / 2) m.
  Definition n_filter_steps := 5.
  (* 374-375 *)
  Definition get_batch (largemem : bool) (round : nat) (G : csr Z) : list (edge Z) -> csr Z -> Prop :=
    if round <? n_filter_steps then get_top_k G (split_idx largemem round (gn G) (gm G)) else get_all_edges G.

  Definition no_edge : edge Z := (0, 0, 0%Z).
  (* 383-393 *)
  Definition batch_labels (round : nat) (P : nat -> nat) (es : list (edge Z)) : nat -> edge Z :=
    fun i => let e := nth i es no_edge in if 0 <? round then (P (src e), P (dst e), wgh e) else e.
  (* the variables of the outer loop: exhausted is all false between iterations *)
  Record mstate := { m_G : csr Z; m_vs : list nat; m_me : nat -> pair_w; m_P : nat -> nat; m_T : list (edge Z) }.
  (* 357-451 *)
  Inductive mround (largemem : bool) (round : nat) : mstate -> mstate -> Prop :=
  | m_round : forall s es G1 b P' es2 G2, get_batch largemem round (m_G s) es G1 ->
      bloop {| b_vs := m_vs s; b_me := m_me s; b_P := m_P s; b_ex := fun _ => false;
               b_cur := batch_labels round (m_P s) es; b_ids := seq 0 (length es); b_out := [] |} b ->
      jump (seq 0 (gn (m_G s))) (b_P b) P' ->
      filters (fun u x => if P' u =? P' (fst x) then 1 else 0) G1 es2 G2 ->
      mround largemem round s
        {| m_G := G2; m_vs := b_vs b ++ filter (b_ex b) (seq 0 (gn (m_G s))); m_me := b_me b; m_P := P';
           m_T := m_T s ++ map (fun i => nth i es no_edge) (b_out b) |}.
  Inductive mloop (largemem : bool) : nat -> mstate -> mstate -> Prop :=
  | ml_done : forall round s, gm (m_G s) = 0 -> mloop largemem round s s
  | ml_step : forall round s s1 s', 0 < gm (m_G s) -> mround largemem round s s1 -> mloop largemem (S round) s1 s' ->
      mloop largemem round s s'.
  (* 327-461; the initial values of min_edges are arbitrary *)
  Definition boruvka_returns (largemem : bool) (G : csr Z) (T : list (edge Z)) : Prop :=
    exists me0 s, mloop largemem 0 {| m_G := G; m_vs := seq 0 (gn G); m_me := me0; m_P := fun v => v; m_T := [] |} s /\ T = m_T s.
End Boruvka.
