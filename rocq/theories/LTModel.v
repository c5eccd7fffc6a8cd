(* Model of benchmarks/Connectivity/LiuTarjan/{liu_tarjan_rules.h, Connectivity.h} and of the
   relabelling in benchmarks/Connectivity/ConnectIt/sampling.h.

   The connect phase only reads P and the edges and calls write_min on messages: each call is
   one atomic step (C11), in any order.  The update and alter phases touch one cell per task.
   The shortcut phase is the interleaving model of SVModel. *)
From Verif Require Import Base EMModel SVModel.

Section LT.
  Variable largest : nat.    (* Connectivity/common.h:13 largest_comp = UINT_E_MAX *)
  (* liu_tarjan_rules.h:8-15 *)
  Definition lt_less (u v : nat) : bool :=
    if u =? largest then negb (v =? largest) else if v =? largest then false else u <? v.
  (* 17-24 *)
  Definition lt_greater (u v : nat) : bool :=
    if u =? largest then v =? largest else if v =? largest then true else v <? u.
  (* 26-33 *)
  Definition lt_min (u v : nat) : nat := if u =? largest then u else if v =? largest then v else Nat.min u v.
  (* 35-42 *)
  Definition lt_max (u v : nat) : nat := if u =? largest then v else if v =? largest then u else Nat.max u v.

  Inductive connect_option := SimpleConnect | ParentConnect | ExtendedConnect.
  Inductive update_option := SimpleUpdate | RootUpdate.

  (* the write_min calls (cell of messages, value) made for one edge *)
  Definition connect_calls (c : connect_option) (P : nat -> nat) (e : nat * nat) : list (nat * nat) :=
    let u := fst e in let v := snd e in
    let p_u := if u =? largest then u else P u in
    let p_v := if v =? largest then v else P v in
    match c with
    | SimpleConnect =>      (* 47-55 *)
        if lt_min u v =? lt_max u v then [] else [(lt_max u v, lt_min u v)]
    | ParentConnect =>      (* 60-70 *)
        if lt_min p_u p_v =? lt_max p_u p_v then [] else [(lt_max p_u p_v, lt_min p_u p_v)]
    | ExtendedConnect =>    (* 75-89 *)
        if p_u =? p_v then []
        else if lt_less p_v p_u then [(u, p_v); (p_u, p_v)]
        else if lt_greater p_v p_u then [(p_v, p_u); (v, p_u)] else []
    end.
  (* write_min(&messages[h], l, lt_less); the flag: some call updated its cell *)
  Definition msg_write (s : (nat -> nat) * bool) (c : nat * nat) : (nat -> nat) * bool :=
    if lt_less (snd c) (fst s (fst c)) then (fset (fst s) (fst c) (snd c), true) else s.
  Definition msg_writes (calls : list (nat * nat)) (msgs : nat -> nat) : (nat -> nat) * bool :=
    fold_left msg_write calls (msgs, false).

  (* 91-96 simple_update, 98-107 root_update, for all vertices *)
  Definition lt_update (n : nat) (o : update_option) (P msgs : nat -> nat) (u : nat) : nat :=
    if u <? n then
      match o with
      | SimpleUpdate => lt_min (P u) (msgs u)
      | RootUpdate => if u =? P u then lt_min (P u) (msgs u) else P u
      end
    else P u.

  (* connect over the edges E, update, shortcut.  full: root_shortcut *)
  Inductive lt_round (n : nat) (c : connect_option) (o : update_option) (full : bool) (E : list (nat * nat)) (P msgs : nat -> nat)
    : (nat -> nat) -> (nat -> nat) -> bool -> Prop :=
  | lt_round_intro : forall calls sched msgs' ch,
      Permutation calls (flat_map (connect_calls c P) E) ->
      msg_writes calls msgs = (msgs', ch) ->
      let s := jexec largest sched (jstart (B1 full) (lt_update n o P msgs') (seq 0 n)) in
      jfinished s ->
      lt_round n c o full E P msgs (jpar s) msgs' ch.

  (* Connectivity.h:115-174 LiuTarjanAlgorithm: initialize, compute_components (no alter), k
     rounds done; freq: with sampling, the vertices labelled freq are skipped *)
  Inductive lt_csr (n : nat) (outn : nat -> list nat) (c : connect_option) (o : update_option) (full : bool) (freq : option nat) (P0 : nat -> nat)
    : nat -> (nat -> nat) -> (nat -> nat) -> bool -> Prop :=
  | csr_start : lt_csr n outn c o full freq P0 0 P0 (fun i => i) true
  | csr_next : forall k P msgs P' msgs' ch, lt_csr n outn c o full freq P0 k P msgs true ->
      lt_round n c o full (sv_edges n outn P freq) P msgs P' msgs' ch ->
      lt_csr n outn c o full freq P0 (S k) P' msgs' ch.

  (* 357-365 my_alter *)
  Definition my_alter (P : nat -> nat) (E : list (nat * nat)) : list (nat * nat) :=
    map (fun e => ((if fst e =? largest then largest else P (fst e)), (if snd e =? largest then largest else P (snd e)))) E.
  (* 352-402 LiuTarjanAlgorithmCOO: initialize, compute_components; my_connect skips the edges
     with equal ends *)
  Inductive lt_coo (n : nat) (c : connect_option) (o : update_option) (full : bool) (E0 : list (nat * nat)) (P0 : nat -> nat)
    : nat -> list (nat * nat) -> (nat -> nat) -> (nat -> nat) -> bool -> Prop :=
  | coo_start : lt_coo n c o full E0 P0 0 (my_alter P0 E0) P0 (fun i => i) true
  | coo_next : forall k E P msgs P' msgs' ch, lt_coo n c o full E0 P0 k E P msgs true ->
      lt_round n c o full (filter (fun e => negb (fst e =? snd e)) E) P msgs P' msgs' ch ->
      lt_coo n c o full E0 P0 (S k) (my_alter P' E) P' msgs' ch.

  (* ConnectIt/sampling.h:32-52: the frequent label is replaced by largest_comp around the call *)
  Definition relabel (freq : nat) (P : nat -> nat) (v : nat) : nat := if P v =? freq then largest else P v.
  Definition unlabel (freq : nat) (P : nat -> nat) (v : nat) : nat := if P v =? largest then freq else P v.

  (* Connectivity.h:404-464 StergiouAlgorithm::compute_components<no_sampling>.  [rounds] is
     never incremented, so previous_parents keeps its initial value 0 in every round.  The
     tests before the two write_min calls are left out: a call whose test fails would not
     change the cell either. *)
  Definition stergiou_calls (prev : nat -> nat) (e : nat * nat) : list (nat * nat) :=
    [(snd e, prev (fst e)); (fst e, prev (snd e))].
  Inductive stergiou_loop (n : nat) (outn : nat -> list nat) (P0 : nat -> nat)
    : nat -> nat -> (nat -> nat) -> (nat -> nat) -> bool -> Prop :=     (* k, rounds, parents, previous_parents, parents_changed *)
  | st_start : stergiou_loop n outn P0 0 0 P0 (fun _ => 0) true
  | st_next : forall k rounds P prev calls sched, stergiou_loop n outn P0 k rounds P prev true ->
      let prev' := if 0 <? rounds then P else prev in
      Permutation calls (flat_map (stergiou_calls prev') (sv_edges n outn P None)) ->
      let P1 := min_writes calls P in
      let s := jexec largest sched (jstart (B1 false) P1 (seq 0 n)) in
      jfinished s ->
      stergiou_loop n outn P0 (S k) rounds (jpar s) prev'
        (existsb (fun v => P1 v <? P v) (seq 0 n)).
End LT.
