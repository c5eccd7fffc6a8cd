(* Model of gbbs/helpers/resizable_table.h.

   Cells hold a pair of key and value, or are empty (no inserted key is empty_key); the compare-and-swap acts on whole cells.
   The hash function is arbitrary; h & mask with a power-of-two size is h mod the size.  Every step of an insertion makes one
   shared access; 202 reads key and value of a full cell, which never changes, in one step.  The per-worker counters are
   represented by their sum (every worker has its own).  Not modelled: the default constructor, analyze (output), insert_seq
   (not called). *)
From Verif Require Import Base.

Section RT.
  Variable hash : nat -> nat.
  Notation pair := (nat * nat)%type.
  Definition table := list (option pair).
  Definition cell (t : table) (h : nat) : option pair := nth h t None.
  (* 35-40, 105 *)
  Definition firstIndex (t : table) (k : nat) : nat := hash k mod length t.
  Definition nextIndex (t : table) (h : nat) : nat := (h + 1) mod length t.

  (* 191-208 insert *)
  Inductive pc :=
  | Test (h : nat)      (* 196 get<0>(table[h]) == empty_key *)
  | Cas (h : nat)       (* 197 atomic_compare_and_swap(&table[h], empty, kv) *)
  | Check (h : nat)     (* 202 the cell holds k and v *)
  | Fin (r : bool).
  Record st := { tab : table; pcs : list pc }.
  Definition tstep (kv : pair) (t : table) (p : pc) : table * pc :=
    match p with
    | Test h => (t, match cell t h with None => Cas h | Some _ => Check h end)
    | Cas h => match cell t h with None => (lset t h (Some kv), Fin true) | Some _ => (t, Check h) end
    | Check h => (t, match cell t h with
                     | Some (k, v) => if (k =? fst kv) && (v =? snd kv) then Fin false else Test (nextIndex t h)
                     | None => Test (nextIndex t h) end)
    | Fin r => (t, Fin r)
    end.
  Definition sys_step (calls : list pair) (s : st) (i : nat) : st :=
    match nth_error calls i, nth_error (pcs s) i with
    | Some kv, Some p => let '(t, p') := tstep kv (tab s) p in {| tab := t; pcs := lset (pcs s) i p' |}
    | _, _ => s
    end.
  Definition exec (calls : list pair) (sched : list nat) (s : st) : st := fold_left (sys_step calls) sched s.
  Definition start (t : table) (calls : list pair) : st := {| tab := t; pcs := map (fun kv => Test (firstIndex t (fst kv))) calls |}.
  (* 199: the increments of the counters *)
  Definition added (s : st) : nat := length (filter (fun p => match p with Fin true => true | _ => false end) (pcs s)).

  (* the loops that look for a key; None: still looping after fuel probes *)
  (* 224-236 num_appearances *)
  Fixpoint num_loop (t : table) (k fuel h ct : nat) : option nat :=
    match fuel with
    | 0 => None
    | S fuel => match cell t h with
                | Some (k', _) => num_loop t k fuel (nextIndex t h) (if k' =? k then ct + 1 else ct)
                | None => Some ct
                end
    end.
  Definition num_appearances (t : table) (k fuel : nat) : option nat := num_loop t k fuel (firstIndex t k) 0.
  (* 238-249 contains(k) *)
  Fixpoint contains_loop (t : table) (k fuel h : nat) : option bool :=
    match fuel with
    | 0 => None
    | S fuel => match cell t h with
                | Some (k', _) => if k' =? k then Some true else contains_loop t k fuel (nextIndex t h)
                | None => Some false
                end
    end.
  Definition contains_key (t : table) (k fuel : nat) : option bool := contains_loop t k fuel (firstIndex t k).
  (* 251-262 contains(k, v) *)
  Fixpoint contains2_loop (t : table) (k v fuel h : nat) : option bool :=
    match fuel with
    | 0 => None
    | S fuel => match cell t h with
                | Some (k', v') => if (k' =? k) && (v' =? v) then Some true else contains2_loop t k v fuel (nextIndex t h)
                | None => Some false
                end
    end.
  Definition contains_pair (t : table) (k v fuel : nat) : option bool := contains2_loop t k v fuel (firstIndex t k).
  (* 42-89, 186-189: an iterator used as in `if (it.init()) { it.next(); while (it.has_next()) it.next(); }`: what it returns *)
  Fixpoint iter_loop (t : table) (k fuel h : nat) : option (list pair) :=
    match fuel with
    | 0 => None
    | S fuel => match cell t h with
                | None => Some []
                | Some (k', v') => if k' =? k then option_map (cons (k', v')) (iter_loop t k fuel (nextIndex t h)) else iter_loop t k fuel (nextIndex t h)
                end
    end.
  Definition iterate (t : table) (k fuel : nat) : option (list pair) := iter_loop t k fuel (firstIndex t k).
  (* 264-277 map and entries: the full cells in order *)
  Definition entries (t : table) : list pair := flat_map (fun c => match c with Some kv => [kv] | None => [] end) t.

  Record rt := { rtab : table; ne : nat; cts : nat }.
  (* 128-139, 279-281; 1.1 * _m truncated, the rounding of the double left out *)
  Definition constructed (x : nat) : rt := {| rtab := repeat None (2 ^ Nat.log2_up (11 * x / 10)); ne := 0; cts := 0 |}.
  (* 115-121 *)
  Definition update_nelms (T : rt) : rt := {| rtab := rtab T; ne := ne T + cts T; cts := 0 |}.
  Definition finished (s : st) : Prop := forall p, In p (pcs s) -> exists r, p = Fin r.
  (* concurrent insertions of calls, all finished *)
  Inductive inserted (T : rt) (calls : list pair) : rt -> Prop :=
  | ins : forall sched s, s = exec calls sched (start (rtab T) calls) -> finished s -> inserted T calls {| rtab := tab s; ne := ne T; cts := cts T + added s |}.
  (* 164-184 maybe_resize; 0.25 * m is exact.  None: the table has been moved away (168, 170) *)
  Inductive resized (T : rt) (n_inc : nat) : option rt -> Prop :=
  | rs_keep : 4 * (ne T + n_inc) <= length (rtab T) -> resized T n_inc (Some T)
  | rs_lost : length (rtab T) < 4 * (ne T + n_inc) -> 2 ^ Nat.log2_up (10 * (ne T + n_inc)) = length (rtab T) -> resized T n_inc None
  | rs_grow : forall T1, length (rtab T) < 4 * (ne T + n_inc) -> 2 ^ Nat.log2_up (10 * (ne T + n_inc)) <> length (rtab T) ->
      inserted {| rtab := repeat None (2 ^ Nat.log2_up (10 * (ne T + n_inc))); ne := 0; cts := cts T |} (entries (rtab T)) T1 ->
      resized T n_inc (Some (update_nelms T1)).
End RT.
