(* Model of the linear-probing hash tables gbbs/helpers/sparse_table.h,
   sparse_additive_map.h and sequential_ht.h.

   A table is a list of cells (key, value); the key is None for empty_key (so no inserted
   key equals empty_key).  The hash function is arbitrary; h & mask with a power-of-two size
   is h mod (length of the table).  Every step of a concurrent insertion makes one shared
   access; a value update by write_add or a user function f is one atomic step. *)
From Verif Require Import Base.

Section HT.
  Variable V : Type.
  Variable hash : nat -> nat.
  Definition table := list (option nat * V).
  Variable e0 : V.                                  (* value part of the empty element *)

  Definition tkey (t : table) (h : nat) : option nat := fst (nth h t (None, e0)).
  Definition tval (t : table) (h : nat) : V := snd (nth h t (None, e0)).
  Definition set_key (t : table) (h : nat) (k : nat) : table := lset t h (Some k, tval t h).
  Definition set_val (t : table) (h : nat) (v : V) : table := lset t h (tkey t h, v).
  (* sparse_table.h:49-51, sparse_additive_map.h:48-50, sequential_ht.h:47-49 *)
  Definition firstIndex (t : table) (k : nat) : nat := hash k mod length t.
  Definition incrementIndex (t : table) (h : nat) : nat := (h + 1) mod length t.
  (* sparse_table.h:63-64, 241-243: a fresh table *)
  Definition new_table (m : nat) : table := repeat (None, e0) m.
  (* sparse_table.h:62: x is the truncated product of the multiplier and the capacity *)
  Definition sparse_table_size (x : nat) : nat := 2 ^ Nat.log2_up (x + 1).
  (* sparse_additive_map.h:67; 1.1 * _m truncated *)
  Definition additive_map_size (m : nat) : nat := 2 ^ Nat.log2_up (11 * m / 10).

  (* -- concurrent insertion ----------------------------------------------------------
     sparse_table.h:97-114 insert (and 224-239 inside resize):  on_new v0 v = v, on_old = None
     sparse_table.h:116-136 insert_f:                           on_new = f, on_old = Some f
     sparse_additive_map.h:90-111 insert:                       both add *)
  Variable on_new : V -> V -> V.
  Variable on_old : option (V -> V -> V).

  Inductive pc :=
  | Test (h : nat)                (* if (get<0>(table[h]) == empty_key) *)
  | Cas (h : nat)                 (* atomic_compare_and_swap(&get<0>(table[h]), empty_key, k) *)
  | Check (h : nat)               (* if (get<0>(table[h]) == k) *)
  | Upd (h : nat) (fresh : bool)  (* the update of get<1>(table[h]) *)
  | Done (r : bool).

  Record st := { tab : table; pcs : list pc; hlog : list (nat * bool) }.   (* hlog: ghost, the updates in order *)

  Definition tstep (i : nat) (kv : nat * V) (t : table) (p : pc) (log : list (nat * bool)) : table * pc * list (nat * bool) :=
    let k := fst kv in
    match p with
    | Test h => (t, match tkey t h with None => Cas h | Some _ => Check h end, log)
    | Cas h => match tkey t h with
               | None => (set_key t h k, Upd h true, log)
               | Some _ => (t, Check h, log)
               end
    | Check h => let other := Test (incrementIndex t h) in
                 match tkey t h with
                 | Some k' => if k' =? k
                              then (t, match on_old with None => Done false | Some _ => Upd h false end, log)
                              else (t, other, log)
                 | None => (t, other, log)
                 end
    | Upd h fresh =>
        let v' := if fresh then on_new (tval t h) (snd kv)
                  else match on_old with None => tval t h | Some f => f (tval t h) (snd kv) end in
        (set_val t h v', Done fresh, log ++ [(i, fresh)])
    | Done r => (t, Done r, log)
    end.
  Definition sys_step (calls : list (nat * V)) (s : st) (i : nat) : st :=
    match nth_error calls i, nth_error (pcs s) i with
    | Some kv, Some p =>
        let '(t, p', log) := tstep i kv (tab s) p (hlog s) in
        {| tab := t; pcs := lset (pcs s) i p'; hlog := log |}
    | _, _ => s
    end.
  Definition exec (calls : list (nat * V)) (sched : list nat) (s : st) : st := fold_left (sys_step calls) sched s.
  Definition start (t : table) (calls : list (nat * V)) : st :=
    {| tab := t; pcs := map (fun kv => Test (firstIndex t (fst kv))) calls; hlog := [] |}.

  (* -- lookups ----------------------------------------------------------------------- *)
  (* sparse_table.h:185-211 contains, find; sparse_additive_map.h:113-124.  None: still
     looping after fuel probes *)
  Fixpoint find_loop (t : table) (k : nat) (fuel h : nat) : option (option V) :=
    match fuel with
    | 0 => None
    | S fuel => match tkey t h with
                | Some k' => if k' =? k then Some (Some (tval t h)) else find_loop t k fuel (incrementIndex t h)
                | None => Some None
                end
    end.
  Definition find (t : table) (k : nat) (fuel : nat) (default : V) : option V :=
    option_map (fun r => match r with Some v => v | None => default end) (find_loop t k fuel (firstIndex t k)).
  Definition contains (t : table) (k : nat) (fuel : nat) : option bool :=
    option_map (fun r => match r with Some _ => true | None => false end) (find_loop t k fuel (firstIndex t k)).
  (* sparse_table.h:222-225 entries: parlay::filter *)
  Definition entries (t : table) : list (nat * V) :=
    flat_map (fun c => match fst c with Some k => [(k, snd c)] | None => [] end) t.

  (* -- sequential tables -------------------------------------------------------------- *)
  (* sequential_ht.h:70-90 insertF, 92-107 insertAdd(key), 109-124 insertAdd(pair):
     fresh v is what is stored for a new key, again v cur for a key that is present.
     None: still looping after fuel probes *)
  Fixpoint seq_insert_loop (fresh : V -> V) (again : V -> V) (k : nat) (fuel h : nat) (t : table) : option table :=
    match fuel with
    | 0 => None
    | S fuel => match tkey t h with
                | None => Some (lset t h (Some k, fresh (tval t h)))
                | Some k' => if k' =? k then Some (lset t h (Some k, again (tval t h)))
                             else seq_insert_loop fresh again k fuel (incrementIndex t h) t
                end
    end.
  Definition seq_insert (fresh again : V -> V) (k : nat) (t : table) : option table :=
    seq_insert_loop fresh again k (length t) (firstIndex t k) t.
  Definition insertF {M} (f : V -> nat * M -> V) (kv : nat * M) : table -> option table :=
    seq_insert (fun cur => f cur kv) (fun cur => f cur kv) (fst kv).
  (* sequential_ht.h:143-159 compactInto: the new table and Out[0..k) *)
  Fixpoint compactInto {E} (f : nat * V -> option E) (t : table) : table * list E :=
    match t with
    | [] => ([], [])
    | (None, v) :: t' => let r := compactInto f t' in ((None, v) :: fst r, snd r)
    | (Some k, v) :: t' =>
        let r := compactInto f t' in
        ((None, e0) :: fst r, match f (k, v) with Some x => x :: snd r | None => snd r end)
    end.
  (* sequential_ht.h:161-178 compactIntoSelf: state (table, k), iteration i *)
  Definition cself_step (f : nat * V -> option (nat * V)) (tk : table * nat) (i : nat) : table * nat :=
    let '(t, k) := tk in
    match tkey t i with
    | None => (t, k)
    | Some key => let t1 := lset t i (None, e0) in
                  match f (key, tval t i) with
                  | Some kv => (lset t1 k (Some (fst kv), snd kv), S k)
                  | None => (t1, k)
                  end
    end.
  Definition compactIntoSelf (f : nat * V -> option (nat * V)) (t : table) : table * nat :=
    fold_left (cself_step f) (seq 0 (length t)) (t, 0).
End HT.

(* sequential_ht.h:92-124 *)
Definition insertAdd_key (hash : nat -> nat) (k : nat) : table nat -> option (table nat) :=
  seq_insert hash 0 (fun _ => 1) (fun cur => cur + 1) k.
Definition insertAdd_pair (hash : nat -> nat) (kv : nat * nat) : table nat -> option (table nat) :=
  seq_insert hash 0 (fun _ => 1) (fun cur => cur + snd kv) (fst kv).
(* the callers' loop, e.g. histogram.h:248-262 *)
Fixpoint insert_all {V A} (ins : A -> table V -> option (table V)) (l : list A) (t : table V) : option (table V) :=
  match l with
  | [] => Some t
  | x :: l' => match ins x t with None => None | Some t' => insert_all ins l' t' end
  end.

(* sparse_table.h:224-239 resize(incoming), incoming > m: all old entries are inserted
   concurrently into a fresh table of the new size *)
Definition resized (m incoming : nat) : nat := 2 ^ Nat.log2_up (2 * (m + incoming)).
