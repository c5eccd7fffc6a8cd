(* Model of gbbs/helpers/dyn_arr.h, and of its use by gbbs/bucket.h.

   The heap is a list of blocks; a freed block is None, a cell never written is None.  An access through a null or
   dangling pointer or outside a block, a read of a cell never written, and freeing anything but a whole live block
   are undefined: None.  parallel_for runs its iterations in the order given by a schedule.  size_t does not wrap. *)
From Verif Require Import Base.

Section DY.
  Variable E : Type.
  Definition heap := list (option (list (option E))).
  (* dyn_arr.h:40-43; moved: ghost, the number of elements copied by resize so far *)
  Record darr := { arr : option nat; size : nat; capacity : nat; alloc : bool; moved : nat }.
  (* dyn_arr.h:35 *)
  Definition kDynArrMinBktSize := 20 * 100.

  Definition load (h : heap) (p : option nat) (i : nat) : option E :=
    match p with
    | None => None
    | Some b => match nth_error h b with Some (Some cs) => match nth_error cs i with Some (Some v) => Some v | _ => None end | _ => None end
    end.
  Definition store (h : heap) (p : option nat) (i : nat) (v : E) : option heap :=
    match p with
    | None => None
    | Some b => match nth_error h b with
                | Some (Some cs) => if i <? length cs then Some (lset h b (Some (lset cs i (Some v)))) else None
                | _ => None
                end
    end.
  (* bridge.h:97-105 new_array_no_init, 122-130 free_array *)
  Definition new_array (h : heap) (n : nat) : heap * nat := (h ++ [Some (repeat None n)], length h).
  Definition free_array (h : heap) (p : option nat) (n : nat) : option heap :=
    match p with
    | None => None
    | Some b => match nth_error h b with Some (Some cs) => if length cs =? n then Some (lset h b None) else None | _ => None end
    end.
  (* dyn_arr.h:70: nA[i] = A[i] *)
  Definition copy_loop (src dst : option nat) (order : list nat) (h : option heap) : option heap :=
    fold_left (fun h i => match h with None => None | Some h => match load h src i with None => None | Some v => store h dst i v end end) order h.
  (* dyn_arr.h:97, 104: A[off + i] = f[i], also 80 insert(f[i], i) *)
  Definition fill_loop (dst : option nat) (off : nat) (f : list E) (order : list nat) (h : option heap) : option heap :=
    fold_left (fun h i => match h with None => None | Some h => match nth_error f i with None => None | Some v => store h dst (off + i) v end end) order h.

  (* dyn_arr.h:45-50 the constructors *)
  Definition dyn_arr0 : darr := {| arr := None; size := 0; capacity := 0; alloc := false; moved := 0 |}.
  Definition dyn_arr1 (h : heap) (s : nat) : heap * darr :=
    let '(h, b) := new_array h s in (h, {| arr := Some b; size := 0; capacity := s; alloc := true; moved := 0 |}).
  Definition dyn_arr4 (A : option nat) (size capacity : nat) (alloc : bool) : darr :=
    {| arr := A; size := size; capacity := capacity; alloc := alloc; moved := 0 |}.

  (* dyn_arr.h:52-57 *)
  Definition del (st : heap * darr) : option (heap * darr) :=
    let '(h, d) := st in
    if alloc d then
      match free_array h (arr d) (capacity d) with
      | None => None
      | Some h => Some (h, {| arr := arr d; size := size d; capacity := capacity d; alloc := false; moved := moved d |})
      end
    else Some st.
  (* dyn_arr.h:59-67; the assertion is an abort; the new sequence is not in the heap *)
  Fixpoint loads (h : heap) (p : option nat) (is : list nat) : option (list E) :=
    match is with
    | [] => Some []
    | i :: is => match load h p i, loads h p is with Some v, Some l => Some (v :: l) | _, _ => None end
    end.
  Definition to_seq (st : heap * darr) : option (list E * (heap * darr)) :=
    let '(h, d) := st in
    match arr d, loads h (arr d) (seq 0 (size d)) with
    | Some _, Some l => Some (l, (h, {| arr := None; size := 0; capacity := capacity d; alloc := alloc d; moved := moved d |}))
    | _, _ => None
    end.
  (* dyn_arr.h:69 *)
  Definition clear (d : darr) : darr := {| arr := arr d; size := 0; capacity := capacity d; alloc := alloc d; moved := moved d |}.
  Definition grow (d : darr) (k : nat) : darr := {| arr := arr d; size := size d + k; capacity := capacity d; alloc := alloc d; moved := moved d |}.
  (* dyn_arr.h:71-83; sched k: the order of a loop of k iterations *)
  Definition resize (sched : nat -> list nat) (n : nat) (st : heap * darr) : option (heap * darr) :=
    let '(h, d) := st in
    if capacity d <? n + size d then
      let new_capacity := Nat.max (2 * (n + size d)) kDynArrMinBktSize in
      let '(h, nA) := new_array h new_capacity in
      match copy_loop (arr d) (Some nA) (sched (size d)) (Some h) with
      | None => None
      | Some h =>
          match (if alloc d then free_array h (arr d) (capacity d) else Some h) with
          | None => None
          | Some h => Some (h, {| arr := Some nA; size := size d; capacity := new_capacity; alloc := true; moved := moved d + size d |})
          end
      end
    else Some st.
  (* dyn_arr.h:85 *)
  Definition insert (v : E) (pos : nat) (st : heap * darr) : option (heap * darr) :=
    let '(h, d) := st in option_map (fun h => (h, d)) (store h (arr d) (size d + pos) v).
  (* dyn_arr.h:87-90; bucket.h:313-318 insert_in_bucket *)
  Definition push_back (v : E) (st : heap * darr) : option (heap * darr) :=
    let '(h, d) := st in option_map (fun h => (h, grow d 1)) (store h (arr d) (size d) v).
  (* dyn_arr.h:97-108 copyIn, copyInF *)
  Definition copyIn (s1 s2 : nat -> list nat) (f : list E) (st : heap * darr) : option (heap * darr) :=
    match resize s1 (length f) st with
    | None => None
    | Some (h, d) => option_map (fun h => (h, grow d (length f))) (fill_loop (arr d) (size d) f (s2 (length f)) (Some h))
    end.
  (* bucket.h:240-283 update_buckets, for one bucket: make room for its new elements, insert them at their
     positions in any order, then advance the size *)
  Definition bucket_update (s1 s2 : nat -> list nat) (f : list E) (st : heap * darr) : option (heap * darr) :=
    match resize s1 (length f) st with
    | None => None
    | Some st =>
        option_map (fun st => (fst st, grow (snd st) (length f)))
          (fold_left (fun st i => match st, nth_error f i with Some st, Some v => insert v i st | _, _ => None end) (s2 (length f)) (Some st))
    end.
  (* bucket.h:302-320 update_buckets_seq, for one element *)
  Definition bucket_push (s1 : nat -> list nat) (v : E) (st : heap * darr) : option (heap * darr) :=
    match resize s1 1 st with None => None | Some st => push_back v st end.

  Inductive op :=
  | OResize (s : nat -> list nat) (n : nat) | OPush (v : E) | OInsert (v : E) (pos : nat) | OCopyIn (s1 s2 : nat -> list nat) (f : list E)
  | OBucket (s1 s2 : nat -> list nat) (f : list E) | OBucketPush (s : nat -> list nat) (v : E) | OClear.
  Definition step (st : heap * darr) (o : op) : option (heap * darr) :=
    match o with
    | OResize s n => resize s n st
    | OPush v => push_back v st
    | OInsert v pos => insert v pos st
    | OCopyIn s1 s2 f => copyIn s1 s2 f st
    | OBucket s1 s2 f => bucket_update s1 s2 f st
    | OBucketPush s v => bucket_push s v st
    | OClear => Some (fst st, clear (snd st))
    end.
  Definition run (ops : list op) (st : heap * darr) : option (heap * darr) :=
    fold_left (fun st o => match st with None => None | Some st => step st o end) ops (Some st).
End DY.
