(* Model of gbbs/helpers/atomic_sum_counter.h and atomic_max_counter.h.

   T is an unsigned type with values below M for the sums, any integer type for the maximum.  Every read and every write of an
   entry is one step; the workers, and a thread that reads the value meanwhile, interleave arbitrarily. *)
From Coq Require Import ZArith.
From Verif Require Import Base.

Section Sum.
  Variable M : nat.      (* one more than the largest value of T *)
  Variable szT : nat.    (* sizeof(T) *)
  Variable p : nat.      (* num_workers() *)

  (* 18-19; parlay::log2_up is the logarithm rounded up *)
  Definition stride : nat := Nat.log2_up (128 / szT).
  (* i << stride *)
  Definition slot (i : nat) : nat := Nat.shiftl i stride.
  (* an entry never written is None; None for the whole: access out of bounds *)
  Definition write_entry (e : list (option nat)) (k x : nat) : option (list (option nat)) := if k <? length e then Some (lset e k (Some x)) else None.
  Definition zero_entries (e : list (option nat)) : option (list (option nat)) :=
    fold_left (fun oe i => match oe with Some e => write_entry e (slot i) 0 | None => None end) (seq 0 p) (Some e).
  (* 17-26 initialize *)
  Definition initialize : option (list (option nat)) := zero_entries (repeat None (slot p)).
  (* 28-36 reset; num_workers_ is not 0 after the constructor *)
  Definition reset (e : list (option nat)) : option (list (option nat)) := zero_entries e.
  (* an entry that is out of bounds or not initialised gives None *)
  Definition read_entry (e : list (option nat)) (k : nat) : option nat := match nth_error e k with Some (Some x) => Some x | _ => None end.
  (* 38-44 get_value, from worker i on with sum s *)
  Fixpoint sum_from (e : list (option nat)) (n i s : nat) : option nat :=
    match n with 0 => Some s | S n' => match read_entry e (slot i) with Some x => sum_from e n' (S i) ((s + x) mod M) | None => None end end.
  Definition get_value (e : list (option nat)) : option nat := sum_from e p 0 0.

  (* 46-49 update_value by a worker with the updates xs to come: Ready, or Loaded with the entry's value *)
  Inductive upc := Ready (xs : list nat) | Loaded (old x : nat) (xs : list nat).
  (* get_value by another thread, called during the updates: the next worker to look at and the sum so far *)
  Record cstate := { ent : list (option nat); wk : list upc; rd : nat * nat }.
  (* Some i: worker i; None: the reader.  No result: undefined behaviour *)
  Definition cstep (s : cstate) (t : option nat) : option cstate :=
    match t with
    | None => if fst (rd s) <? p
              then match read_entry (ent s) (slot (fst (rd s))) with
                   | Some x => Some {| ent := ent s; wk := wk s; rd := (S (fst (rd s)), (snd (rd s) + x) mod M) |}
                   | None => None end
              else Some s
    | Some i =>
        match nth_error (wk s) i with
        | Some (Ready (x :: xs)) => match read_entry (ent s) (slot i) with
                                    | Some v => Some {| ent := ent s; wk := lset (wk s) i (Loaded v x xs); rd := rd s |}
                                    | None => None end
        | Some (Loaded v x xs) => match write_entry (ent s) (slot i) ((v + x) mod M) with
                                  | Some e => Some {| ent := e; wk := lset (wk s) i (Ready xs); rd := rd s |}
                                  | None => None end
        | _ => Some s
        end
    end.
  Definition cexec (sched : list (option nat)) (s : cstate) : option cstate :=
    fold_left (fun os t => match os with Some s => cstep s t | None => None end) sched (Some s).
  Definition cstart (e : list (option nat)) (xss : list (list nat)) : cstate := {| ent := e; wk := map Ready xss; rd := (0, 0) |}.
End Sum.

(* atomic_max_counter: the constructor and reset (10, 12) store 0; update_value (16-18) is write_min with std::greater, one
   atomic step by C11; the calls take effect in some order *)
Definition max_update (entry v : Z) : Z := if (entry <? v)%Z then v else entry.
Definition max_value (calls : list Z) : Z := fold_left max_update calls 0%Z.
