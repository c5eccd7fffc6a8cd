(* Model of the atomic read-modify-write helpers of gbbs/bridge.h.

   Memory: one shared location of type T.  A call is a state machine; every
   step performs exactly one shared access (a plain load or a CAS).  A schedule
   is an arbitrary list of call numbers; [exec] runs it.  All loops in
   bridge.h:254-352 have the shape

       do { old = *a; if (!guard(old)) return ret_fail; new = newv(old);
          } while (!CAS(a, old, new));  return ret_ok(old)

   (in write_min the guard is the left operand of && in the loop condition, in
   fetch_and_add_threshold it is the while condition). *)
From Verif Require Import Base.
From Coq Require Import ZArith.

Section Machine.
  Context {T R : Type} (eqT : forall x y : T, {x = y} + {x <> y}).

  Record rmw := { guard : T -> bool; newv : T -> T; ret_ok : T -> R; ret_fail : T -> R }.

  (* program counter with the live locals *)
  Inductive pc := Read | Cas (c : T) | Done (r : R).

  (* one atomic step of one call.
     Read: bridge.h:258,270/274,285,306 (c = *a) together with the local test.
     Cas : atomic_compare_and_swap, bridge.h:177-252: compares the bit patterns,
     so equality of values. *)
  Definition tstep (o : rmw) (m : T) (p : pc) : T * pc :=
    match p with
    | Read => if guard o m then (m, Cas m) else (m, Done (ret_fail o m))
    | Cas c => if eqT m c then (newv o c, Done (ret_ok o c)) else (m, Read)
    | Done r => (m, Done r)
    end.

  (* system of calls ops, run under a schedule *)
  Definition cfg := (T * list pc)%type.

  Definition sys_step (ops : list rmw) (s : cfg) (i : nat) : cfg :=
    match nth_error ops i, nth_error (snd s) i with
    | Some o, Some p => let '(m', p') := tstep o (fst s) p in (m', lset (snd s) i p')
    | _, _ => s
    end.

  Definition exec (ops : list rmw) (sched : list nat) (s : cfg) : cfg :=
    fold_left (sys_step ops) sched s.

  Definition start (ops : list rmw) (v : T) : cfg := (v, map (fun _ => Read) ops).

  Definition result (s : cfg) (i : nat) : option R :=
    match nth_error (snd s) i with Some (Done r) => Some r | _ => None end.
End Machine.
Arguments rmw : clear implicits.
Arguments pc : clear implicits.
Arguments cfg : clear implicits.

(* gbbs/bridge.h:301-309 write_min(a, b, less); the volatile and std::atomic
   overloads (311-329) have the same body.  r is 0 unless the CAS succeeded. *)
Definition write_min {T} (less : T -> T -> bool) (b : T) : rmw T bool :=
  {| guard := fun c => less b c; newv := fun _ => b;
     ret_ok := fun _ => true; ret_fail := fun _ => false |}.

(* gbbs/bridge.h:331-359 write_max(a, b, less) *)
Definition write_max {T} (less : T -> T -> bool) (b : T) : rmw T bool :=
  {| guard := fun c => less c b; newv := fun _ => b;
     ret_ok := fun _ => true; ret_fail := fun _ => false |}.

(* w-bit unsigned wrap-around addition, as performed by oldV + b on E *)
Definition wadd (w : Z) (x y : Z) : Z := ((x + y) mod 2 ^ w)%Z.

(* gbbs/bridge.h:254-262 fetch_and_add, on a w-bit unsigned E *)
Definition fetch_and_add (w : Z) (b : Z) : rmw Z Z :=
  {| guard := fun _ => true; newv := fun old => wadd w old b;
     ret_ok := fun old => old; ret_fail := fun old => old |}.

(* gbbs/bridge.h:280-298 write_add (no result) *)
Definition write_add (w : Z) (b : Z) : rmw Z unit :=
  {| guard := fun _ => true; newv := fun old => wadd w old b;
     ret_ok := fun _ => tt; ret_fail := fun _ => tt |}.

(* gbbs/bridge.h:267-278 fetch_and_add_threshold *)
Definition fetch_and_add_threshold (w : Z) (b max_v : Z) : rmw Z (option Z) :=
  {| guard := fun old => (old <=? max_v)%Z; newv := fun old => wadd w old b;
     ret_ok := fun old => Some old; ret_fail := fun _ => None |}.
