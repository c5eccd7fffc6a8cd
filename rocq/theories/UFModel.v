(* Model of the concurrent union-find of
     benchmarks/Connectivity/UnionFind/union_find_rules.h,
     benchmarks/Connectivity/UnionFind/Connectivity.h and
     benchmarks/Connectivity/SimpleUnionAsync/Connectivity.h.

   A thread is a program over shared memory; every step performs at most one
   shared access.  Shared memory: the array parents (n entries) and, for the
   lock / hook variants, one auxiliary cell per vertex.  An access outside
   [0, n) ends in the distinct state [Fault]. *)
From Verif Require Import Base.

(* shared memory.  [aux a = None]: lock a is free (UniteRemLock::locks[a] ==
   false) or hooks[a] == UINT_E_MAX (UniteND); [Some t]: set, by thread t.  (In
   the code the cell holds true, resp. a vertex id; neither value is read back,
   only whether it is set.  The thread id is bookkeeping.) *)
Record mem := { par : nat -> nat; aux : nat -> option nat }.

Definition set_par (m : mem) (a v : nat) : mem :=
  {| par := fset (par m) a v; aux := aux m |}.
Definition set_aux (m : mem) (a : nat) (o : option nat) : mem :=
  {| par := par m; aux := fset (aux m) a o |}.

(* programs of one thread (possibly infinite: the loops of the code) *)
CoInductive prog :=
| Ret (r : nat)                                    (* return r *)
| Rd (a : nat) (k : nat -> prog)                   (* x = parents[a] *)
| Wr (a v : nat) (k : prog)                        (* parents[a] = v *)
| Cas (a old new : nat) (k : bool -> prog)         (* atomic_compare_and_swap(&parents[a], old, new) *)
| RdL (a : nat) (k : bool -> prog)                 (* is the auxiliary cell a set? *)
| CasL (a : nat) (k : bool -> prog)                (* CAS it from clear to set *)
| ClrL (a : nat) (k : prog)                        (* clear it *)
| Bind (p : prog) (k : nat -> prog)                (* call p, continue with its result *)
| Fault.                                           (* out-of-bounds access *)

Definition thread := (prog * list (nat -> prog))%type.   (* program, call stack *)

(* one step of thread t; n = parents.size() *)
Definition tstep (n t : nat) (m : mem) (th : thread) : mem * thread :=
  let '(p, st) := th in
  match p with
  | Ret r => match st with [] => (m, (p, [])) | k :: st' => (m, (k r, st')) end
  | Rd a k => if a <? n then (m, (k (par m a), st)) else (m, (Fault, []))
  | Wr a v k => if a <? n then (set_par m a v, (k, st)) else (m, (Fault, []))
  | Cas a old new k =>
      if a <? n then
        if par m a =? old then (set_par m a new, (k true, st)) else (m, (k false, st))
      else (m, (Fault, []))
  | RdL a k => if a <? n then (m, (k (match aux m a with None => false | _ => true end), st))
               else (m, (Fault, []))
  | CasL a k => if a <? n then
                  match aux m a with
                  | None => (set_aux m a (Some t), (k true, st))
                  | Some _ => (m, (k false, st))
                  end
                else (m, (Fault, []))
  | ClrL a k => if a <? n then (set_aux m a None, (k, st)) else (m, (Fault, []))
  | Bind q k => (m, (q, k :: st))
  | Fault => (m, (Fault, []))
  end.

Definition sys := (mem * list thread)%type.

Definition sys_step (n : nat) (s : sys) (t : nat) : sys :=
  match nth_error (snd s) t with
  | Some th => let '(m', th') := tstep n t (fst s) th in (m', lset (snd s) t th')
  | None => s
  end.

Definition exec (n : nat) (sched : list nat) (s : sys) : sys := fold_left (sys_step n) sched s.

Definition init (P0 : nat -> nat) (ps : list prog) : sys :=
  ({| par := P0; aux := fun _ => None |}, map (fun p => (p, [])) ps).

(* thread t of s has returned r *)
Definition returned (s : sys) (t r : nat) : Prop := nth_error (snd s) t = Some (Ret r, []).
Definition faulted (s : sys) (t : nat) : Prop := exists st, nth_error (snd s) t = Some (Fault, st).

(* ------------------------------------------------------------------ *)
(* find variants                                                       *)

(* union_find_rules.h:11-16 find_naive *)
CoFixpoint find_naive (i : nat) : prog :=
  Rd i (fun p => if i =? p then Ret i else Rd i (fun q => find_naive q)).

(* union_find_rules.h:18-30 find_compress (and SimpleUnionAsync/Connectivity.h:32-45);
   second loop, lines 25-28 *)
CoFixpoint find_compress_loop2 (i j : nat) : prog :=
  Rd i (fun tmp => if j <? tmp then Wr i j (find_compress_loop2 tmp j) else Ret j).

(* do-while loop, lines 21-23 *)
CoFixpoint find_compress_loop1 (i j : nat) : prog :=
  Rd j (fun j' => Rd j' (fun p =>
    if p =? j' then find_compress_loop2 i j' else find_compress_loop1 i j')).

Definition find_compress (i : nat) : prog :=
  Rd i (fun p => if p =? i then Ret i else find_compress_loop1 i i).

(* SimpleUnionAsync/Connectivity.h:65-80 find_compress_atomic *)
CoFixpoint find_compress_atomic_loop2 (i j : nat) : prog :=
  Rd i (fun tmp => if j <? tmp
                   then Cas i tmp j (fun ok => if ok then find_compress_atomic_loop2 tmp j else Ret j)
                   else Ret j).
CoFixpoint find_compress_atomic_loop1 (i j : nat) : prog :=
  Rd j (fun j' => Rd j' (fun p =>
    if p =? j' then find_compress_atomic_loop2 i j' else find_compress_atomic_loop1 i j')).
Definition find_compress_atomic (i : nat) : prog :=
  Rd i (fun p => if p =? i then Ret i else find_compress_atomic_loop1 i i).

(* union_find_rules.h:32-44 find_atomic_split *)
CoFixpoint find_atomic_split (i : nat) : prog :=
  Rd i (fun v => Rd v (fun w =>
    if v =? w then Ret v else Cas i v w (fun _ => find_atomic_split v))).

(* union_find_rules.h:46-58 find_atomic_halve *)
CoFixpoint find_atomic_halve (i : nat) : prog :=
  Rd i (fun v => Rd v (fun w =>
    if v =? w then Ret v else Cas i v w (fun _ => Rd i (fun i' => find_atomic_halve i')))).

Inductive find_option := FindNaive | FindCompress | FindCompressAtomic | FindSplit | FindHalve.
(* ConnectIt/framework.h:15-31 get_find_function *)
Definition find (f : find_option) : nat -> prog :=
  match f with
  | FindNaive => find_naive
  | FindCompress => find_compress
  | FindCompressAtomic => find_compress_atomic
  | FindSplit => find_atomic_split
  | FindHalve => find_atomic_halve
  end.
Definition is_naive (f : find_option) : bool := match f with FindNaive => true | _ => false end.

(* ------------------------------------------------------------------ *)
(* splice variants                                                     *)

(* union_find_rules.h:64-74 *)
Definition split_atomic_one (i x : nat) : prog :=
  Rd i (fun v => Rd v (fun w => if v =? w then Ret v else Cas i v w (fun _ => Ret v))).
(* union_find_rules.h:77-87 *)
Definition halve_atomic_one (i x : nat) : prog :=
  Rd i (fun v => Rd v (fun w => if v =? w then Ret v else Cas i v w (fun _ => Ret w))).
(* union_find_rules.h:90-94 *)
Definition splice_atomic (u v : nat) : prog :=
  Rd u (fun z => Rd v (fun pv => Cas u z pv (fun _ => Ret z))).

Inductive splice_option := SplitOne | HalveOne | SpliceAtomic.
(* ConnectIt/framework.h:33-46 get_splice_function *)
Definition splice (s : splice_option) : nat -> nat -> prog :=
  match s with SplitOne => split_atomic_one | HalveOne => halve_atomic_one | SpliceAtomic => splice_atomic end.

(* ------------------------------------------------------------------ *)
(* unite variants.  [mx] is UINT_E_MAX.                                *)

Section Unite.
  Variable mx : nat.

  (* union_find_rules.h:99-123 Unite *)
  CoFixpoint unite_loop (f : find_option) (u v : nat) : prog :=
    Bind (find f u) (fun u' => Bind (find f v) (fun v' =>
      if u' =? v' then Ret mx
      else if v' <? u' then
        Rd u' (fun p => if p =? u' then Cas u' u' v' (fun ok => if ok then Ret u' else unite_loop f u' v')
                        else unite_loop f u' v')
      else
        Rd v' (fun p => if p =? v' then Cas v' v' u' (fun ok => if ok then Ret v' else unite_loop f u' v')
                        else unite_loop f u' v'))).

  (* SimpleUnionAsync/Connectivity.h:47-63 unite_impl, 82-99 unite_impl_atomic
     (returns true = 1 / false = 0) *)
  CoFixpoint unite_impl (f : find_option) (u v : nat) : prog :=
    if u =? v then Ret 0 else
    Bind (find f u) (fun u' => Bind (find f v) (fun v' =>
      if v' <? u' then
        Rd u' (fun p => if p =? u' then Cas u' u' v' (fun ok => if ok then Ret 1 else unite_impl f u' v')
                        else unite_impl f u' v')
      else if u' <? v' then
        Rd v' (fun p => if p =? v' then Cas v' v' u' (fun ok => if ok then Ret 1 else unite_impl f u' v')
                        else unite_impl f u' v')
      else unite_impl f u' v')).

  (* if constexpr(find_option != find_naive) { compress(x); compress(y); } return r *)
  Definition compress_both (f : find_option) (x y r : nat) : prog :=
    if is_naive f then Ret r
    else Bind (find f x) (fun _ => Bind (find f y) (fun _ => Ret r)).

  (* union_find_rules.h:176-209 UniteRemCAS (operands of != read left to right) *)
  CoFixpoint rem_cas_loop (f : find_option) (s : splice_option) (x y rx ry : nat) : prog :=
    Rd rx (fun a => Rd ry (fun b =>
      if a =? b then Ret mx
      else
        Rd ry (fun p_ry => Rd rx (fun p_rx =>
          let sw := p_rx <? p_ry in
          let rx' := if sw then ry else rx in
          let ry' := if sw then rx else ry in
          let p_ry' := if sw then p_rx else p_ry in
          Rd rx' (fun q =>
            if rx' =? q then
              Cas rx' rx' p_ry' (fun ok =>
                if ok then compress_both f x y rx'
                else Bind (splice s rx' ry') (fun z => rem_cas_loop f s x y z ry'))
            else Bind (splice s rx' ry') (fun z => rem_cas_loop f s x y z ry')))))).

  (* union_find_rules.h:125-174 UniteRemLock; acquire_lock 138-143, release_lock 145 *)
  CoFixpoint rem_lock_loop (f : find_option) (s : splice_option) (x y rx ry : nat) : prog :=
    Rd rx (fun a => Rd ry (fun b =>
      if a =? b then compress_both f x y mx
      else
        Rd rx (fun c => Rd ry (fun d =>
          let sw := c <? d in
          let rx' := if sw then ry else rx in
          let ry' := if sw then rx else ry in
          Rd rx' (fun q =>
            if rx' =? q then
              RdL rx' (fun locked =>
                if locked then rem_lock_loop f s x y rx' ry'
                else CasL rx' (fun ok =>
                  if ok then
                    Rd ry' (fun py => Rd rx' (fun p =>
                      if (rx' =? p) && (py <? rx')
                      then Wr rx' py (ClrL rx' (rem_lock_loop f s x y rx' ry'))
                      else ClrL rx' (rem_lock_loop f s x y rx' ry')))
                  else rem_lock_loop f s x y rx' ry'))
            else Bind (splice s rx' ry') (fun z => rem_lock_loop f s x y z ry')))))).

  (* union_find_rules.h:211-237 UniteEarly *)
  CoFixpoint early_loop (f : find_option) (x y u v : nat) : prog :=
    if u =? v then compress_both f x y mx
    else
      let u' := if u <? v then v else u in
      let v' := if u <? v then u else v in
      let retry := Rd u' (fun z => Rd z (fun w => Cas u' z w (fun _ => early_loop f x y w v'))) in
      Rd u' (fun p =>
        if p =? u' then Cas u' u' v' (fun ok => if ok then compress_both f x y u' else retry)
        else retry).

  (* union_find_rules.h:239-265 UniteND *)
  CoFixpoint nd_loop (f : find_option) (u v : nat) : prog :=
    Bind (find f u) (fun u1 => Bind (find f v) (fun v1 =>
      if u1 =? v1 then Ret mx
      else
        let u' := if u1 <? v1 then v1 else u1 in
        let v' := if u1 <? v1 then u1 else v1 in
        RdL u' (fun set =>
          if set then nd_loop f u' v'
          else CasL u' (fun ok => if ok then Wr u' v' (Ret u') else nd_loop f u' v')))).

  (* ConnectIt/sampling.h:106-135 KOutSamplingTemplate::link (Afforest).
     low = p1 + (p2 - high) is the smaller of the two. *)
  CoFixpoint link_loop (p1 p2 : nat) : prog :=
    if p1 =? p2 then Ret 0
    else
      let high := if p2 <? p1 then p1 else p2 in
      let low := p1 + p2 - high in
      let again := Rd high (fun ph => Rd ph (fun q1 => Rd low (fun q2 => link_loop q1 q2))) in
      Rd high (fun p_high =>
        if p_high =? low then Ret 0
        else if p_high =? high then Cas high high low (fun ok => if ok then Ret 0 else again)
        else again).
  Definition link (u v : nat) : prog := Rd u (fun p1 => Rd v (fun p2 => link_loop p1 p2)).

  Inductive unite_option :=
  | UUnite | UEarly | UND | USimple | ULink
  | URemCAS (s : splice_option) | URemLock (s : splice_option).

  (* ConnectIt/framework.h:48-85 get_unite_function *)
  Definition unite (f : find_option) (o : unite_option) (u v : nat) : prog :=
    match o with
    | UUnite => unite_loop f u v
    | UEarly => early_loop f u v u v
    | UND => nd_loop f u v
    | USimple => unite_impl f u v
    | ULink => link u v
    | URemCAS s => rem_cas_loop f s u v u v
    | URemLock s => rem_lock_loop f s u v u v
    end.

  (* UnionFind/Connectivity.h:112-147 process_batch: updates and queries together *)
  Inductive update := Insert (u v : nat) | Query (u v : nat).
  Definition run_update (f : find_option) (o : unite_option) (x : update) : prog :=
    match x with
    | Insert u v => unite f o u v
    | Query u v => Bind (find f u) (fun _ => Bind (find f v) (fun _ => Ret 0))
    end.

  (* UnionFind/Connectivity.h:107  parents[i] = find(i, parents) *)
  Definition label_vertex (f : find_option) (i : nat) : prog :=
    Bind (find f i) (fun r => Wr i r (Ret r)).
End Unite.
