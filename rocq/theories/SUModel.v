(* Model of the union-find spanning forests:
     benchmarks/SpanningForest/UnionFind/union_find_rules.h (find, splice and unite variants, which
       record the edge that linked a root in Edges),
     benchmarks/SpanningForest/UnionFind/SpanningForest.h (UFAlgorithm::compute_spanning_forest),
     benchmarks/SpanningForest/Framework/kout_sampling.h (link, the compression passes, the rounds).
   Memory is sequentially consistent, every step performs one shared access, any call may be
   delayed between two accesses.  splice_atomic is left out (C35_splice_atomic_refuted shows that
   it closes cycles already in the connectivity version). *)
From Verif Require Import Base.

(* pa: Parents; ed: Edges, None = empty_edge; aux: the mutexes of UniteRemLock (Some t: held by
   call t) or the hooks of UniteND (Some t: set by call t, None = UINT_E_MAX) *)
Record mem := mkM { pa : nat -> nat; ed : nat -> option (nat * nat); aux : nat -> option nat }.
Definition set_pa (m : mem) (a v : nat) : mem := mkM (fset (pa m) a v) (ed m) (aux m).
Definition set_ed (m : mem) (a : nat) (e : nat * nat) : mem := mkM (pa m) (fset (ed m) a (Some e)) (aux m).
Definition set_aux (m : mem) (a : nat) (o : option nat) : mem := mkM (pa m) (ed m) (fset (aux m) a o).
(* atomic_compare_and_swap(&Parents[a], old, new) *)
Definition cas (m : mem) (a old new : nat) : mem := if pa m a =? old then set_pa m a new else m.

Inductive find_option := FNaive | FCompress | FSplit | FHalve.
Inductive splice_option := SplitOne | HalveOne.
(* what is done after the CAS of a splitting step *)
Inductive hop := HSplit | HHalve | HSplitOne | HHalveOne.

(* a find or splice that has not returned; the constructors are the accesses.
   union_find_rules.h:11-18 find_naive: N0 reads Parents[i] for the test, N1 for the step up.
   20-34 find_compress: C0 first test, C1 j = Parents[j], C2 the test of the do-while, C3
   tmp = Parents[i], C4 Parents[i] = j.
   36-49 find_atomic_split, 51-65 find_atomic_halve, 71-81 split_atomic_one, 84-94
   halve_atomic_one: S0 v = Parents[i], S1 w = Parents[v], S2 the CAS, S3 (halve) i = Parents[i] *)
Inductive fstate :=
| N0 (i : nat) | N1 (i : nat)
| C0 (i : nat) | C1 (i j : nat) | C2 (i j : nat) | C3 (i j : nat) | C4 (i j tmp : nat)
| S0 (h : hop) (i : nat) | S1 (h : hop) (i v : nat) | S2 (h : hop) (i v w : nat) | S3 (h : hop) (i : nat).

Definition find (f : find_option) (i : nat) : fstate :=
  match f with FNaive => N0 i | FCompress => C0 i | FSplit => S0 HSplit i | FHalve => S0 HHalve i end.
Definition splice (s : splice_option) (i : nat) : fstate :=
  match s with SplitOne => S0 HSplitOne i | HalveOne => S0 HHalveOne i end.

(* one access; inr r: returned r *)
Definition fstep (m : mem) (f : fstate) : mem * (fstate + nat) :=
  match f with
  | N0 i => (m, if i =? pa m i then inr i else inl (N1 i))
  | N1 i => (m, inl (N0 (pa m i)))
  | C0 i => (m, if pa m i =? i then inr i else inl (C1 i i))
  | C1 i j => (m, inl (C2 i (pa m j)))
  | C2 i j => (m, inl (if pa m j =? j then C3 i j else C1 i j))
  | C3 i j => (m, if j <? pa m i then inl (C4 i j (pa m i)) else inr j)
  | C4 i j tmp => (set_pa m i j, inl (C3 tmp j))
  | S0 h i => (m, inl (S1 h i (pa m i)))
  | S1 h i v => (m, if v =? pa m v then inr v else inl (S2 h i v (pa m v)))
  | S2 h i v w => (cas m i v w, match h with
                                | HSplit => inl (S0 h v)
                                | HHalve => inl (S3 h i)
                                | HSplitOne => inr v
                                | HHalveOne => inr w
                                end)
  | S3 h i => (m, inl (S0 h (pa m i)))
  end.
Definition faddr (f : fstate) : nat :=
  match f with
  | N0 i | N1 i | C0 i | C3 i _ | C4 i _ _ | S0 _ i | S2 _ i _ _ | S3 _ i => i
  | C1 _ j | C2 _ j => j
  | S1 _ _ v => v
  end.

(* framework.h:48-86 get_unite_function; OLink and OCompress are the two kinds of calls of the
   k-out sampling *)
Inductive unite_option :=
| OUnite (f : find_option) | OEarly | OND (f : find_option)
| ORemLock (f : find_option) (s : splice_option) | ORemCAS (f : find_option) (s : splice_option)
| OLink | OCompress.

(* a call for the edge (x, y) that has not returned; Done: returned.  Fault: index outside [0, n) *)
Inductive tstate :=
(* 104-131 Unite: the two finds; the test Parents[a] == a; the CAS; a is the larger of u, v *)
| U1 (v : nat) (f : fstate) | U2 (u : nat) (f : fstate) | U3 (u v : nat) | U4 (u v : nat)
(* Edges[a] = std::make_pair(u_orig, v_orig) after a successful CAS, then return / compress *)
| WE (a : nat)
(* 211-230 UniteEarly, u > v: the test; the CAS; z = Parents[u]; w = Parents[z]; the CAS *)
| E0 (u v : nat) | E1 (u v : nat) | E2 (u v : nat) | E3 (u v z : nat) | E4 (u v z w : nat)
(* 232-258 UniteND: the finds; the test of hooks[u]; the CAS; Edges[u] = ..; Parents[u] = v *)
| D1 (v : nat) (f : fstate) | D2 (u : nat) (f : fstate) | D3 (u v : nat) | D4 (u v : nat) | D5 (u v : nat) | D6 (u v : nat)
(* 133-172 UniteRemLock: Parents[rx], Parents[ry] of the loop test; of the swap test; of
   rx == Parents[rx]; lock; py; the second test; Edges[rx] = ..; Parents[rx] = py; unlock; splice *)
| R0 (rx ry : nat) | R1 (rx ry a : nat) | R2 (rx ry : nat) | R3 (rx ry c : nat) | R4 (rx ry : nat)
| R5 (rx ry : nat) | R6 (rx ry : nat) | R7 (rx ry py : nat) | R8 (rx ry py : nat) | R9 (rx ry py : nat) | R10 (rx ry : nat)
| RS (ry : nat) (f : fstate)
(* 174-209 UniteRemCAS: the loop test; p_ry; Parents[rx] < p_ry; rx == Parents[rx]; the CAS; splice *)
| Q0 (rx ry : nat) | Q1 (rx ry a : nat) | Q2 (rx ry : nat) | Q3 (rx ry py : nat) | Q4 (rx ry py : nat) | Q5 (rx ry py : nat)
| QS (ry : nat) (f : fstate)
(* compress(x); compress(y) *)
| X1 (f : fstate) | X2 (f : fstate)
(* kout_sampling.h:18-37 link: p1; p2; Parents[high]; the CAS; Parents[high]; its parent; Parents[low] *)
| K0 | K1 (p1 : nat) | K2 (h l : nat) | K3 (h l : nat) | K4 (h l : nat) | K5 (h l t : nat) | K6 (h l p1 : nat)
(* kout_sampling.h:80-87 compression of u = x: the accesses of
   while (Parents[u] != Parents[Parents[u]]) Parents[u] = Parents[Parents[u]] *)
| Z0 | Z1 (a : nat) | Z2 (a t : nat) | Z3 | Z4 (t : nat) | Z5 (w : nat)
| Done | Fault.

Definition taddr (x y : nat) (s : tstate) : nat :=
  match s with
  | U1 _ f | U2 _ f | D1 _ f | D2 _ f | RS _ f | QS _ f | X1 f | X2 f => faddr f
  | U3 u v | U4 u v => Nat.max u v
  | WE a => a
  | E0 u _ | E1 u _ | E2 u _ | E4 u _ _ _ => u
  | E3 _ _ z => z
  | D3 u _ | D4 u _ | D5 u _ | D6 u _ => u
  | R0 rx _ | R2 rx _ | R4 rx _ | R5 rx _ | R7 rx _ _ | R8 rx _ _ | R9 rx _ _ | R10 rx _ => rx
  | R1 _ ry _ | R3 _ ry _ | R6 _ ry => ry
  | Q0 rx _ | Q3 rx _ _ | Q4 rx _ _ | Q5 rx _ _ => rx
  | Q1 _ ry _ | Q2 _ ry => ry
  | K0 => x | K1 _ => y
  | K2 h _ | K3 h _ | K4 h _ => h
  | K5 _ _ t => t
  | K6 _ l _ => l
  | Z0 | Z1 _ | Z3 | Z5 _ => x
  | Z2 _ t | Z4 t => t
  | Done | Fault => 0
  end.
Definition is_done (s : tstate) : bool := match s with Done | Fault => true | _ => false end.

(* while (u != v) { if (v > u) swap(u, v); *)
Definition early (u v : nat) : tstate := if u =? v then Done else if u <? v then E0 v u else E0 u v.
(* while (p1 != p2) { high, low *)
Definition klink (p1 p2 : nat) : tstate := if p1 =? p2 then Done else K2 (Nat.max p1 p2) (Nat.min p1 p2).
Definition start (o : unite_option) (x y : nat) : tstate :=
  match o with
  | OUnite f => U1 y (find f x)
  | OEarly => early x y
  | OND f => D1 y (find f x)
  | ORemLock _ _ => R0 x y
  | ORemCAS _ _ => Q0 x y
  | OLink => K0
  | OCompress => Z0
  end.
(* compress(x), compress(y), if there is one *)
Definition compress (f : find_option) (x : nat) : tstate := X1 (find f x).
(* what follows Edges[a] = ..: UniteRemCAS compresses unless find_option is find_naive *)
Definition after_link (o : unite_option) (x : nat) : tstate :=
  match o with ORemCAS FNaive _ => Done | ORemCAS f _ => compress f x | _ => Done end.
(* the options of the call (only those of the strategy in use matter) *)
Definition find_of (o : unite_option) : find_option :=
  match o with OUnite f | OND f | ORemLock f _ | ORemCAS f _ => f | _ => FNaive end.
Definition splice_of (o : unite_option) : splice_option :=
  match o with ORemLock _ s | ORemCAS _ s => s | _ => SplitOne end.

(* one step of call t *)
Definition tstep (n : nat) (o : unite_option) (t : nat) (e : nat * nat) (m : mem) (s : tstate) : mem * tstate :=
  let '(x, y) := e in
  if negb (is_done s) && (n <=? taddr x y s) then (m, Fault) else
  let f0 := find (find_of o) in
  let sp := splice (splice_of o) in
  match s with
  | U1 v f => let '(m', z) := fstep m f in (m', match z with inl f' => U1 v f' | inr u => U2 u (f0 v) end)
  | U2 u f => let '(m', z) := fstep m f in
              (m', match z with inl f' => U2 u f' | inr v => if u =? v then Done else U3 u v end)
  | U3 u v => let a := Nat.max u v in (m, if pa m a =? a then U4 u v else U1 v (f0 u))
  | U4 u v => let a := Nat.max u v in (cas m a a (Nat.min u v), if pa m a =? a then WE a else U1 v (f0 u))
  | WE a => (set_ed m a (x, y), after_link o x)
  | E0 u v => (m, if pa m u =? u then E1 u v else E2 u v)
  | E1 u v => (cas m u u v, if pa m u =? u then WE u else E2 u v)
  | E2 u v => (m, E3 u v (pa m u))
  | E3 u v z => (m, E4 u v z (pa m z))
  | E4 u v z w => (cas m u z w, early w v)
  | D1 v f => let '(m', z) := fstep m f in (m', match z with inl f' => D1 v f' | inr u => D2 u (f0 v) end)
  | D2 u f => let '(m', z) := fstep m f in
              (m', match z with
                   | inl f' => D2 u f'
                   | inr v => if u =? v then Done else D3 (Nat.max u v) (Nat.min u v)
                   end)
  | D3 u v => (m, match aux m u with None => D4 u v | Some _ => D1 v (f0 u) end)
  | D4 u v => match aux m u with None => (set_aux m u (Some t), D5 u v) | Some _ => (m, D1 v (f0 u)) end
  | D5 u v => (set_ed m u (x, y), D6 u v)
  | D6 u v => (set_pa m u v, Done)
  | R0 rx ry => (m, R1 rx ry (pa m rx))
  | R1 rx ry a => (m, if a =? pa m ry then compress (find_of o) x else R2 rx ry)
  | R2 rx ry => (m, R3 rx ry (pa m rx))
  | R3 rx ry c => (m, if c <? pa m ry then R4 ry rx else R4 rx ry)
  | R4 rx ry => (m, if rx =? pa m rx then R5 rx ry else RS ry (sp rx))
  | R5 rx ry => match aux m rx with None => (set_aux m rx (Some t), R6 rx ry) | Some _ => (m, R5 rx ry) end
  | R6 rx ry => (m, R7 rx ry (pa m ry))
  | R7 rx ry py => (m, if (rx =? pa m rx) && (py <? rx) then R8 rx ry py else R10 rx ry)
  | R8 rx ry py => (set_ed m rx (x, y), R9 rx ry py)
  | R9 rx ry py => (set_pa m rx py, R10 rx ry)
  | R10 rx ry => (set_aux m rx None, R0 rx ry)
  | RS ry f => let '(m', z) := fstep m f in (m', match z with inl f' => RS ry f' | inr rx => R0 rx ry end)
  | Q0 rx ry => (m, Q1 rx ry (pa m rx))
  | Q1 rx ry a => (m, if a =? pa m ry then Done else Q2 rx ry)
  | Q2 rx ry => (m, Q3 rx ry (pa m ry))
  | Q3 rx ry py => (m, if pa m rx <? py then Q4 ry rx py else Q4 rx ry py)      (* p_ry is not swapped *)
  | Q4 rx ry py => (m, if rx =? pa m rx then Q5 rx ry py else QS ry (sp rx))
  | Q5 rx ry py => (cas m rx rx py, if pa m rx =? rx then WE rx else QS ry (sp rx))
  | QS ry f => let '(m', z) := fstep m f in (m', match z with inl f' => QS ry f' | inr rx => Q0 rx ry end)
  | X1 f => let '(m', z) := fstep m f in (m', match z with inl f' => X1 f' | inr _ => X2 (f0 y) end)
  | X2 f => let '(m', z) := fstep m f in (m', match z with inl f' => X2 f' | inr _ => Done end)
  | K0 => (m, K1 (pa m x))
  | K1 p1 => (m, klink p1 (pa m y))
  | K2 h l => (m, if pa m h =? l then Done else if pa m h =? h then K3 h l else K4 h l)
  | K3 h l => (cas m h h l, if pa m h =? h then WE h else K4 h l)
  | K4 h l => (m, K5 h l (pa m h))
  | K5 h l t' => (m, K6 h l (pa m t'))
  | K6 h l p1 => (m, klink p1 (pa m l))
  | Z0 => (m, Z1 (pa m x))
  | Z1 a => (m, Z2 a (pa m x))
  | Z2 a t' => (m, if a =? pa m t' then Done else Z3)
  | Z3 => (m, Z4 (pa m x))
  | Z4 t' => (m, Z5 (pa m t'))
  | Z5 w => (set_pa m x w, Z0)
  | Done => (m, Done)
  | Fault => (m, Fault)
  end.

Definition sys := (mem * list (nat * nat * tstate))%type.
Definition sys_step (n : nat) (o : unite_option) (s : sys) (t : nat) : sys :=
  match nth_error (snd s) t with
  | Some (e, st) => let '(m', st') := tstep n o t e (fst s) st in (m', lset (snd s) t (e, st'))
  | None => s
  end.
Definition exec (n : nat) (o : unite_option) (sched : list nat) (s : sys) : sys := fold_left (sys_step n o) sched s.
(* a parallel_for of calls with option o; the hooks and locks are new *)
Definition phase (n : nat) (o : unite_option) (es : list (nat * nat)) (sched : list nat) (P : nat -> nat)
  (E : nat -> option (nat * nat)) : sys :=
  exec n o sched (mkM P E (fun _ => None), map (fun e => (e, start o (fst e) (snd e))) es).
Definition all_done (s : sys) : Prop := forall e st, In (e, st) (snd s) -> st = Done.

(* SpanningForest.h:60-97: v < u without sampling; with sampling the vertices whose label is the
   frequent one are skipped *)
Definition halved (G : list (nat * nat)) : list (nat * nat) := filter (fun e => snd e <? fst e) G.
Definition skipping (P : nat -> nat) (freq : nat) (G : list (nat * nat)) : list (nat * nat) :=
  filter (fun e => negb (P (fst e) =? freq)) G.
(* kout_sampling.h:39-91 initial_spanning_forest.  A round links one chosen neighbour of every
   vertex with enough of them, then compresses; es: the pairs of the round (the choice is random:
   any), sl and sc: the schedules of its two loops.  None: the schedules end before all calls have
   returned *)
Definition done_all (s : sys) : bool := forallb (fun x => match snd x with Done => true | _ => false end) (snd s).
Definition kround (n : nat) (st : option ((nat -> nat) * (nat -> option (nat * nat)))) (r : list (nat * nat) * list nat * list nat) :=
  match st with
  | None => None
  | Some (P, E) =>
      let '(es, sl, sc) := r in
      let s1 := phase n OLink es sl P E in
      let s2 := phase n OCompress (map (fun u => (u, u)) (seq 0 n)) sc (pa (fst s1)) (ed (fst s1)) in
      if done_all s1 && done_all s2 then Some (pa (fst s2), ed (fst s2)) else None
  end.
Definition kout (n : nat) (rounds : list (list (nat * nat) * list nat * list nat)) :=
  fold_left (kround n) rounds (Some (fun i => i, fun _ => None)).
(* the entries of Edges other than empty_edge *)
Definition edges_of (n : nat) (E : nat -> option (nat * nat)) : list (nat * nat) :=
  flat_map (fun i => match E i with Some e => [e] | None => [] end) (seq 0 n).
(* Framework/bfs_sampling.h:33-58 BFS_ComponentLabel: R are the vertices reached from src.  Every
   one of them gets the parent src and, if it is not src, the edge (i, src) *)
Definition bfs_parents (src : nat) (R : list nat) (i : nat) : nat := if existsb (Nat.eqb i) R then src else i.
Definition bfs_edges (src : nat) (R : list nat) (i : nat) : option (nat * nat) :=
  if bfs_parents src R i =? i then None else Some (i, bfs_parents src R i).
