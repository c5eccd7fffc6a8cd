(* Model of the union-find with randomized linking by rank (Jayanti, Tarjan, Boix-Adsera):
     benchmarks/Connectivity/UnionFind/jayanti.h and
     benchmarks/SpanningForest/UnionFind/jayanti.h.
   The two files differ only in the array Edges, which the second one fills; the model has it.
   Memory is sequentially consistent, every step performs one shared access, any call may be
   delayed between two accesses.  An index outside [0, n) is the distinct state Fault. *)
From Verif Require Import Base.

(* jayanti.h:13-44 vdata.  The field rank is one word with the root flag in its top bit; rk and
   rt are the two parts of the word and are read together.  The word holds them exactly while
   the rank is below 2^31 (C76_ranks: the rank is at most the number of vertices).  ed is the
   array Edges, None = empty_edge. *)
Record mem := mkM { rk : nat -> nat; rt : nat -> bool; pa : nat -> nat; ed : nat -> option (nat * nat) }.

(* vdatas[a] = vdata(p, r, b) *)
Definition set_vdata (m : mem) (a p r : nat) (b : bool) : mem :=
  mkM (fset (rk m) a r) (fset (rt m) a b) (fset (pa m) a p) (ed m).
Definition set_edge (m : mem) (a : nat) (e : nat * nat) : mem :=
  mkM (rk m) (rt m) (pa m) (fset (ed m) a (Some e)).
(* the test of the 8-byte compare-and-swap on vdatas[a], expected value vdata(p, r, b) *)
Definition holds (m : mem) (a p r : nat) (b : bool) : bool :=
  (pa m a =? p) && (rk m a =? r) && Bool.eqb (rt m a) b.

(* a call of find that has not returned yet; the constructors are the accesses.
   91-99 find: F0 u reads vdatas[u].is_root(), F1 u reads vdatas[u].get_parent().
   101-137 find_twotry_splitting: F0 u as above, then two rounds (the flag: is it the second?) of
   S1: ud = vdatas[u], the rank; S2: the parent v; S3: vd = vdatas[v], the rank word; S4: the
   parent w (the members are volatile: a copy reads them one after the other); S5: the CAS *)
Inductive fstate :=
| F0 (u : nat) | F1 (u : nat)
| S1 (b : bool) (u : nat) | S2 (b : bool) (u r : nat) | S3 (b : bool) (u r v : nat)
| S4 (b : bool) (u r v : nat) (isr : bool) | S5 (b : bool) (u r v w : nat).

(* the vertex whose vdata is accessed next *)
Definition faddr (f : fstate) : nat :=
  match f with
  | F0 u | F1 u | S1 _ u | S2 _ u _ | S5 _ u _ _ _ => u
  | S3 _ _ _ v | S4 _ _ _ v _ => v
  end.

(* one access of find (two = false) or find_twotry_splitting (two = true); inr: it returned *)
Definition fstep (two : bool) (m : mem) (f : fstate) : mem * (fstate + nat) :=
  match f with
  | F0 u => (m, if rt m u then inr u else inl (if two then S1 false u else F1 u))
  | F1 u => (m, inl (F0 (pa m u)))
  | S1 b u => (m, inl (S2 b u (rk m u)))
  | S2 b u r => (m, inl (S3 b u r (pa m u)))
  | S3 b u r v => (m, inl (S4 b u r v (rt m v)))
  | S4 b u r v isr => (m, if isr then inr v else inl (S5 b u r v (pa m v)))
  | S5 b u r v w =>
      (if holds m u v r false then set_vdata m u w r false else m, inl (if b then F0 v else S1 true u))
  end.

(* a call of unite(x, y) / of find(x) and find(y) for a query / of find(i) for the final labels *)
Inductive tstate :=
(* 139-148 unite: find of the first, the second vertex is still b; find of the second *)
| First (x y b : nat) (f : fstate)
| Second (x y u : nat) (f : fstate)
(* 46-89 link(u, v): the copies ud and vd *)
| L1 (x y u v : nat) | L2 (x y u v ru : nat) (tu : bool) | L3 (x y u v ru : nat) (tu : bool) (pu : nat)
| L4 (x y u v ru : nat) (tu : bool) (pu rv : nat) (tv : bool)
(* the CAS on vdatas[a] from vdata(ep, er, true) to vdata(c, nr, nb) *)
| L5 (x y u v a c ep er nr : nat) (nb : bool)
(* Edges[a] = orig_edge *)
| L6 (x y u v a : nat)
| Query1 (y : nat) (f : fstate) | Query2 (f : fstate)
| Lab (f : fstate)
| Done (r : nat)
| Fault.

Definition taddr (s : tstate) : nat :=
  match s with
  | First _ _ _ f | Second _ _ _ f | Query1 _ f | Query2 f | Lab f => faddr f
  | L1 _ _ u _ | L2 _ _ u _ _ _ => u
  | L3 _ _ _ v _ _ _ | L4 _ _ _ v _ _ _ _ _ => v
  | L5 _ _ _ _ a _ _ _ _ _ | L6 _ _ _ _ a => a
  | Done _ | Fault => 0
  end.
Definition is_done (s : tstate) : bool := match s with Done _ | Fault => true | _ => false end.

(* one step of a call; coin is the random bit r.rand() & 1, used by the step that chooses it *)
Definition tstep (n : nat) (two coin : bool) (m : mem) (s : tstate) : mem * tstate :=
  if negb (is_done s) && (n <=? taddr s) then (m, Fault) else
  match s with
  | First x y b f =>
      let '(m', z) := fstep two m f in
      (m', match z with inl f' => First x y b f' | inr u => Second x y u (F0 b) end)
  | Second x y u f =>
      let '(m', z) := fstep two m f in
      (m', match z with
           | inl f' => Second x y u f'
           | inr v => if u =? v then Done 0 else L1 x y u v           (* while (u != v) *)
           end)
  | L1 x y u v => (m, L2 x y u v (rk m u) (rt m u))
  | L2 x y u v ru tu => (m, L3 x y u v ru tu (pa m u))
  | L3 x y u v ru tu pu => (m, L4 x y u v ru tu pu (rk m v) (rt m v))
  | L4 x y u v ru tu pu rv tv =>
      let pv := pa m v in
      (m, if negb tu || negb tv then First x y v (F0 u)               (* return *)
          else if ru <? rv then L5 x y u v u v pu ru ru false
          else if rv <? ru then L5 x y u v v u pv rv rv false
          else if u <? v then L5 x y u v u v pu ru (ru + 1) coin
          else L5 x y u v v u pv rv (rv + 1) coin)
  | L5 x y u v a c ep er nr nb =>
      if holds m a ep er true
      then (set_vdata m a c nr nb, if nb then First x y v (F0 u) else L6 x y u v a)
      else (m, First x y v (F0 u))
  | L6 x y u v a => (set_edge m a (x, y), First x y v (F0 u))
  | Query1 y f =>
      let '(m', z) := fstep two m f in (m', match z with inl f' => Query1 y f' | inr _ => Query2 (F0 y) end)
  | Query2 f => let '(m', z) := fstep two m f in (m', match z with inl f' => Query2 f' | inr _ => Done 0 end)
  | Lab f => let '(m', z) := fstep two m f in (m', match z with inl f' => Lab f' | inr r => Done r end)
  | Done r => (m, Done r)
  | Fault => (m, Fault)
  end.

Definition sys := (mem * list tstate)%type.
Definition sys_step (n : nat) (two : bool) (s : sys) (c : nat * bool) : sys :=
  match nth_error (snd s) (fst c) with
  | Some th => let '(m', th') := tstep n two (snd c) (fst s) th in (m', lset (snd s) (fst c) th')
  | None => s
  end.
(* a schedule: which call takes the next step, and the random bit it gets *)
Definition exec (n : nat) (two : bool) (sched : list (nat * bool)) (s : sys) : sys :=
  fold_left (sys_step n two) sched s.

(* 220-233 process_batch (insertions and queries), 216 parents[i] = find(i, vdatas) *)
Inductive job := Insert (u v : nat) | Query (u v : nat) | Label (i : nat).
Definition start (j : job) : tstate :=
  match j with
  | Insert u v => First u v v (F0 u)
  | Query u v => Query1 v (F0 u)
  | Label i => Lab (F0 i)
  end.
(* 158-163 initialize; E0 are the edges that the sampling has put into Edges *)
Definition initialize (P0 : nat -> nat) (E0 : nat -> option (nat * nat)) : mem :=
  mkM (fun _ => 1) (fun i => i =? P0 i) P0 E0.
Definition init (m : mem) (js : list job) : sys := (m, map start js).

(* the vertex find goes to from x *)
Definition up (m : mem) (x : nat) : nat := if rt m x then x else pa m x.
Definition returned (s : sys) (t r : nat) : Prop := nth_error (snd s) t = Some (Done r).
Definition all_returned (s : sys) (k : nat) : Prop := forall t, t < k -> exists r, returned s t r.

(* the calls of unite: 183-206 without sampling, u < v; 188-202 with sampling, the vertices
   whose label is freq are skipped *)
Definition unites (G : list (nat * nat)) : list job :=
  map (fun e => Insert (fst e) (snd e)) (filter (fun e => fst e <? snd e) G).
Definition unites_sampled (P0 : nat -> nat) (freq : nat) (G : list (nat * nat)) : list job :=
  map (fun e => Insert (fst e) (snd e)) (filter (fun e => negb (P0 (fst e) =? freq)) G).
Definition labels_pass (n : nat) : list job := map Label (seq 0 n).
(* parents after the pass: call i has returned parents[i] *)
Definition label_of (s : sys) (i : nat) : nat :=
  match nth_error (snd s) i with Some (Done r) => r | _ => i end.
(* the entries of Edges other than empty_edge *)
Definition edges_of (n : nat) (m : mem) : list (nat * nat) :=
  flat_map (fun i => match ed m i with Some e => [e] | None => [] end) (seq 0 n).
