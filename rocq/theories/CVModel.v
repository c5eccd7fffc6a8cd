(* Model of benchmarks/ApproximateSetCover/MANISBPT11/ApproximateSetCover.h on the bucketing
   structure of BKModel.

   Every vertex is a set, whose elements are its out-neighbours.  null is UINT_E_MAX and cov is
   the constant COVERED.  Arrays are functions.  The three functions computed with floating
   point (log, pow, floor, ceil) are parameters:
     bkt d  is (uintE)floor(x * log(d))                       (72-74),
     thr b  is ceil(pow(1.01, b))                             (112),
     low b  is max((size_t)ceil(pow(1.01, b - 1)), 1)         (141-142).
   Counters, timers and printing are left out. *)
From Coq Require Import Permutation.
From Verif Require Import Base BKModel BKSpec.

Section CV.
  Variables n o null cov : nat.       (* o: num_buckets - 1 *)
  Variables bkt thr low : nat -> nat.
  Variable nbr : nat -> list nat.     (* the out-neighbours in the input graph *)

  (* 72-74 get_bucket_clamped *)
  Definition clamp (deg : nat) : nat := if deg =? 0 then null else bkt deg.
  (* 75-77; the entries of D beyond n do not exist, here they hold null *)
  Definition D0 (v : nat) : nat := if v <? n then clamp (length (nbr v)) else null.

  Record cst := { c_D : nat -> nat;            (* D *)
                  c_nb : nat -> list nat;      (* the neighbour lists still in G *)
                  c_el : nat -> nat;           (* Elms *)
                  c_perm : nat -> nat;         (* perm *)
                  c_cover : list nat;          (* cover *)
                  c_bk : bst }.                (* b *)
  (* 70-86; perm starts with arbitrary contents *)
  Definition start (perm0 : nat -> nat) : cst :=
    {| c_D := D0; c_nb := nbr; c_el := fun _ => null; c_perm := perm0; c_cover := [];
       c_bk := make false o null n D0 |}.

  (* 101-107 srcPack(G, active, pack_predicate, pack_edges): interface.h:70-73 and packEdges,
     graph_mutation.h:383-438; every active vertex packs its own list (C04, C06, C07) *)
  Definition packed (L : list nat) (el : nat -> nat) (nb : nat -> list nat) (v : nat) : list nat :=
    if mem v L then filter (fun x => negb (el x =? cov)) (nb v) else nb v.
  (* 104-108 vertexMap(packed_vtxs, pack_apply) *)
  Definition degs (L : list nat) (nb1 : nat -> list nat) (D : nat -> nat) (v : nat) : nat :=
    if mem v L then clamp (length (nb1 v)) else D v.
  (* 112-117, 121: vertexFilter(packed_vtxs, above_threshold, no_dense) *)
  Definition still (b : nat) (L : list nat) (nb1 : nat -> list nat) : list nat :=
    filter (fun v => thr b <=? length (nb1 v)) L.
  (* 122-127: P is the random permutation *)
  Definition perms (A P : list nat) (perm : nat -> nat) : nat -> nat :=
    fold_left (fun f vp => fset f (fst vp) (snd vp)) (combine A P) perm.
  (* the edges edgeMap visits: the remaining out-edges of A (C12); with no_output | dense_forward
     both traversals push, and the order is arbitrary *)
  Definition out_edges (A : list nat) (nb1 : nat -> list nat) : list (nat * nat) :=
    flat_map (fun u => map (fun v => (u, v)) (nb1 u)) A.
  (* 38-52 Visit_Elms: cond, then write_min *)
  Definition acquire (perm : nat -> nat) (el : nat -> nat) (e : nat * nat) : nat -> nat :=
    if el (snd e) =? cov then el else fset el (snd e) (Nat.min (el (snd e)) (perm (fst e))).
  (* 137-138: the visits in the order es *)
  Definition acquired (perm : nat -> nat) (es : list (nat * nat)) (el : nat -> nat) : nat -> nat :=
    fold_left (acquire perm) es el.
  (* 143-145, 149 srcCount(G, still_active, won_ngh_f): graph_mutation.h:440-468 *)
  Definition num_won (perm el : nat -> nat) (nb1 : nat -> list nat) (u : nat) : nat :=
    length (filter (fun v => el v =? perm u) (nb1 u)).
  (* 151-157 inCover *)
  Definition in_cover (b : nat) (perm el : nat -> nat) (nb1 : nat -> list nat) (A : list nat) : list nat :=
    filter (fun v => low b <=? num_won perm el nb1 v) A.
  (* 146-150 vertexMap(activeAndCts, threshold_f) *)
  Definition joined (C : list nat) (D : nat -> nat) (v : nat) : nat := if mem v C then null else D v.
  (* 166-174 reset_f *)
  Definition reset (D perm el : nat -> nat) (e : nat * nat) : nat -> nat :=
    if el (snd e) =? perm (fst e) then fset el (snd e) (if D (fst e) =? null then cov else null) else el.
  (* 175-176: only the owner of an element changes it, so that the visits of different edges
     to an element do not disturb each other *)
  Definition reset_all (D perm : nat -> nat) (es : list (nat * nat)) (el : nat -> nat) : nat -> nat :=
    fold_left (reset D perm) es el.
  (* 181-191 *)
  Definition rebucket (D : nat -> nat) (L : list nat) (s : bst) : bst :=
    update_seq (map (fun v => (v, if D v =? null then None else get_bucket1 false o s (D v))) L) s.

  (* 99-194, one round on the bucket b with the identifiers L; P, es2 and es4 are the choices *)
  Definition round_with (b : nat) (L : list nat) (bk' : bst) (P : list nat) (es2 es4 : list (nat * nat)) (s : cst) : cst :=
    let nb1 := packed L (c_el s) (c_nb s) in
    let D1 := degs L nb1 (c_D s) in
    let perm := perms (still b L nb1) P (c_perm s) in
    let el2 := acquired perm es2 (c_el s) in
    let C := in_cover b perm el2 nb1 (still b L nb1) in
    let D2 := joined C D1 in
    {| c_D := D2; c_nb := nb1; c_el := reset_all D2 perm es4 el2; c_perm := perm;
       c_cover := c_cover s ++ C; c_bk := rebucket D2 L bk' |}.
  Inductive cv_round : cst -> cst -> Prop :=
  | cv_round_intro s fuel b L bk' P es2 es4 :
      next_bucket false o fuel (c_D s) (c_bk s) = Ret (Some (b, L)) bk' ->
      let nb1 := packed L (c_el s) (c_nb s) in
      let A := still b L nb1 in
      Permutation P (seq 0 (length A)) ->
      Permutation es2 (out_edges A nb1) -> Permutation es4 (out_edges A nb1) ->
      cv_round s (round_with b L bk' P es2 es4 s).
  (* 89-195: the states at the head of the loop after k rounds *)
  Inductive cv_loop (perm0 : nat -> nat) : nat -> cst -> Prop :=
  | cv_start : cv_loop perm0 0 (start perm0)
  | cv_next k s s' : cv_loop perm0 k s -> cv_round s s' -> cv_loop perm0 (S k) s'.
  (* 94-96, 209 *)
  Definition cv_returns (perm0 : nat -> nat) (cover : list nat) : Prop :=
    exists k s fuel bk', cv_loop perm0 k s /\ next_bucket false o fuel (c_D s) (c_bk s) = Ret None bk' /\
      cover = c_cover s.
End CV.

(* the three functions, computed exactly *)
From Coq Require Import ZArith.
(* the largest b with 1.01^b <= d *)
Fixpoint exact_search (fuel : nat) (d : Z) (b : nat) (p q : Z) : nat :=
  match fuel with
  | 0 => b
  | S fuel => if (101 * p <=? d * (100 * q))%Z then exact_search fuel d (S b) (101 * p) (100 * q) else b
  end.
Definition exact_bkt (d : nat) : nat := exact_search (100 * d) (Z.of_nat d) 0 1 1.
(* the least integer that is at least 1.01^b *)
Definition exact_thr (b : nat) : nat :=
  Z.to_nat ((101 ^ Z.of_nat b + 100 ^ Z.of_nat b - 1) / 100 ^ Z.of_nat b).
(* in bucket 0 the argument b - 1 wraps around to 2^64 - 1, pow gives infinity, and converting
   infinity to size_t is undefined; here the result is 0, as on x86-64 without AVX-512 *)
Definition exact_low (b : nat) : nat :=
  match b with 0 => Nat.max 0 1 | S b => Nat.max (exact_thr b) 1 end.
