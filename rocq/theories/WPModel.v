(* Model of benchmarks/SSWidestPath/JulienneDBS17/SSWidestPath.h on the bucketing structure of
   BKModel.

   As in WBModel every call of updateAtomic is a thread of its own and every access to a shared
   array is one step.  outw v are the out-edges of v with their weights: naturals for
   SSWidestPath, integers for SSWidestPathBF (an unweighted graph is one in which all weights
   are 1: 145, 226). *)
From Coq Require Import ZArith Permutation.
From Verif Require Import Base BKModel WBModel.

Section WP.
  Variable n : nat.
  Variable outw : nat -> list (nat * nat).
  Variable src : nat.
  Variable o : nat.           (* num_buckets - 1 *)
  Variable half : nat.        (* 32 TOP_BIT, 2^31; words are below 2 * half *)

  (* INT_E_MAX = VAL_MASK *)
  Definition wp_inf : nat := half - 1.
  (* 86-94: max_weight, by write_max on a variable that starts with 0 *)
  Definition max_weight : nat := fold_right Nat.max 0 (map snd (flat_map outw (seq 0 n))).

  (* 54-70 updateAtomic, with write_max (bridge.h:330-338) inlined *)
  Inductive ppc :=
  | PStart                             (* 56 *)
  | PSource (oval : nat)               (* 58 *)
  | PCas (oval nw : nat)               (* 59-62 *)
  | PLoad (nw : nat) | PMax (nw c : nat)   (* 65 *)
  | PDone (r : option nat).
  Definition pact (m : nat -> nat) (c : call) (p : ppc) : (nat -> nat) * ppc :=
    match p with
    | PStart => (m, PSource (m (c_dst c)))
    | PSource oval =>
        let nw := Nat.min (flagged half (m (c_src c))) (flagged half (c_wgh c)) in
        (m, if flagged half oval <? nw then if oval <? half then PCas oval nw else PLoad nw else PDone None)
    | PCas oval nw => if m (c_dst c) =? oval then (fset m (c_dst c) nw, PDone (Some oval)) else (m, PLoad nw)
    | PLoad nw => (m, if m (c_dst c) <? nw then PMax nw (m (c_dst c)) else PDone None)
    | PMax nw v => if m (c_dst c) =? v then (fset m (c_dst c) nw, PDone None) else (m, PLoad nw)
    | PDone r => (m, PDone r)
    end.
  Definition presult (p : ppc) : option (option nat) := match p with PDone r => Some r | _ => None end.

  (* 107-109 get_bkt *)
  Definition wp_bkt (x : nat) : nat := max_weight - x + 1.
  (* 110-119 get_ring *)
  Definition wp_ring (D : nat -> nat) (v : nat) : nat :=
    if v <? n then if D v =? 0 then null half else if D v =? wp_inf then 0 else wp_bkt (D v) else null half.
  (* 124-132 apply_f *)
  Definition wp_apply (s : bst) (X : (nat -> nat) * list (nat * option nat)) (p : nat * nat) : (nat -> nat) * list (nat * option nat) :=
    let '(D, m) := X in let '(v, old) := p in
    let nw := masked half (D v) in
    (fset D v nw, m ++ [(v, get_bucket2 true o (null half) s (wp_bkt old) (wp_bkt nw))]).
  (* 103-105 *)
  Definition wp_init (v : nat) : nat := if v =? src then wp_inf else 0.

  (* 121, 138-159: the loop, r rounds done *)
  Inductive wp_loop : nat -> (nat -> nat) -> bst -> Prop :=
  | wp_start : wp_loop 0 wp_init (make true o (null half) n (wp_ring wp_init))
  | wp_round : forall r D s fuel k L s' sched res, wp_loop r D s ->
      next_bucket true o fuel (wp_ring D) s = Ret (Some (k, L)) s' ->
      let st := exec pact (calls outw L) sched (D, repeat PStart (length (calls outw L))) in
      all_done presult (snd st) ->
      Permutation res (outputs presult (calls outw L) (snd st)) ->
      let X := fold_left (wp_apply s') res (fst st, []) in
      wp_loop (S r) (fst X) (update_seq (snd X) s').
  Definition wp_returns (D : nat -> nat) : Prop :=
    exists r s fuel s', wp_loop r D s /\ next_bucket true o fuel (wp_ring D) s = Ret None s'.
End WP.

(* -- SSWidestPathBF ---------------------------------------------------------------------------- *)
(* a call: source, target, weight *)
Notation zcall := (nat * nat * Z)%type.
Definition zcalls (outw : nat -> list (nat * Z)) (L : list nat) : list zcall :=
  flat_map (fun s => map (fun e => (s, fst e, snd e)) (outw s)) L.
Notation bmem := ((nat -> Z) * (nat -> bool))%type.
(* 190-195 updateAtomic (with the flags sparse_blocked | dense_forward the function update is never
   called); the memory: width and Visited *)
Inductive bpc :=
| BStart                               (* 192 *)
| BLoad (nw : Z) | BMax (nw c : Z)     (* 193 write_max *)
| BCas                                 (* 194 *)
| BDone (r : bool).
Definition bact (m : bmem) (c : zcall) (p : bpc) : bmem * bpc :=
  let d := snd (fst c) in
  match p with
  | BStart => (m, BLoad (Z.min (fst m (fst (fst c))) (snd c)))
  | BLoad nw => (m, if (fst m d <? nw)%Z then BMax nw (fst m d) else BDone false)
  | BMax nw v => if (fst m d =? v)%Z then ((fset (fst m) d nw, snd m), BCas) else (m, BLoad nw)
  | BCas => if snd m d then (m, BDone false) else ((fst m, fset (snd m) d true), BDone true)
  | BDone r => (m, BDone r)
  end.
Definition bstep (cs : list zcall) (st : bmem * list bpc) (i : nat) : bmem * list bpc :=
  match nth_error cs i, nth_error (snd st) i with
  | Some c, Some p => let (m', p') := bact (fst st) c p in (m', lset (snd st) i p')
  | _, _ => st
  end.
Definition bexec (cs : list zcall) (sched : list nat) (st : bmem * list bpc) : bmem * list bpc := fold_left (bstep cs) sched st.
Definition bdone (pcs : list bpc) : Prop := Forall (fun p => match p with BDone _ => True | _ => False end) pcs.
Definition bouts (cs : list zcall) (pcs : list bpc) : list nat :=
  flat_map (fun cp => match snd cp with BDone true => [snd (fst (fst cp))] | _ => [] end) (combine cs pcs).
Section WPBF.
  Variable n : nat.
  Variable outw : nat -> list (nat * Z).
  Variable src : nat.
  Variable inf : Z.           (* INT_E_MAX *)

  (* 200-207 SSWidestPath_BF_Vertex_F under vertexMap *)
  Definition cleared (vis : nat -> bool) (F : list nat) : nat -> bool := fun v => vis v && negb (existsb (Nat.eqb v) F).
  (* 210-234: the loop, r rounds done *)
  Inductive wbf_loop : nat -> bmem -> list nat -> Prop :=
  | wbf_start : wbf_loop 0 (fset (fun _ => (-1)%Z) src inf, fun _ => false) [src]
  | wbf_round : forall r m F sched out, wbf_loop r m F -> F <> [] -> r <> n ->
      let st := bexec (zcalls outw F) sched (m, repeat BStart (length (zcalls outw F))) in
      bdone (snd st) -> Permutation out (bouts (zcalls outw F) (snd st)) ->
      wbf_loop (S r) (fst (fst st), cleared (snd (fst st)) out) out.
  (* the widths returned, and whether they were replaced by -(INT_E_MAX / 2) at 221-225 *)
  Definition wbf_returns (D : nat -> Z) (broken : bool) : Prop :=
    exists r m F, wbf_loop r m F /\
      (F = [] /\ D = fst m /\ broken = false \/ F <> [] /\ r = n /\ D = (fun _ => (- (inf / 2))%Z) /\ broken = true).
End WPBF.
