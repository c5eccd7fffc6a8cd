(* Model of benchmarks/ApproximateDensestSubgraph.

   Densities are doubles in the code; here they are exact fractions (numerator, denominator)
   compared by cross multiplication, and epsilon is the fraction p / q. *)
From Coq Require Import Permutation.
From Verif Require Import Base EMModel KCModel.

(* a < b and a <= b for fractions with positive denominators *)
Definition frac_lt (a b : nat * nat) : bool := fst a * snd b <? fst b * snd a.

Section DN.
  Variable n : nat.
  Variable outn : nat -> list nat.
  Variable null : nat.       (* UINT_E_MAX *)

  (* edge_map_reduce.h:104-235 edgeMapCount with cond_f = alive: the (vertex, count) pairs handed to
     apply_f.  Sparse (104-129): the neighbours of the frontier L that are alive, counted by the
     histogram (C51).  Dense with no_output (132-166): every vertex that is alive counts its
     neighbours in the frontier.  The calls come in any order. *)
  Inductive ngh_counts (alive : nat -> bool) (L : list nat) : list (nat * nat) -> Prop :=
  | ngh_sparse : forall res, counted (filter alive (flat_map outn L)) res -> ngh_counts alive L res
  | ngh_dense : forall res,
      Permutation res (filter (fun p => 0 <? snd p)
                         (map (fun v => (v, length (filter (fun w => existsb (Nat.eqb w) L) (outn v)))) (filter alive (seq 0 n)))) ->
      ngh_counts alive L res.
  (* DensestSubgraph.h:87-92, 146-151 apply_f: D[v] -= edgesRemoved, in uintE *)
  Definition dn_apply (D : nat -> nat) (p : nat * nat) : nat -> nat := fset D (fst p) (usub null (D (fst p)) (snd p)).

  (* ApproxPeelingBKV12/DensestSubgraph.h: the first round (54-100) and the loop (102-161).  State: the
     vertices remaining, D and max_density.  The first round takes the edge count from G.m, the
     others sum D. *)
  Section Peel.
    Variables p q : nat.     (* epsilon = p / q *)
    Definition dn_drop (rem : list nat) (D : nat -> nat) (v : nat) : bool :=
      D v * q * length rem <=? (q + p) * list_sum (map D rem).
    Inductive dn_loop : nat -> list nat -> (nat -> nat) -> nat * nat -> Prop :=
    | dn_start : dn_loop 0 (seq 0 n) (fun v => length (outn v)) (0, 1)
    | dn_round : forall k rem D best res, dn_loop k rem D best -> rem <> [] ->
        let cur := (list_sum (map D rem), length rem) in
        let kept := filter (fun v => negb (dn_drop rem D v)) rem in
        ngh_counts (fun v => existsb (Nat.eqb v) kept) (filter (dn_drop rem D) rem) res ->
        dn_loop (S k) kept (fold_left dn_apply res D) (if frac_lt best cur then cur else best).
    Definition dn_returns (best : nat * nat) : Prop := exists k D, dn_loop k [] D best.
  End Peel.

  (* GreedyCharikar/DensestSubgraph.h:47-67 and GreedyPlusPlus/DensestSubgraph.h:58-75: the
     tables vtx_to_position and density_above, by parallel stores over zero-initialised
     sequences; stores to one cell take effect in any order *)
  Definition stores (l : list (nat * nat)) (f : nat -> nat) : nat -> nat := fold_left (fun f c => fset f (fst c) (snd c)) l f.
  Inductive dens_above (order : list nat) : (nat -> nat) -> Prop :=
  | dens_intro : forall s1 s2,
      Permutation s1 (map (fun i => (nth i order 0, i)) (seq 0 n)) ->
      let pos := stores s1 (fun _ => 0) in
      Permutation s2 (map (fun u => (pos u, 2 * length (filter (fun v => pos u <? pos v) (outn u)))) (seq 0 n)) ->
      dens_above order (stores s2 (fun _ => 0)).
  (* GreedyCharikar:69-83: exclusive scan of the reversed sequence; None: total_edges != m, exit(0).
     0 < n *)
  Definition above_total (a : nat -> nat) : nat := list_sum (map a (seq 0 n)).
  Definition scanned (a : nat -> nat) (i : nat) : nat := list_sum (map a (seq (S i) (n - S i))).
  Definition max_frac (l : list (nat * nat)) : nat * nat :=
    fold_right (fun c b => if frac_lt c b then b else c) (0, 1) l.
  Definition greedy_result (m : nat) (a : nat -> nat) : option (nat * nat) :=
    if above_total a =? m then Some (max_frac (map (fun i => (scanned a i, n - i)) (seq 0 n))) else None.
  Definition num_edges : nat := list_sum (map (fun v => length (outn v)) (seq 0 n)).     (* G.m *)
  (* GreedyCharikar:34-86, with the bucket count o + 1 of DegeneracyOrder; None: exit(0) *)
  Definition charikar_returns (o : nat) (r : option (nat * nat)) : Prop :=
    exists order a, degeneracy_returns n outn o null order /\ dens_above order a /\ r = greedy_result num_edges a.
  (* GreedyPlusPlus:35-99: the first iteration of the loop; None: exit(0) *)
  Definition plus_plus_returns (o : nat) (r : option (nat * nat)) : Prop :=
    exists order a, degeneracy_load_returns n outn o null order /\ dens_above order a /\ r = greedy_result num_edges a.
End DN.
