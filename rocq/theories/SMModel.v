(* Exact similarities of adjacent vertices: benchmarks/SCAN/IndexBased/intersect.h and
   similarity_measure.h, on uncompressed graphs.

   W = the type of weights and prod w w' = what a pair of weights adds to a count: 1 for unweighted graphs
   (W = unit: ct++ and counters[..]++), the product for integer weights (kWeightFactor = 1).  Floating
   point weights are not modelled.  The sum that an intersection returns has type Weight (intersect.h:23-26):
   it and its products are assumed not to overflow that type.  A counter is a uintE: additions are modulo M.  parlay::binary_search
   is bsearch of ISModel.  Loops have fuel; None = out of fuel or an access outside an array. *)
From Verif Require Import Base ListUtil GBModel SFModel ISModel SIModel.
From Coq Require Import ZArith Permutation.
Local Open Scope nat_scope.

Section Intersect.
  Variable W : Type.
  Variable prod : W -> W -> Z.
  (* a call f(c, a_to_c_index, b_to_c_index, a_to_c_weight, b_to_c_weight) *)
  Definition call : Type := nat * nat * nat * W * W.

  (* intersect.h:44-90 seq_merge_full *)
  Fixpoint full_loop (A B : list (nat * W)) (oA oB fuel i j : nat) (ct : Z) (calls : list call) : option (Z * list call) :=
    if (i <? length A) && (j <? length B) then
      match fuel with
      | 0 => None
      | S fuel =>
          match nth_error A i, nth_error B j with
          | Some (a, wa), Some (b, wb) =>
              if a =? b then full_loop A B oA oB fuel (S i) (S j) (ct + prod wa wb)%Z (calls ++ [(a, oA + i, oB + j, wa, wb)])
              else if a <? b then full_loop A B oA oB fuel (S i) j ct calls
              else full_loop A B oA oB fuel i (S j) ct calls
          | _, _ => None
          end
      end
    else Some (ct, calls).
  Definition seq_merge_full (A B : list (nat * W)) (offset_A offset_B : nat) (swapped : bool) : option (Z * list call) :=
    let unswapped_A := if swapped then B else A in
    let unswapped_B := if swapped then A else B in
    full_loop unswapped_A unswapped_B (if swapped then offset_B else offset_A) (if swapped then offset_A else offset_B)
              (length A + length B) 0 0 0%Z [].

  (* intersect.h:92-133 seq_merge: the elements of A from index i on *)
  Fixpoint sm_loop (B : list (nat * W)) (oA oB : nat) (swapped : bool) (i : nat) (As : list (nat * W)) (ct : Z) (calls : list call) : option (Z * list call) :=
    match As with
    | [] => Some (ct, calls)
    | (a, wa) :: As' =>
        let mB := bsearch (map fst B) a in
        if mB <? length B then
          match nth_error B mB with
          | None => None
          | Some (b, wb) =>
              if a =? b then
                sm_loop B oA oB swapped (S i) As' (ct + prod wa wb)%Z
                        (calls ++ [if swapped then (a, oB + mB, oA + i, wb, wa) else (a, oA + i, oB + mB, wa, wb)])
              else sm_loop B oA oB swapped (S i) As' ct calls
          end
        else sm_loop B oA oB swapped (S i) As' ct calls
    end.
  Definition index_merge_seq (A B : list (nat * W)) (oA oB : nat) (swapped : bool) := sm_loop B oA oB swapped 0 A 0%Z [].

  (* intersect.h:135-182 merge, for any thresholds (lines 20-21: 32 and 2048).  The two halves run in
     parallel; the order of the calls does not matter, see all_adds *)
  Section Merge.
    Variables bs_merge_base seq_merge_thresh : nat.
    Fixpoint index_merge (fuel : nat) (A B : list (nat * W)) (oA oB : nat) (swapped : bool) : option (Z * list call) :=
      match fuel with
      | 0 => None
      | S fuel =>
          let nA := length A in
          let nB := length B in
          if nA + nB <? seq_merge_thresh then seq_merge_full A B oA oB swapped
          else if nB <? nA then index_merge fuel B A oB oA (negb swapped)
          else if nA <? bs_merge_base then index_merge_seq A B oA oB swapped
          else
            let mA := nA / 2 in
            match nth_error A mA with
            | None => None
            | Some (pivot, _) =>
                let mB := bsearch (map fst B) pivot in
                match index_merge fuel (firstn mA A) (firstn mB B) oA oB swapped,
                      index_merge fuel (skipn mA A) (skipn mB B) (oA + mA) (oB + mB) swapped with
                | Some (m_left, cl), Some (m_right, cr) => Some ((m_left + m_right)%Z, cl ++ cr)
                | _, _ => None
                end
            end
      end.
    (* intersect.h:213-237 intersect_f_with_index_par *)
    Definition intersect_with_index (A B : list (nat * W)) : option (Z * list call) :=
      index_merge (2 * (length A + length B) + 2) A B 0 0 false.
  End Merge.
End Intersect.

(* map_with_index: the neighbours with their positions *)
Definition indexed {A} (l : list A) : list (nat * A) := combine (seq 0 (length l)) l.
(* the atomic additions counters[i] += x, modulo M, in the given order *)
Fixpoint run_adds (M : Z) (adds : list (nat * Z)) (c : list Z) : option (list Z) :=
  match adds with
  | [] => Some c
  | (i, x) :: adds' => if i <? length c then run_adds M adds' (lset c i ((nth i c 0 + x) mod M)%Z) else None
  end.

Section Similarities.
  Variables bs_merge_base seq_merge_thresh : nat.
  Variable M : Z.
  Variable W : Type.
  Variable prod : W -> W -> Z.
  Variable measure : nat -> nat -> W -> Z -> Z.       (* of v, u, the weight of {v, u} and its counter *)
  Variable G DG : csr W.

  (* similarity_measure.h:178-190 VertexOutOffsets *)
  Definition counter_offset (v : nat) : nat := sum_before (fun i => length (neighbors DG i)) v.
  (* similarity_measure.h:238-257 and 797-822, vertex_id = u: the additions of one call of intersect *)
  Definition edge_adds (u : nat) (x : nat * (nat * W)) : option (list (nat * Z)) :=
    let '(index, (v, weight)) := x in
    match intersect_with_index prod bs_merge_base seq_merge_thresh (neighbors DG u) (neighbors DG v) with
    | None => None
    | Some (ct, calls) =>
        Some (flat_map (fun c : call W => let '(_, u_index, v_index, weight_1, weight_2) := c in
                          [(counter_offset u + u_index, prod weight weight_2); (counter_offset v + v_index, prod weight weight_1)]) calls
              ++ [(counter_offset u + index, ct)])
    end.
  Definition all_adds : option (list (nat * Z)) :=
    option_map (@concat _) (all_some (flat_map (fun u => map (edge_adds u) (indexed (neighbors DG u))) (seq 0 (gn G)))).
  (* similarity_measure.h:259-282 and 836-862: the two stores for one directed edge *)
  Definition sim_stores (counters : list Z) (v : nat) (x : nat * (nat * W)) : option (list (nat * esim)) :=
    let '(index, (u, weight)) := x in
    let counter_index := counter_offset v + index in
    match nth_error counters counter_index with
    | None => None
    | Some c =>
        let s := measure v u weight c in
        Some [(2 * counter_index, {| source := v; neighbor := u; similarity := s |});
              (2 * counter_index + 1, {| source := u; neighbor := v; similarity := s |})]
    end.
  Definition all_sim_stores (counters : list Z) : option (list (nat * esim)) :=
    option_map (@concat _) (all_some (flat_map (fun v => map (sim_stores counters v) (indexed (neighbors DG v))) (seq 0 (gn DG)))).
  (* similarity_measure.h:224-285 and 783-864 after directing the graph; sh1 and sh2 order the additions
     and the stores, which are parallel; parlay::sequence(m) holds zeros *)
  Definition no_sim : esim := {| source := 0; neighbor := 0; similarity := 0%Z |}.
  Definition directed_similarities (sh1 : list (nat * Z) -> list (nat * Z)) (sh2 : list (nat * esim) -> list (nat * esim)) : option (list esim) :=
    match all_adds with
    | None => None
    | Some adds =>
        match run_adds M (sh1 adds) (repeat 0%Z (gm DG)) with
        | None => None
        | Some counters =>
            match all_sim_stores counters with
            | None => None
            | Some st => run_stores (sh2 st) (repeat no_sim (gm G))
            end
        end
    end.
End Similarities.

(* similarity_measure.h:162-176 DirectGraphByDegree with the ranks given, then the above; sh0 and junk as in
   filter_graph *)
Definition edge_sims {W} (base thresh : nat) (M : Z) (prod : W -> W -> Z) (measure : nat -> nat -> W -> Z -> Z)
           sh0 junk sh1 sh2 (rank : list nat) (G : csr W) : option (list esim) :=
  match filter_graph (fun u x => nth u rank 0 <? nth (fst x) rank 0) sh0 junk G with
  | None => None
  | Some DG => directed_similarities base thresh M prod measure G DG sh1 sh2
  end.

(* similarity_measure.h:867-884 JaccardSimilarity; the degrees, additions and subtractions are uintE.
   div a b = static_cast<float>(a) / b *)
Definition jaccard_measure (M : Z) (div : Z -> Z -> Z) (G : csr unit) (v u : nat) (w : unit) (shared : Z) : Z :=
  let d1 := Z.of_nat (length (neighbors G v)) in
  let d2 := Z.of_nat (length (neighbors G u)) in
  div ((shared + 2) mod M)%Z ((d1 + d2 - shared) mod M)%Z.
(* similarity_measure.h:765-778 CosineSimilarity, unweighted; cos a b c = a / (sqrtf(b) * sqrtf(c)) *)
Definition cosine_measure (M : Z) (cos : Z -> Z -> Z -> Z) (G : csr unit) (v u : nat) (w : unit) (shared : Z) : Z :=
  let d1 := Z.of_nat (length (neighbors G v)) in
  let d2 := Z.of_nat (length (neighbors G u)) in
  cos ((shared + 2) mod M)%Z ((d1 + 1) mod M)%Z ((d2 + 1) mod M)%Z.
(* similarity_measure.h:824-854, integer weights: the squared norm, and
   cos a b c = a / (sqrt(b) * sqrt(c)) in doubles (squared norms and shared_weight as exact integers) *)
Definition sq_norm (G : csr Z) (v : nat) : Z := fold_right Z.add 1%Z (map (fun x => snd x * snd x)%Z (neighbors G v)).
Definition weighted_measure (cos : Z -> Z -> Z -> Z) (G : csr Z) (v u : nat) (w : Z) (shared : Z) : Z :=
  cos (shared + 2 * w)%Z (sq_norm G v) (sq_norm G u).
