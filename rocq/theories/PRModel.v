(* benchmarks/PageRank/PageRank.h: PageRank_edgeMap, PageRank and delta::PageRankDelta.

   Doubles are modelled by exact rationals; a division by 0 (whose result is infinite or not a number) gives None,
   and so does reading such a value.  outs / ins are the out- and in-neighbours; for a symmetric graph they are the same
   lists.  edgeMap and edgeMapReduce_dense are modelled by their outcome on a frontier that is not changed meanwhile
   (C17, C18): every edge of the frontier is applied once, additions to one target are atomic or sequential. *)
From Verif Require Import Base MOSpec PRSpec SIModel.
From Coq Require Import QArith Qcanon.
Local Open Scope nat_scope.

(* the constant damping, PageRank.h:118, 171, 405, and the default arguments 115-116, 167-168, 401-403 *)
Definition damping_default : Qc := Q2Qc (17 # 20).
Definition eps_default : Qc := Q2Qc (1 # 1000000).
Definition local_eps_default : Qc := Q2Qc (1 # 100).
Definition max_iters_default : nat := 100.

Section PageRank.
  Variable n : nat.                                   (* G.n *)
  Variables outs ins : nat -> list nat.
  Variables (damping eps : Qc).
  Definition out_degree (v : nat) : nat := length (outs v).
  (* PageRank.h:120, 174 *)
  Definition one_over_n : Qc := (/ qnat n)%Qc.
  (* PageRank.h:92, 172 *)
  Definition added_constant : Qc := ((1 - damping) * (1 / qnat n))%Qc.
  (* PageRank.h:127-130, 136-139, 189-192, 219-222 *)
  Definition dangling_nodes : list nat := filter (fun v => out_degree v =? 0) (seq 0 n).
  Definition dangling_sum (p_curr : list Qc) : Qc := qsum (map (at_ p_curr) dangling_nodes).
  (* fabs and the sum, PageRank.h:149-151, 235-240 *)
  Definition l1_norm (p_curr p_next : list Qc) : Qc := qsum (map (fun i => qabs (at_ p_curr i - at_ p_next i)%Qc) (seq 0 n)).

  (* PageRank.h:141-146: PR_F along the in-edges of every vertex, then PR_Vertex_F *)
  Definition em_step (p_curr p_next : list Qc) : list Qc :=
    let added := map (fun d => (at_ p_next d + qsum (map (fun s => at_ p_curr s / qnat (out_degree s)) (ins d)))%Qc) (seq 0 n) in
    map (fun i => (damping * (at_ added i + dangling_sum p_curr * one_over_n) + added_constant)%Qc) (seq 0 n).
  (* PageRank.h:132-160; iters: iterations left.  After a round that does not end the loop p_curr is cleared and
     the two are swapped *)
  Fixpoint em_loop (iters : nat) (p_curr p_next : list Qc) : list Qc :=
    match iters with
    | 0 => p_next
    | S iters =>
        let p_next' := em_step p_curr p_next in
        if Qclt_le_dec (l1_norm p_curr p_next') eps then p_next'
        else em_loop iters p_next' (repeat 0%Qc n)
    end.
  (* PageRank.h:114-164 *)
  Definition pagerank_edgemap (max_iters : nat) : list Qc := em_loop max_iters (repeat one_over_n n) (repeat 0%Qc n).

  (* PageRank.h:166-253 PageRank, apply_f 206-215.  map_f reads p_div at the OUT-neighbours: in_edges is not among the flags *)
  Definition div_degree (x : Qc) (v : nat) : option Qc := if out_degree v =? 0 then None else Some (x / qnat (out_degree v))%Qc.
  Definition opt_step (p_curr : list Qc) (p_div : list (option Qc)) : option (list Qc) :=
    all_some (map (fun u =>
      match all_some (map (fun s => nth s p_div None) (outs u)) with
      | Some l => Some (damping * (qsum l + dangling_sum p_curr * one_over_n) + added_constant)%Qc
      | None => None
      end) (seq 0 n)).
  (* PageRank.h:217-249; the loop that computes the L1 norm clears p_curr *)
  Fixpoint opt_loop (iters : nat) (p_curr p_next : list Qc) (p_div : list (option Qc)) : option (list Qc) :=
    match iters with
    | 0 => Some p_next
    | S iters =>
        match opt_step p_curr p_div with
        | None => None
        | Some p_next' =>
            if Qclt_le_dec (l1_norm p_curr p_next') eps then Some p_next'
            else opt_loop iters p_next' (repeat 0%Qc n) (map (fun u => div_degree (at_ p_next' u) u) (seq 0 n))
        end
    end.
  Definition pagerank (max_iters : nat) : option (list Qc) :=
    opt_loop max_iters (repeat one_over_n n) (repeat 0%Qc n)
      (map (fun i => Some (one_over_n / qnat (max 1 (out_degree i)))%Qc) (seq 0 n)).

  (* ---- delta::PageRankDelta *)
  Variable local_eps : Qc.
  Record dst := { p_ : list Qc; delta : list Qc; delta_over_degree : list (option Qc); frontier : list bool }.
  (* PageRank.h:287-326 sparse_or_dense: both branches add, to zeros, the quotients of the in-neighbours in the frontier *)
  Definition ngh_sum (s : dst) : option (list Qc) :=
    all_some (map (fun u =>
      match all_some (map (fun v => nth v (delta_over_degree s) None) (filter (fun v => nth v (frontier s) false) (ins u))) with
      | Some l => Some (qsum l)
      | None => None
      end) (seq 0 n)).
  (* PageRank.h:346-356 PR_Vertex_F_FirstRound *)
  Definition first_round (s : dst) (sums : list Qc) : dst :=
    let pre_init i := (damping * at_ sums i + (1 - damping) * one_over_n)%Qc in
    let p' := map (fun i => (at_ (p_ s) i + pre_init i)%Qc) (seq 0 n) in
    let new_delta := map (fun i => (pre_init i - one_over_n)%Qc) (seq 0 n) in
    {| p_ := p'; delta := new_delta; delta_over_degree := map (fun i => div_degree (at_ new_delta i) i) (seq 0 n);
       frontier := map (fun i => if Qclt_le_dec (local_eps * at_ p' i) (at_ new_delta i) then true else false) (seq 0 n) |}.
  (* PageRank.h:381-392 PR_Vertex_F *)
  Definition later_round (s : dst) (sums : list Qc) : dst :=
    let new_delta := map (fun i => (at_ sums i * damping)%Qc) (seq 0 n) in
    let big i := if Qclt_le_dec (local_eps * at_ (p_ s) i) (qabs (at_ new_delta i)) then true else false in
    {| p_ := map (fun i => if big i then (at_ (p_ s) i + at_ new_delta i)%Qc else at_ (p_ s) i) (seq 0 n);
       delta := new_delta; delta_over_degree := map (fun i => div_degree (at_ new_delta i) i) (seq 0 n);
       frontier := map big (seq 0 n) |}.
  (* PageRank.h:428-454 *)
  Fixpoint delta_loop (iters : nat) (first : bool) (s : dst) : option (list Qc) :=
    match iters with
    | 0 => Some (p_ s)
    | S iters =>
        match ngh_sum s with
        | None => None
        | Some sums =>
            let s' := if first then first_round s sums else later_round s sums in
            if Qclt_le_dec (qsum (map (fun i => qabs (at_ (delta s') i)) (seq 0 n))) eps then Some (p_ s')
            else delta_loop iters false s'
        end
    end.
  (* PageRank.h:400-460 *)
  Definition pagerank_delta (max_iters : nat) : option (list Qc) :=
    delta_loop max_iters true
      {| p_ := repeat 0%Qc n; delta := repeat one_over_n n;
         delta_over_degree := map (fun i => div_degree one_over_n i) (seq 0 n); frontier := repeat true n |}.
End PageRank.
