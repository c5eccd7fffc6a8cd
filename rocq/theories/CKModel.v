(* benchmarks/CoSimRank/CoSimRank.h: CoSimRank_edgeMap and CoSimRank.

   As in PRModel: doubles are exact rationals, None stands for a value that is not finite;
   edgeMap and edgeMapReduce_dense are modelled by their outcome (C17, C18). *)
From Verif Require Import Base MOSpec PRSpec SIModel PRModel.
From Coq Require Import QArith Qcanon.
Local Open Scope nat_scope.

Section CoSimRank.
  Variable n : nat.                                   (* G.n *)
  Variables outs ins : nat -> list nat.
  Variables (c eps : Qc).
  (* lines 30-35 *)
  Definition inner_product (a b : list Qc) : Qc := qsum (map (fun i => at_ a i * at_ b i)%Qc (seq 0 n)).
  (* lines 42-48, 115-131: p_curr *)
  Definition unit_at (v : nat) : list Qc := map (fun i => if i =? v then 1%Qc else 0%Qc) (seq 0 n).
  (* lines 56-62 *)
  Definition only (v : nat) : list bool := map (fun i => i =? v) (seq 0 n).

  (* lines 9-28, 69-74: edgeMap with Co_PR_F; the new p_next and the new frontier.  The threshold 0 makes every
     traversal of a frontier with edges a dense one, along the in-edges *)
  Definition spread (frontier : list bool) (p_curr p_next : list Qc) : list Qc :=
    map (fun d => at_ p_next d + qsum (map (fun s => at_ p_curr s / qnat (length (outs s)))
                                         (filter (fun s => nth s frontier false) (ins d))))%Qc (seq 0 n).
  Definition reached (frontier : list bool) : list bool := map (fun d => existsb (fun s => nth s frontier false) (ins d)) (seq 0 n).
  (* lines 64-101; the result is sim and the two arrays p_next.  iter: iterations done *)
  Fixpoint em_sim (iters iter : nat) (sim : Qc) (pv nv pu nu : list Qc) (Fv Fu : list bool) : Qc * list Qc * list Qc :=
    match iters with
    | 0 => (sim, nv, nu)
    | S iters =>
        let nv' := spread Fv pv nv in
        let nu' := spread Fu pu nu in
        let sim' := (sim + qpow c (iter + 1) * inner_product nu' nv')%Qc in
        if (if Qclt_le_dec (l1_norm n pv nv') eps then true else false) && (if Qclt_le_dec (l1_norm n pu nu') eps then true else false)
        then (sim', nv', nu')
        else em_sim iters (iter + 1) sim' nv' (repeat 0%Qc n) nu' (repeat 0%Qc n) (reached Fv) (reached Fu)
    end.
  (* lines 37-108; the maxima of the arrays and sim are printed *)
  Definition CoSimRank_edgeMap (v u max_iters : nat) : Qc * list Qc * list Qc :=
    em_sim max_iters 0 (if u =? v then 1%Qc else 0%Qc) (unit_at v) (repeat 0%Qc n) (unit_at u) (repeat 0%Qc n) (only v) (only u).

  (* lines 153-171, 181-185: edgeMapReduce_dense reads the OUT-neighbours of every vertex (in_edges is not among the flags)
     and does not look at the frontier, which is never empty *)
  Definition gather (p_curr : list Qc) : option (list Qc) :=
    all_some (map (fun d =>
      match all_some (map (fun s => div_degree outs (at_ p_curr s) s) (outs d)) with
      | Some l => Some (qsum l)
      | None => None
      end) (seq 0 n)).
  (* lines 173-213; the loop that computes the L1 norm clears p_curr *)
  Fixpoint dense_sim (iters iter : nat) (sim : Qc) (pv nv pu nu : list Qc) : option (Qc * list Qc * list Qc) :=
    match iters with
    | 0 => Some (sim, nv, nu)
    | S iters =>
        match gather pv, gather pu with
        | Some nv', Some nu' =>
            let sim' := (sim + qpow c (iter + 1) * inner_product nu' nv')%Qc in
            if (if Qclt_le_dec (l1_norm n pv nv') eps then true else false) && (if Qclt_le_dec (l1_norm n pu nu') eps then true else false)
            then Some (sim', nv', nu')
            else dense_sim iters (iter + 1) sim' nv' (repeat 0%Qc n) nu' (repeat 0%Qc n)
        | _, _ => None
        end
    end.
  (* lines 110-219 *)
  Definition CoSimRank (v u max_iters : nat) : option (Qc * list Qc * list Qc) :=
    dense_sim max_iters 0 (if u =? v then 1%Qc else 0%Qc) (unit_at v) (repeat 0%Qc n) (unit_at u) (repeat 0%Qc n).
End CoSimRank.
