(* Specification for C82: CoSimRank in exact rational arithmetic, see also PRSpec. *)
From Verif Require Import Base MOSpec PRSpec.
From Coq Require Import QArith Qcanon.
Local Open Scope nat_scope.

Section CoSim.
  Variable n : nat.
  Variable outs : nat -> list nat.
  (* one step of a random walk along out-edges; a walk at a vertex without one ends *)
  Definition follow (p : list Qc) : list Qc :=
    map (fun d => qsum (map (fun s => at_ p s * (qnat (count_occ Nat.eq_dec (outs s) d) / qnat (length (outs s))))%Qc (seq 0 n))) (seq 0 n).
  Definition start_at (v : nat) : list Qc := map (fun i => if i =? v then 1%Qc else 0%Qc) (seq 0 n).
  (* the distribution of a walk from v after k steps *)
  Fixpoint walker (v k : nat) : list Qc := match k with 0 => start_at v | S k => follow (walker v k) end.
  Definition inner (p q : list Qc) : Qc := qsum (map (fun i => at_ p i * at_ q i)%Qc (seq 0 n)).
  (* the terms 0 .. K of the similarity of u and v *)
  Definition similarity (c : Qc) (u v K : nat) : Qc := qsum (map (fun k => qpow c k * inner (walker u k) (walker v k))%Qc (seq 0 (K + 1))).
End CoSim.

(* both walks, from v and from u, moved by less than eps in step k + 1 *)
Definition settled n outs (eps : Qc) v u k : Prop :=
  (dist n (walker n outs v k) (walker n outs v (S k)) < eps)%Qc /\ (dist n (walker n outs u k) (walker n outs u (S k)) < eps)%Qc.

(* what the program returns: the similarity cut after the first settled step, with the two walks at that step; or, when
   there is none among the max_iters steps, the similarity cut after max_iters steps, with two arrays of zeros *)
Definition cut_similarity n outs c eps v u max_iters (r : Qc * list Qc * list Qc) : Prop :=
  (exists K, K < max_iters /\ settled n outs eps v u K /\ (forall i, i < K -> ~ settled n outs eps v u i) /\
     r = (similarity n outs c u v (S K), walker n outs v (S K), walker n outs u (S K))) \/
  ((forall i, i < max_iters -> ~ settled n outs eps v u i) /\ r = (similarity n outs c u v max_iters, repeat 0%Qc n, repeat 0%Qc n)).
