(* Specification vocabulary for C70: neighbourhoods and what two of them share. *)
From Verif Require Import Base GBModel ISSpec SFSpec.
From Coq Require Import ZArith.
Local Open Scope nat_scope.

Definition nbrs {W} (G : csr W) (u : nat) : list nat := map fst (neighbors G u).
(* an undirected graph without self loops: sorted lists without repetitions, the same weight in both
   directions, and m is the number of directed edges *)
Record loopless {W} (G : csr W) : Prop := {
  ll_sorted : forall u, u < gn G -> increasing (nbrs G u);
  ll_range : forall u v, u < gn G -> In v (nbrs G u) -> v < gn G /\ v <> u;
  ll_sym : forall u v w, u < gn G -> In (v, w) (neighbors G u) -> In (u, w) (neighbors G v);
  ll_edges : gm G = total_degree G }.
(* the sum over the vertices z adjacent to both u and v of prod (weight of uz) (weight of vz) *)
Definition shared {W} (prod : W -> W -> Z) (G : csr W) (u v : nat) : Z :=
  fold_right Z.add 0%Z (flat_map (fun x => map (fun y => prod (snd x) (snd y)) (filter (fun y => fst y =? fst x) (neighbors G v))) (neighbors G u)).
(* closed neighbourhoods *)
Definition closed_nbrs {W} (G : csr W) (u : nat) : list nat := u :: nbrs G u.
Definition meet (a b : list nat) : list nat := filter (fun x => existsb (Nat.eqb x) b) a.
Definition join (a b : list nat) : list nat := a ++ filter (fun x => negb (existsb (Nat.eqb x) a)) b.
