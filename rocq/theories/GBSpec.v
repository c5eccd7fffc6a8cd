(* Specification vocabulary for C23-C25. *)
From Verif Require Import Base GBModel ISSpec.

(* what a sort of edges by endpoints guarantees (nothing about the order of edges with
   equal endpoints) *)
Definition sorts {W} (sort : list (edge W) -> list (edge W)) : Prop :=
  forall l, Permutation l (sort l) /\ StronglySorted (fun a b => key_lt b a = false) (sort l).

(* the neighbour ids of a vertex *)
Definition ids {W} (l : list (nat * W)) : list nat := map fst l.

(* offsets and degrees tile the neighbour array *)
Definition tiled {W} (G : csr W) : Prop :=
  length (goff G) = gn G /\ length (gdeg G) = gn G /\ length (gngh G) = gm G /\
  (0 < gn G -> nth 0 (goff G) 0 = 0) /\
  (forall v, v < gn G -> nth v (goff G) 0 + nth v (gdeg G) 0 = if v =? gn G - 1 then gm G else nth (v + 1) (goff G) 0).

Definition endpoints_below {W} (n : nat) (es : list (edge W)) : Prop := Forall (fun e => src e < n /\ dst e < n) es.
