(* Specification vocabulary for C66. *)
From Verif Require Import Base.

(* a walk of d steps along the listed pairs, in either direction *)
Inductive walk (l : list (nat * nat)) : nat -> nat -> nat -> Prop :=
| walk_here u : walk l 0 u u
| walk_fwd d u v w : In (u, v) l -> walk l d v w -> walk l (S d) u w
| walk_bwd d u v w : In (v, u) l -> walk l d v w -> walk l (S d) u w.

(* the clusters that occur *)
Definition cluster_ids (n : nat) (clu : nat -> option nat) : list nat :=
  filter (fun c => existsb (fun v => match clu v with Some x => x =? c | None => false end) (seq 0 n)) (seq 0 n).
(* the pairs of different clusters that are joined by an edge, smaller name first *)
Definition adjacent_pairs (n : nat) (outn : nat -> list nat) (clu : nat -> option nat) : list (nat * nat) :=
  filter (fun ab => (fst ab <? snd ab) &&
      existsb (fun u => existsb (fun v => match clu u, clu v with
                                          | Some x, Some y => (x =? fst ab) && (y =? snd ab)
                                          | _, _ => false end) (outn u)) (seq 0 n))
    (list_prod (seq 0 n) (seq 0 n)).
