(* Theorems for C41. *)
From Coq Require Import ZArith.
From Verif Require Import Base VSModel VSSpec EMModel FAModel KCSpec CDModel MIModel MISpec MIProofs GCProps.

(* C41, the root-set algorithm on a symmetric graph, for every permutation, every traversal the
   calls of edgeMap may pick and every interleaving: it returns, every round makes progress, and every
   result is the set obtained by adding the vertices greedily in the order of perm, which is
   the only such set and a maximal independent set. *)
Theorem C41_rootset : forall n outn m perm, symmetric n outn ->
  (forall u v, u < n -> v < n -> perm u = perm v -> u = v) ->
  (exists S, mis_returns n outn m perm S) /\
  (forall f S p U, mi_loop n outn m perm f S p U -> f <= n /\
     (f <> n -> 0 < size U /\ exists (removed : vset unit) S' p' U', mi_loop n outn m perm (f + size U + size removed) S' p' U')) /\
  (forall S, mis_returns n outn m perm S ->
     maximal_independent n outn S /\ greedy_set n outn perm S /\
     forall S', greedy_set n outn perm S' -> forall v, v < n -> S v = S' v).
Proof.
  intros n outn m perm Hs Hp. split; [|split].
  - eapply mi_returns_from with (k := n); eauto; [|apply mi_start]. lia.
  - intros f S p U HL. destruct (mi_loop_ok Hs Hp HL) as (Dn & R & HI). split; [eapply mi_le; eauto|]. now apply (mi_step Hs Hp HL).
  - intros S HS. pose proof (mi_greedy Hs Hp HS) as G. split; [eapply greedy_maximal; eauto|]. split; auto.
    intros S' G' v Hv. eapply greedy_unique; eauto. apply Hs.
Qed.
Print Assumptions C41_rootset.

(* C41, the speculative loop: it returns, every round decides a vertex, every vertex is in the end
   chosen (1) or has a chosen neighbour (2), and the chosen ones are the greedy set for the order of ids.
   The graph need not be symmetric for that; if it is, the set is a maximal independent set. *)
Theorem C41_speculative : forall n outn, (forall u v, u < n -> In v (outn u) -> v < n) ->
  (exists flags, spec_mis_returns n outn flags) /\
  (forall r done K flags, eff_loop (mi_spec_round outn) 0 n 50 None (fun _ => 0) r done K flags -> done < n ->
     exists done' K' flags', done < done' /\ eff_loop (mi_spec_round outn) 0 n 50 None (fun _ => 0) (S r) done' K' flags') /\
  (forall flags, spec_mis_returns n outn flags ->
     (forall v, v < n -> flags v = 1 \/ flags v = 2) /\
     greedy_set n outn (fun v => v) (fun v => flags v =? 1) /\
     (forall S', greedy_set n outn (fun v => v) S' -> forall v, v < n -> (flags v =? 1) = S' v) /\
     (symmetric n outn -> maximal_independent n outn (fun v => flags v =? 1))).
Proof.
  intros n outn Hout. split; [|split].
  - eapply spec_from with (k := n); [|apply eff_start]. lia.
  - intros r done K flags HL Hd. now apply (spec_step HL Hd).
  - intros flags HF. destruct (spec_greedy HF) as [A G]. split; auto. split; auto. split.
    + intros S' G' v Hv. eapply (greedy_unique (S := fun v => flags v =? 1)); eauto.
    + intros Hs. apply greedy_maximal with (fun v => v); auto.
Qed.
Print Assumptions C41_speculative.

(* the triangle with a separate edge, vertices in the order 2, 0, 1, 4, 3 *)
Definition mi_perm (v : nat) : nat := nth v [1; 2; 0; 4; 3] 0.
Definition mi_set (v : nat) : bool := (v =? 2) || (v =? 4).
Example C41_example : symmetric 5 tri_edge /\ (forall u v, u < 5 -> v < 5 -> mi_perm u = mi_perm v -> u = v) /\ greedy_set 5 tri_edge mi_perm mi_set.
Proof.
  split; [apply tri_sym|]. split.
  - intros u v Hu Hv. do 5 (destruct u as [|u]; [do 5 (destruct v as [|v]; [vm_compute; congruence|]); lia|]). lia.
  - assert (E : forall v, v < 5 -> mi_set v = forallb (fun u => negb ((mi_perm u <? mi_perm v) && mi_set u)) (tri_edge v)).
    { intros v Hv. do 5 (destruct v as [|v]; [reflexivity|]). lia. }
    intros v Hv. rewrite (E v Hv), forallb_forall. split; intros H u Hu.
    + intros Hp. specialize (H u Hu). apply Nat.ltb_lt in Hp. rewrite Hp in H. now destruct (mi_set u).
    + destruct (Nat.ltb_spec (mi_perm u) (mi_perm v)) as [Hp|Hp]; auto. now rewrite (H u Hu Hp).
Qed.
