(* C86: writing graphs as text — edge lists (utils/to_edge_list.cc), random renaming (utils/random_reorder.cc) and
   the string conversion both use — and reading them back. *)
From Coq Require Import NArith Permutation Sorted.
From Verif Require Import Base GBModel TXModel TXSpec TUModel TUSpec TUProofs.
Unset Strict Implicit.
Open Scope nat_scope.

(* The string conversion yields one line for each number, whatever the schedule. *)
Theorem C86_numbers_to_string : forall xs order, xs <> [] -> (forall x, In x xs -> (N.of_nat x < 2 ^ 32)%N) ->
  Permutation order (seq 0 (length xs - 1)) ->
  sequence_to_string (map U32 xs) order = Some (flat_map (fun x => print x ++ [10]) xs).
Proof.
  intros xs order Hne Hx Hp. rewrite to_string_correct.
  - f_equal. clear. induction xs as [|x xs IH]; simpl; auto. now rewrite IH.
  - destruct xs; [congruence|discriminate].
  - apply Forall_forall. intros a Ha. apply in_map_iff in Ha as (x & <- & Hxs). exact (Hx x Hxs).
  - now rewrite map_length.
Qed.
Print Assumptions C86_numbers_to_string.

(* The edge list of a graph with at least one edge, read back, is the list of the graph's edges in order; the flag
   for a header adds the line "n m" in front. *)
Theorem C86_edge_list : forall W (G : csr W) order order2, wf_graph G -> targets_below G -> small_ids G -> 0 < gm G ->
  Permutation order (seq 0 (gn G)) -> Permutation order2 (seq 0 (gm G - 1)) ->
  exists s, print_edge_list G false false order order2 = Some s /\ read_unweighted_edge_list s = edges_of G /\
    print_edge_list G false true order order2 = Some ((print (gn G) ++ [32] ++ print (gm G) ++ [10]) ++ s).
Proof.
  intros W G order order2 Hwf Ht Hs Hm H1 H2. destruct (@printed_read _ G Hwf Ht Hs false order order2 Hm H1 H2) as (s & E1 & E2 & E3).
  exists s. split; [exact E1|]. split; [now rewrite E2, listed_all|]. rewrite E3. do 4 f_equal.
  assert (E : filter (sel false) (edges_of G) = edges_of G) by (clear; induction (edges_of G); simpl; auto; now f_equal).
  now rewrite E, (edges_length Hwf).
Qed.
Print Assumptions C86_edge_list.

Theorem C86_edge_list_sorted : forall W (G : csr W) order order2, wf_graph G -> targets_below G -> small_ids G -> 0 < gm G -> lists_sorted G ->
  Permutation order (seq 0 (gn G)) -> Permutation order2 (seq 0 (gm G - 1)) ->
  exists s, print_edge_list G false false order order2 = Some s /\ StronglySorted lex_le (read_unweighted_edge_list s).
Proof.
  intros W G order order2 Hwf Ht Hs Hm Hl H1 H2. destruct (@C86_edge_list _ G order order2 Hwf Ht Hs Hm H1 H2) as (s & E1 & E2 & _).
  exists s. split; auto. rewrite E2. now apply edges_lex.
Qed.
Print Assumptions C86_edge_list_sorted.

(* With -direct_sym, and in the matrix market format, the file holds the edges (u,v) with u < v, and then one line
   "0 0" for every other edge; the header counts only the former. *)
Theorem C86_upper_edges : forall W (G : csr W) order order2, wf_graph G -> targets_below G -> small_ids G -> 0 < gm G ->
  Permutation order (seq 0 (gn G)) -> Permutation order2 (seq 0 (gm G - 1)) ->
  let up := filter (fun e => fst e <? snd e) (edges_of G) in
  exists s, print_edge_list G true false order order2 = Some s /\
    read_unweighted_edge_list s = up ++ repeat (0, 0) (gm G - length up) /\
    print_edge_list_matrixmarket G order order2 = Some ((print (gn G) ++ [32] ++ print (length up) ++ [10]) ++ s).
Proof.
  intros W G order order2 Hwf Ht Hs Hm H1 H2. exact (@printed_read _ G Hwf Ht Hs true order order2 Hm H1 H2).
Qed.
Print Assumptions C86_upper_edges.

Definition exG : csr unit := {| gn := 3; gm := 4; goff := [0; 2; 3]; gdeg := [2; 1; 1]; gngh := [(1, tt); (2, tt); (0, tt); (0, tt)] |}.
Lemma exG_ok : wf_graph exG /\ targets_below exG /\ small_ids exG /\ 0 < gm exG /\ lists_sorted exG.
Proof.
  split; [|split; [|split; [|split]]].
  - split; [|reflexivity]. intros v Hv. destruct v as [|[|[|]]]; simpl in *; lia.
  - intros v u w Hv H. destruct v as [|[|[|]]]; simpl in *; intuition; try congruence; match goal with X : (_, _) = _ |- _ => injection X; lia end.
  - vm_compute. discriminate.
  - simpl. lia.
  - intros v Hv. destruct v as [|[|[|]]]; simpl in *; try lia; repeat constructor.
Qed.

(* So the file is not a list of the edges with u < v. *)
Theorem C86_upper_edges_refuted : exists (G : csr unit), wf_graph G /\ targets_below G /\ small_ids G /\ 0 < gm G /\
  forall order order2, Permutation order (seq 0 (gn G)) -> Permutation order2 (seq 0 (gm G - 1)) ->
  exists s, print_edge_list G true false order order2 = Some s /\ In (0, 0) (read_unweighted_edge_list s) /\ ~ In (0, 0) (edges_of G).
Proof.
  exists exG. destruct exG_ok as (A & B & C & D & _). split; [|split; [|split; [|split]]]; auto. intros order order2 H1 H2.
  destruct (@C86_upper_edges _ exG order order2 A B C D H1 H2) as (s & E1 & E2 & _). exists s. split; auto. split.
  - rewrite E2. vm_compute. tauto.
  - vm_compute. intuition discriminate.
Qed.
Print Assumptions C86_upper_edges_refuted.

(* A graph with no edges makes the writer read element -1 of an empty array. *)
Theorem C86_no_edges_undefined : forall W (G : csr W) ds hd order order2, wf_graph G -> gm G = 0 -> Permutation order (seq 0 (gn G)) ->
  print_edge_list G ds hd order order2 = None.
Proof. intros. now apply no_edges_none. Qed.
Print Assumptions C86_no_edges_undefined.

(* random_reorder writes, for a permutation of the vertices, the graph in which every vertex and every
   neighbour is renamed by it, each list in the order of the original. *)
Theorem C86_reorder : forall (G : csr unit) perm sort order1 order2 o1 o2, wf_graph G -> targets_below G -> small_ids G ->
  (N.of_nat (gm G) < 2 ^ 64)%N -> 0 < gn G -> 0 < gm G -> Permutation perm (seq 0 (gn G)) -> (forall l, Permutation l (sort l)) ->
  Permutation order1 (seq 0 (gn G)) -> Permutation order2 (seq 0 (gn G)) ->
  Permutation o1 (seq 0 (gn G - 1)) -> Permutation o2 (seq 0 (gm G - 1)) ->
  exists s G', randomReorder G perm sort order1 order2 o1 o2 = Some s /\ read_unweighted s = Some G' /\ gn G' = gn G /\ gm G' = gm G /\
    forall i, i < gn G -> neighbors G' (nth i perm 0) = map (fun x => (nth (fst x) perm 0, tt)) (neighbors G i).
Proof. intros. now apply reordered. Qed.
Print Assumptions C86_reorder.

(* The sort that should order each list is given an empty range: sorted lists do not stay sorted, whatever std::sort does. *)
Theorem C86_reorder_sorted_refuted : exists (G : csr unit) perm, wf_graph G /\ targets_below G /\ small_ids G /\ lists_sorted G /\ Permutation perm (seq 0 (gn G)) /\
  forall sort order1 order2 o1 o2, (forall l, Permutation l (sort l)) -> Permutation order1 (seq 0 (gn G)) -> Permutation order2 (seq 0 (gn G)) ->
  Permutation o1 (seq 0 (gn G - 1)) -> Permutation o2 (seq 0 (gm G - 1)) ->
  exists s G', randomReorder G perm sort order1 order2 o1 o2 = Some s /\ read_unweighted s = Some G' /\ ~ lists_sorted G'.
Proof.
  exists exG, [0; 2; 1]. destruct exG_ok as (A & B & C & D & E). split; [|split; [|split; [|split; [|split]]]]; auto.
  { simpl. apply perm_skip, perm_swap. }
  intros sort order1 order2 o1 o2 Hs H1 H2 H3 H4.
  destruct (@C86_reorder exG [0; 2; 1] sort order1 order2 o1 o2) as (s & G' & R1 & R2 & R3 & _ & R4); auto.
  { vm_compute. reflexivity. } { simpl. lia. } { simpl. apply perm_skip, perm_swap. }
  exists s, G'. split; auto. split; auto. intros Hl. specialize (Hl 0). rewrite R3 in Hl. specialize (Hl ltac:(simpl; lia)).
  specialize (R4 0 ltac:(simpl; lia)). simpl nth in R4. rewrite R4 in Hl. simpl in Hl. inversion Hl as [|? ? _ F]; subst. inversion F; subst. lia.
Qed.
Print Assumptions C86_reorder_sorted_refuted.

(* Non-vacuity *)
Example C86_witness : wf_graph exG /\ targets_below exG /\ small_ids exG /\ 0 < gm exG /\ lists_sorted exG /\
  Permutation [2; 0; 1] (seq 0 (gn exG)) /\ Permutation [1; 2; 0] (seq 0 (gm exG - 1)).
Proof.
  destruct exG_ok as (A & B & C & D & E). split; [|split; [|split; [|split; [|split; [|split]]]]]; auto.
  - simpl. apply perm_trans with [0; 2; 1]; [apply perm_swap|apply perm_skip, perm_swap].
  - simpl. apply perm_trans with [1; 0; 2]; [apply perm_skip, perm_swap|apply perm_swap].
Qed.
Example C86_run : exists s, print_edge_list exG true false [2; 0; 1] [1; 2; 0] = Some s /\ read_unweighted_edge_list s = [(0, 1); (0, 2); (0, 0); (0, 0)].
Proof. eexists. split; [vm_compute; reflexivity|vm_compute; reflexivity]. Qed.
Example C86_reorder_run : exists s G', randomReorder exG [0; 2; 1] (fun l => l) [2; 0; 1] [1; 2; 0] [1; 0] [1; 2; 0] = Some s /\ read_unweighted s = Some G' /\
  map (neighbors G') [0; 1; 2] = [[(2, tt); (1, tt)]; [(0, tt)]; [(0, tt)]].
Proof. eexists. eexists. split; [vm_compute; reflexivity|]. split; vm_compute; reflexivity. Qed.
