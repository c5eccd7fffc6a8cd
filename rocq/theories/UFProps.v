(* C35, C36: the concurrent union-find. *)
From Verif Require Import Base UFSpec UFRoots UFModel UFLogic UFFind UFUnite UFSys.

(* C35.  n vertices, any initial forest P0 whose pointers go to smaller or equal
   ids (the identity in particular), any find variant f, any unite variant o
   other than the two that use splice_atomic, any batch of concurrent inserts
   and queries, any interleaving. *)
Theorem C35_no_fault_and_sound :
  forall n mx f o (P0 : nat -> nat) (ups : list update) (sched : list nat),
  no_splice_atomic o -> (forall x, P0 x <= x) -> in_range n ups ->
  let s := exec n sched (init P0 (map (run_update mx f o) ups)) in
  (forall t, ~ faulted s t) /\
  (forall x, par (fst s) x <= x) /\
  (forall x y, same_tree (par (fst s)) x y ->
     connected_from P0 (inserted (started sched ups)) x y).
Proof. intros. now apply run_sound. Qed.
Print Assumptions C35_no_fault_and_sound.

Theorem C35_returned_insert_is_joined :
  forall n mx f o (P0 : nat -> nat) (ups : list update) (sched : list nat) t u v r,
  no_splice_atomic o -> (forall x, P0 x <= x) -> in_range n ups ->
  let s := exec n sched (init P0 (map (run_update mx f o) ups)) in
  nth_error ups t = Some (Insert u v) -> returned s t r ->
  same_tree (par (fst s)) u v.
Proof. intros. eapply run_joined; eauto. Qed.
Print Assumptions C35_returned_insert_is_joined.

Theorem C35_trees_never_split :
  forall n mx f o (P0 : nat -> nat) (ups : list update) (sched : list nat) x y,
  no_splice_atomic o -> (forall x, P0 x <= x) -> in_range n ups ->
  same_tree P0 x y ->
  same_tree (par (fst (exec n sched (init P0 (map (run_update mx f o) ups))))) x y.
Proof. intros. now apply run_keeps. Qed.
Print Assumptions C35_trees_never_split.

Theorem C35_partition_when_all_returned :
  forall n mx f o (P0 : nat -> nat) (ups : list update) (sched : list nat),
  no_splice_atomic o -> (forall x, P0 x <= x) -> in_range n ups ->
  let s := exec n sched (init P0 (map (run_update mx f o) ups)) in
  (forall t, t < length ups -> exists r, returned s t r) ->
  forall x y, same_tree (par (fst s)) x y <-> connected_from P0 (inserted ups) x y.
Proof. intros n mx f o P0 ups sched H1 H2 H3 s H4. now apply run_complete. Qed.
Print Assumptions C35_partition_when_all_returned.

(* hypotheses met: 5 vertices, a batch of 4 updates, an interleaved schedule
   after which everything has returned, for each strategy *)
Definition ex_ups : list update := [Insert 0 1; Insert 3 4; Insert 1 4; Query 0 3].
Definition ex_sched : list nat := concat (repeat [0; 2; 1; 3; 2] 40).
Definition ex_run f o := exec 5 ex_sched (init (fun x => x) (map (run_update 99 f o) ex_ups)).
Definition is_ret (th : thread) : bool := match th with (Ret _, []) => true | _ => false end.
Definition ex_par f o := map (par (fst (ex_run f o))) [0; 1; 2; 3; 4].

Lemma is_ret_returned s t : forallb is_ret (snd s) = true -> t < length (snd s) -> exists r, returned s t r.
Proof.
  intros H Ht. unfold returned. destruct (nth_error (snd s) t) as [[p st]|] eqn:E.
  - apply nth_error_In in E. rewrite forallb_forall in H. specialize (H _ E).
    destruct p; try discriminate. destruct st; try discriminate. eauto.
  - apply nth_error_None in E. lia.
Qed.

Example C35_example_hyps : in_range 5 ex_ups /\ (forall x : nat, x <= x) /\
  forall f o, In f [FindNaive; FindCompress; FindCompressAtomic; FindSplit; FindHalve] ->
    In o [UUnite; UEarly; UND; USimple; ULink; URemCAS SplitOne; URemCAS HalveOne; URemLock SplitOne; URemLock HalveOne] ->
    no_splice_atomic o /\ forallb is_ret (snd (ex_run f o)) = true.
Proof.
  split; [|split; [lia|]].
  - intros x. simpl. intros [<-|[<-|[<-|[<-|[]]]]]; simpl; lia.
  - intros f o Hf Ho.
    split; [simpl in Ho; unfold no_splice_atomic; split; intros ->; intuition discriminate|].
    simpl in Hf, Ho.
    repeat (destruct Hf as [<-|Hf]; [repeat (destruct Ho as [<-|Ho]; [vm_compute; reflexivity|]); destruct Ho|]); destruct Hf.
Qed.

Example C35_example_result : ex_par FindSplit UUnite = [0; 0; 2; 1; 1].
Proof. vm_compute. reflexivity. Qed.

(* With splice_atomic the property is false: a reachable state in which the
   parent pointers form a cycle, so that the tree of vertex 2 has no root and
   every later find on it runs forever.  8 concurrent inserts on 7 vertices,
   starting from singletons, for both unite variants that accept it. *)
Definition cyc_ups : list update :=
  [Insert 6 5; Insert 5 0; Insert 4 3; Insert 3 2; Insert 2 1; Insert 6 4; Insert 6 0; Insert 2 6].
Definition cyc_sched (k : nat) : list nat :=
  concat (map (fun t => repeat t k) [0; 1; 2; 3; 4]) ++
  repeat 5 6 ++ repeat 6 12 ++ repeat 5 2 ++ repeat 7 7 ++ [5; 7; 7].

Lemma cycle_no_root (P : nat -> nat) a b : P a = b -> P b = a -> a <> b -> ~ exists r, tree_root P a r.
Proof.
  intros Ha Hb Hne [r [Hr [k Hk]]].
  assert (H : Nat.iter k P a = a \/ Nat.iter k P a = b).
  { clear - Ha Hb. induction k as [|k IH]; simpl; auto. destruct IH as [->| ->]; auto. }
  destruct H as [H|H]; rewrite Hk in H; subst r; congruence.
Qed.

Theorem C35_splice_atomic_refuted :
  forall o, o = URemCAS SpliceAtomic \/ o = URemLock SpliceAtomic ->
  exists n mx f ups sched,
    in_range n ups /\
    let s := exec n sched (init (fun x => x) (map (run_update mx f o) ups)) in
    exists x, x < n /\ ~ exists r, tree_root (par (fst s)) x r.
Proof.
  intros o [->| ->].
  - exists 7, 99, FindNaive, cyc_ups, (cyc_sched 8). split.
    + intros x. simpl. intuition subst; simpl; lia.
    + exists 2. split; [lia|]. apply cycle_no_root with (b := 3); vm_compute; congruence.
  - exists 7, 99, FindNaive, cyc_ups, (cyc_sched 18). split.
    + intros x. simpl. intuition subst; simpl; lia.
    + exists 2. split; [lia|]. apply cycle_no_root with (b := 3); vm_compute; congruence.
Qed.
Print Assumptions C35_splice_atomic_refuted.

(* ------------------------------------------------------------------ *)
(* C36: component labels.  G is the list of the directed edges of a symmetric
   graph on the vertices 0 .. n-1. *)
Definition symmetric (G : list (nat * nat)) : Prop := forall u v, In (u, v) G -> In (v, u) G.
Definition edges_in_range (n : nat) (G : list (nat * nat)) : Prop :=
  forall u v, In (u, v) G -> u < n /\ v < n.
(* labels L: equal exactly for connected vertices, and each label is the id of a
   vertex of the component that carries itself as label *)
Definition component_labels (n : nat) (G : list (nat * nat)) (L : nat -> nat) : Prop :=
  forall i j, i < n -> j < n ->
    (L i = L j <-> connected G i j) /\ L i < n /\ L (L i) = L i.

Definition all_returned (s : sys) (k : nat) : Prop := forall t, t < k -> exists r, returned s t r.

Lemma in_range_edges n E : edges_in_range n E -> in_range n (map (fun e => Insert (fst e) (snd e)) E).
Proof. intros H x Hx. apply in_map_iff in Hx as [[u v] [<- Hx]]. simpl. exact (H _ _ Hx). Qed.

Lemma labels_from n mx f o G E P0 p sched1 sched2 :
  no_splice_atomic o -> (p = label_vertex f \/ p = find_compress) ->
  (forall x, P0 x <= x) -> edges_in_range n E ->
  (forall x y, connected_from P0 E x y <-> connected G x y) ->
  let s1 := exec n sched1 (init P0 (map (fun e => unite mx f o (fst e) (snd e)) E)) in
  all_returned s1 (length E) ->
  let s2 := exec n sched2 (init (par (fst s1)) (label_pass n p)) in
  all_returned s2 n ->
  component_labels n G (par (fst s2)).
Proof.
  intros Ho Hp Hd Hr Hc s1 H1 s2 H2 i j Hi Hj.
  pose proof (@components_correct n mx f o E P0 p sched1 sched2 Ho Hp Hd (in_range_edges Hr) H1 H2 i j Hi Hj)
    as (A & B & D).
  fold s1 in A, B, D. fold s2 in A, B, D.
  split; [|split; [lia|exact D]]. rewrite <- Hc. exact A.
Qed.

(* UnionFind/Connectivity.h:56-110 compute_components<no_sampling>: unite all
   (u, v) with v < u concurrently, then parents[i] = find(i) concurrently *)
Theorem C36_union_find_components :
  forall n mx f o (G : list (nat * nat)) sched1 sched2,
  no_splice_atomic o -> symmetric G -> edges_in_range n G ->
  let E := filter (fun e => snd e <? fst e) G in
  let s1 := exec n sched1 (init (fun x => x) (map (fun e => unite mx f o (fst e) (snd e)) E)) in
  all_returned s1 (length E) ->
  let s2 := exec n sched2 (init (par (fst s1)) (label_pass n (label_vertex f))) in
  all_returned s2 n ->
  component_labels n G (par (fst s2)).
Proof.
  intros n mx f o G sched1 sched2 Ho Hs Hr E s1 H1 s2 H2.
  apply (@labels_from n mx f o G E (fun x => x) (label_vertex f) sched1 sched2); auto.
  - intros u v H. apply filter_In in H as [H _]. auto.
  - intros x y. apply halved_connectivity; auto.
Qed.
Print Assumptions C36_union_find_components.

(* the same with a sampling pre-pass that left parents = P0 (pointers to smaller
   or equal ids, within components) and picked freq as most frequent label:
   vertices labelled freq skip their edges *)
Theorem C36_union_find_components_sampled :
  forall n mx f o (G : list (nat * nat)) (P0 : nat -> nat) freq sched1 sched2,
  no_splice_atomic o -> symmetric G -> edges_in_range n G ->
  (forall x, P0 x <= x) -> (forall x, connected G x (P0 x)) ->
  let E := filter (fun e => negb (P0 (fst e) =? freq)) G in
  let s1 := exec n sched1 (init P0 (map (fun e => unite mx f o (fst e) (snd e)) E)) in
  all_returned s1 (length E) ->
  let s2 := exec n sched2 (init (par (fst s1)) (label_pass n (label_vertex f))) in
  all_returned s2 n ->
  component_labels n G (par (fst s2)).
Proof.
  intros n mx f o G P0 freq sched1 sched2 Ho Hs Hr Hd Hc E s1 H1 s2 H2.
  apply (@labels_from n mx f o G E P0 (label_vertex f) sched1 sched2); auto.
  - intros u v H. apply filter_In in H as [H _]. auto.
  - intros x y. apply sampled_connectivity; auto.
Qed.
Print Assumptions C36_union_find_components_sampled.

(* SimpleUnionAsync/Connectivity.h:119-132 (pred = always true) and 137-152
   CC_predicate: unite every edge that satisfies pred, then finish() *)
Theorem C36_simple_union_async :
  forall n mx (G : list (nat * nat)) (pred : nat * nat -> bool) sched1 sched2,
  edges_in_range n G ->
  let E := filter pred G in
  let s1 := exec n sched1 (init (fun x => x) (map (fun e => unite mx FindCompress USimple (fst e) (snd e)) E)) in
  all_returned s1 (length E) ->
  let s2 := exec n sched2 (init (par (fst s1)) (label_pass n find_compress)) in
  all_returned s2 n ->
  component_labels n E (par (fst s2)).
Proof.
  intros n mx G pred sched1 sched2 Hr E s1 H1 s2 H2.
  apply (@labels_from n mx FindCompress USimple E E (fun x => x) find_compress sched1 sched2); auto.
  - split; discriminate.
  - intros u v H. apply filter_In in H as [H _]. auto.
  - intros x y. split; intros H.
    + induction H as [a b [H|H]|a|a b _ IH|a b c _ IH1 _ IH2];
        [now apply rst_step|subst; apply rst_refl|apply rst_refl|now apply rst_sym|eapply rst_trans; eauto].
    + induction H as [a b H|a|a b _ IH|a b c _ IH1 _ IH2];
        [now (apply rst_step; auto)|apply rst_refl|now apply rst_sym|eapply rst_trans; eauto].
Qed.
Print Assumptions C36_simple_union_async.

Ltac cases_in H :=
  simpl in H;
  repeat match type of H with _ \/ _ => destruct H as [H|H]; [injection H as <- <-|] end;
  try contradiction.

(* hypotheses met by a 6-vertex graph with two non-trivial components *)
Definition ex_G : list (nat * nat) := [(0, 2); (2, 0); (2, 5); (5, 2); (1, 4); (4, 1)].
Definition ex_s1 f o :=
  exec 6 (concat (repeat [0; 2; 1] 40))
    (init (fun x => x) (map (fun e => unite 99 f o (fst e) (snd e)) (filter (fun e => snd e <? fst e) ex_G))).
Definition ex_s2 f o :=
  exec 6 (concat (repeat [5; 0; 2; 4; 1; 3] 10)) (init (par (fst (ex_s1 f o))) (label_pass 6 (label_vertex f))).
Example C36_example :
  symmetric ex_G /\ edges_in_range 6 ex_G /\
  all_returned (ex_s1 FindSplit (URemCAS HalveOne)) 3 /\
  all_returned (ex_s2 FindSplit (URemCAS HalveOne)) 6 /\
  map (par (fst (ex_s2 FindSplit (URemCAS HalveOne)))) [0; 1; 2; 3; 4; 5] = [0; 1; 0; 3; 1; 0].
Proof.
  repeat split.
  - intros u v H. cases_in H; simpl; auto 10.
  - cases_in H; lia.
  - cases_in H; lia.
  - intros t Ht. apply is_ret_returned; [vm_compute; reflexivity|exact Ht].
  - intros t Ht. apply is_ret_returned; [vm_compute; reflexivity|exact Ht].
Qed.

(* Sampling by LDD (and by BFS) does not promise P0 x <= x.  With UniteEarly the
   property is then false: cluster {0,1} with centre 1, vertex 2 alone and
   sampled as most frequent: uniting edge (0,1), which is inside a cluster, turns
   parents[0] = 1, parents[1] = 1 into a cycle. *)
Theorem C36_early_after_ldd_sampling_refuted :
  exists n mx f (G : list (nat * nat)) (P0 : nat -> nat) freq sched,
    symmetric G /\ edges_in_range n G /\ (forall x, connected G x (P0 x)) /\
    (forall x, P0 (P0 x) = P0 x) /\
    let E := filter (fun e => negb (P0 (fst e) =? freq)) G in
    let s := exec n sched (init P0 (map (fun e => unite mx f UEarly (fst e) (snd e)) E)) in
    exists x, x < n /\ ~ exists r, tree_root (par (fst s)) x r.
Proof.
  exists 3, 99, FindNaive, [(0, 1); (1, 0)], (fun x => match x with 0 => 1 | _ => x end), 2, [0; 0].
  repeat split.
  - intros u v H. cases_in H; simpl; auto.
  - cases_in H; lia.
  - cases_in H; lia.
  - intros [|x]; [apply rst_step; simpl; auto|apply rst_refl].
  - intros [|x]; reflexivity.
  - exists 0. split; [lia|]. apply cycle_no_root with (b := 1); vm_compute; congruence.
Qed.
Print Assumptions C36_early_after_ldd_sampling_refuted.
