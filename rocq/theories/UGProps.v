(* C85: connectivity by sampling and union-find finds the components. *)
From Coq Require Import Permutation.
From Verif Require Import Base EMSpec LDSpec LDModel LDProps UFSpec UFModel UFSys UFWait UFProps UGSpec UGModel UGProofs UGKout UGBfs.
Unset Strict Implicit.

Lemma edges_iff n outn u v : In (u, v) (edges n outn) <-> u < n /\ In v (outn u).
Proof.
  unfold edges. rewrite in_flat_map. split.
  - intros (x & Hx & H). apply in_map_iff in H as (y & E & H). injection E as -> ->. apply in_seq in Hx. split; [lia|auto].
  - intros [H1 H2]. exists u. split; [apply in_seq; lia|]. apply in_map_iff. eauto.
Qed.
Lemma sym_of n outn : graph_ok n outn outn -> forall a b, a < n -> In b (outn a) -> In a (outn b).
Proof. intros Hg a b Ha H. apply (@g_dual _ _ _ Hg); auto. eapply (@g_out _ _ _ Hg); eauto. Qed.
Lemma range_of n outn : graph_ok n outn outn -> forall a b, a < n -> In b (outn a) -> b < n.
Proof. intros Hg a b Ha H. eapply (@g_out _ _ _ Hg); eauto. Qed.
Lemma edges_sym n outn : graph_ok n outn outn -> symmetric (edges n outn).
Proof.
  intros Hg u v H. apply edges_iff in H as [H1 H2]. apply edges_iff. split; [eapply range_of; eauto|eapply sym_of; eauto].
Qed.
Lemma edges_range n outn : graph_ok n outn outn -> edges_in_range n (edges n outn).
Proof. intros Hg u v H. apply edges_iff in H as [H1 H2]. split; auto. eapply range_of; eauto. Qed.
Lemma connected_incl E E' x y : incl E E' -> connected E x y -> connected E' x y.
Proof. intros Hi H. induction H; [apply rst_step; auto|apply rst_refl|now apply rst_sym|eapply rst_trans; eauto]. Qed.

(* k-out sampling, in any schedules of its loops: the labels are no larger than the vertices, label
   themselves, and are equal exactly for vertices connected by the sampled pairs, which are edges *)
Theorem C85_kout_sampling : forall n outn rnd ko r P, graph_ok n outn outn -> kout outn rnd n ko r P ->
  (forall x, P x <= x) /\ self_labelled n P /\ incl (sampled outn rnd n ko r) (edges n outn) /\
  (forall i j, i < n -> j < n -> P i = P j <-> connected (sampled outn rnd n ko r) i j).
Proof.
  intros n outn rnd ko r P Hg H. destruct (kout_correct (sym_of Hg) (range_of Hg) H) as (H1 & H2 & H3 & H4).
  split; auto. split; auto. split; auto. intros [u v] Hin. unfold sampled in Hin. apply in_flat_map in Hin as (q & _ & Hin).
  apply edges_iff. exact (kpairs_edges (sym_of Hg) Hin).
Qed.
Print Assumptions C85_kout_sampling.

(* which pairs are sampled: in the first round every vertex that has a neighbour is paired with its
   first one (hybrid, afforest), one of the largest degree (max-degree) or any (pure); afforest pairs
   it with its r-th neighbour in round r, hybrid with one after the first in the later rounds *)
Theorem C85_kout_choices : forall n outn rnd ko r u, graph_ok n outn outn -> u < n -> outn u <> [] -> 0 < r ->
  exists v, In v (outn u) /\ In (u, v) (sampled outn rnd n ko r) /\
    (ko = KHybrid -> nth_error (outn u) 0 = Some v /\
      (1 < r -> 1 < length (outn u) -> exists i w, 0 < i /\ nth_error (outn u) i = Some w /\ In (u, w) (sampled outn rnd n ko r))) /\
    (ko = KMaxDegree -> forall w, In w (outn u) -> length (outn w) <= length (outn v)) /\
    (ko = KAfforest -> forall i w, i < r -> nth_error (outn u) i = Some w -> In (u, w) (sampled outn rnd n ko r)).
Proof. intros n outn rnd ko r u Hg. apply kout_choices. exact (sym_of Hg). Qed.
Print Assumptions C85_kout_choices.

(* both loops of a round end, and no access is out of bounds *)
Theorem C85_kout_round_ends : forall n outn rnd ko r P sl sc, graph_ok n outn outn -> kout outn rnd n ko r P ->
  let s1 := link_phase outn rnd n ko r sl P in let s2 := compress_phase n sc (par (fst s1)) in
  (forall t, ~ faulted s1 t) /\ (forall t, ~ faulted s2 t) /\
  ((forall t, t < n -> wait_free_steps n <= count_occ Nat.eq_dec sl t) ->
   (forall t, t < n -> 6 * n <= count_occ Nat.eq_dec sc t) -> finished s1 /\ finished s2).
Proof.
  intros n outn rnd ko r P sl sc Hg H s1 s2. destruct (kout_correct (sym_of Hg) (range_of Hg) H) as (H1 & _).
  pose proof (@run_sound n 0 FindNaive ULink no_splice_link P _ sl H1 (in_range_edges (@kpairs_range n outn rnd (sym_of Hg) (range_of Hg) ko r))) as (A & B & _).
  rewrite <- (link_unite 0 FindNaive) in A, B. split; [exact A|]. split.
  - apply compress_correct. exact B.
  - intros C1 C2. apply round_ends; auto; [exact (sym_of Hg)|exact (range_of Hg)].
Qed.
Print Assumptions C85_kout_round_ends.

(* the afforest variant with as many rounds as the largest degree finds the components by itself *)
Theorem C85_afforest_all_rounds : forall n outn rnd r P, graph_ok n outn outn -> kout outn rnd n KAfforest r P ->
  (forall u, u < n -> length (outn u) <= r) -> component_labels n (edges n outn) P.
Proof.
  intros n outn rnd r P Hg H Hr. destruct (C85_kout_sampling Hg H) as (_ & Hsl & Hi & Hc).
  assert (Hj : incl (edges n outn) (sampled outn rnd n KAfforest r)).
  { intros [u v] Hin. apply edges_iff in Hin as [Hu Hv]. apply In_nth_error in Hv as [i Ei].
    assert (Hlt : i < length (outn u)) by (apply nth_error_Some; congruence). specialize (Hr u Hu).
    unfold sampled. apply in_flat_map. exists i. split; [apply in_seq; lia|]. unfold kpairs. apply in_flat_map. exists u.
    split; [apply in_seq; lia|]. unfold afforest_pair. rewrite (proj2 (Nat.ltb_lt i _) Hlt). unfold ith. rewrite Ei. simpl. auto. }
  intros i j Hi1 Hj1. pose proof (Hc i j Hi1 Hj1) as X. pose proof (@connected_incl _ _ i j Hi). pose proof (@connected_incl _ _ i j Hj). destruct (Hsl i Hi1). tauto.
Qed.
Print Assumptions C85_afforest_all_rounds.

(* BFS sampling: whatever the direction of the rounds and the schedules, the vertices reachable from
   the source get its label, the others keep their own *)
Theorem C85_bfs_sampling : forall n m outn inn big src k l st, graph_ok n outn inn -> src < n ->
  bfs n m outn inn big src k l st [] ->
  forall v, (reaches outn src v -> l v = src) /\ (~ reaches outn src v -> l v = v).
Proof. intros n m outn inn big src k l st Hg Hs H. eapply bfs_labels; eauto. Qed.
Print Assumptions C85_bfs_sampling.

(* unless the source has an edge to itself the search can always go on, and ends within 2n - 1 rounds *)
Theorem C85_bfs_ends : forall n m outn inn big src, graph_ok n outn inn -> src < n -> ~ In src (outn src) ->
  (forall k l st F, bfs n m outn inn big src k l st F -> k <= 2 * n - 1) /\
  (forall k l st F, bfs n m outn inn big src k l st F -> F <> [] -> exists l' st' F', bfs n m outn inn big src (S k) l' st' F') /\
  exists k l st, bfs n m outn inn big src k l st [].
Proof.
  intros n m outn inn big src Hg Hs Hl. split; [|split].
  - intros k l st F H. pose proof (bfs_rounds Hg Hs Hl H). lia.
  - intros k l st F H Hne. destruct (bfs_next H Hne) as (l' & F' & H'). eauto.
  - apply bfs_ends; auto.
Qed.
Print Assumptions C85_bfs_ends.

(* a source whose only edge goes to itself, in a graph with at least 40 edges: no run ends *)
Theorem C85_bfs_self_loop_refuted : forall n m outn inn big src, graph_ok n outn inn -> src < n -> outn src = [src] -> 40 <= m ->
  (forall k l st F, bfs n m outn inn big src k l st F -> F <> []) /\
  (forall k, exists l st F, bfs n m outn inn big src k l st F).
Proof.
  intros n m outn inn big src Hg Hs Ho Hm.
  assert (A : forall k l st F, bfs n m outn inn big src k l st F -> F <> []).
  { intros k l st F H. destruct (bfs_loops Hg Hs Ho Hm H) as [-> _]. discriminate. }
  split; auto. induction k as [|k (l & st & F & IH)]; [do 3 eexists; apply bfs_start|].
  destruct (bfs_next IH (A _ _ _ _ IH)) as (l' & F' & H). eauto.
Qed.
Print Assumptions C85_bfs_self_loop_refuted.

(* the labels a sampler returns *)
Definition ldd_labels (clu : nat -> option nat) (x : nat) : nat := match clu x with Some c => c | None => x end.
Inductive sampled_labels (n : nat) (outn : nat -> list nat) : (nat -> nat) -> Prop :=
| by_kout : forall rnd ko r P, kout outn rnd n ko r P -> sampled_labels n outn P
| by_bfs : forall m big l, bfs_sample n m outn outn big l -> sampled_labels n outn l
| by_ldd : forall m incs perm clu par, covers n incs -> Permutation perm (seq 0 n) ->
    ldd_returns n outn outn m (generate_shifts incs) perm clu par -> sampled_labels n outn (ldd_labels clu).

Lemma reaches_connected n outn u v : graph_ok n outn outn -> u < n -> reaches outn u v -> v < n /\ connected (edges n outn) u v.
Proof.
  intros Hg Hu H. apply clos_rt_rtn1 in H. induction H as [|y z Hy _ [IH1 IH2]]; [split; auto; apply rst_refl|].
  split; [eapply range_of; eauto|]. eapply rst_trans; [exact IH2|]. apply rst_step, edges_iff. auto.
Qed.

Theorem C85_samplers : forall n outn P, graph_ok n outn outn -> sampled_labels n outn P ->
  self_labelled n P /\ forall x, x < n -> connected (edges n outn) x (P x).
Proof.
  intros n outn P Hg H. destruct H as [rnd ko r P H|m big l (src & k & st & Hs & H)|m incs perm clu par_ Hc Hp H].
  - destruct (C85_kout_sampling Hg H) as (H1 & H2 & H3 & H4). split; auto. intros x Hx. destruct (H2 x Hx) as [A B].
    apply (connected_incl H3). apply H4; auto.
  - pose proof (C85_bfs_sampling Hg Hs H) as Hl. destruct (bfs_inv Hg Hs H) as [I1 I2 _ _].
    assert (Esrc : l src = src) by (destruct (I1 src); auto). split.
    + intros x Hx. destruct (I1 x) as [E|E]; rewrite E; auto.
    + intros x Hx. destruct (I1 x) as [E|E]; rewrite E; [apply rst_refl|]. apply rst_sym. apply reaches_connected; auto.
  - assert (Hin : forall v, v < n -> exists c k, c < n /\ in_cluster outn clu par_ c k v).
    { intros v Hv. destruct (C53_clusters Hg Hc Hp H Hv) as (c & k & A & _ & B). eauto. }
    assert (Hclu : forall c k v, in_cluster outn clu par_ c k v -> clu v = Some c) by (intros c k v X; destruct X; auto).
    assert (Hcen : forall c k v, in_cluster outn clu par_ c k v -> clu c = Some c) by (intros c k v X; induction X; auto).
    assert (Hcon : forall c k v, in_cluster outn clu par_ c k v -> c < n -> v < n /\ connected (edges n outn) v c).
    { intros c k v X Hcn. induction X as [|k p v X [IH1 IH2] _ _ Hv _]; [split; auto; apply rst_refl|]. split; [eapply range_of; eauto|].
      eapply rst_trans; [|exact IH2]. apply rst_sym, rst_step, edges_iff. auto. }
    split; intros x Hx; destruct (Hin x Hx) as (c & k & A & B); unfold ldd_labels; rewrite (Hclu _ _ _ B).
    + rewrite (Hcen _ _ _ B). auto.
    + exact (proj2 (Hcon _ _ _ B A)).
Qed.
Print Assumptions C85_samplers.

(* every sampler, every union-find variant without SpliceAtomic other than UniteEarly, every frequent
   label, every schedule: no access is out of bounds, at any time every vertex is in a rooted tree, and
   the labels at the end are those of the connected components *)
Theorem C85_components : forall n outn mx f o P0 freq sched1 sched2,
  graph_ok n outn outn -> no_splice_atomic o -> o <> UEarly -> sampled_labels n outn P0 ->
  let s1 := union_phase n mx f o (edges n outn) freq sched1 P0 in
  let s2 := label_phase n f sched2 (par (fst s1)) in
  (forall t, ~ faulted s1 t) /\ (forall t, ~ faulted s2 t) /\
  (forall i, i < n -> par (fst s1) i < n /\ exists r, tree_root (par (fst s1)) i r) /\
  (finished s1 -> finished s2 -> component_labels n (edges n outn) (par (fst s2))).
Proof.
  intros n outn mx f o P0 freq sched1 sched2 Hg Ho He Hs. destruct (C85_samplers Hg Hs) as [H1 H2].
  set (E := filter (fun e => negb (P0 (fst e) =? freq)) (edges n outn)).
  assert (HE : edges_in_range n E) by (intros u v H; apply filter_In in H as [H _]; now apply (edges_range Hg)).
  intros s1 s2. pose proof (@flat_nofault n mx f o He P0 H1 E HE sched1 sched2) as [A B].
  split; [exact A|]. split; [exact B|]. split; [exact (@flat_tree n mx f o Ho He P0 H1 E HE sched1)|].
  assert (L : forall sch s, length (snd (exec n sch s)) = length (snd s)).
  { clear. induction sch as [|z sch IHs]; intros s; simpl; auto. rewrite IHs. unfold sys_step. destruct (nth_error (snd s) z); auto.
    destruct (tstep n z (fst s) t). simpl. apply length_lset. }
  intros F1 F2. eapply (@flat_run n mx f o Ho He P0 H1 E HE sched1 sched2).
  - apply sampled_ren; auto; [exact (edges_sym Hg)|exact (edges_range Hg)].
  - intros t Ht. apply F1. unfold s1, union_phase. rewrite L. simpl. rewrite !map_length. exact Ht.
  - intros t Ht. apply F2. unfold s2, label_phase. rewrite L. simpl. rewrite !map_length, seq_length. exact Ht.
Qed.
Print Assumptions C85_components.

(* with the strategies without locks and hooks both phases end *)
Theorem C85_ends : forall n outn mx f o P0 freq sched1 sched2,
  graph_ok n outn outn -> no_splice_atomic o -> o <> UEarly -> no_waiting o -> sampled_labels n outn P0 ->
  (forall t, t < length (edges n outn) -> wait_free_steps (n + n) <= count_occ Nat.eq_dec sched1 t) ->
  (forall t, t < n -> wait_free_steps (n + n) <= count_occ Nat.eq_dec sched2 t) ->
  let s1 := union_phase n mx f o (edges n outn) freq sched1 P0 in
  finished s1 /\ finished (label_phase n f sched2 (par (fst s1))).
Proof.
  intros n outn mx f o P0 freq sched1 sched2 Hg Ho He Hw Hs C1 C2. destruct (C85_samplers Hg Hs) as [H1 H2].
  set (E := filter (fun e => negb (P0 (fst e) =? freq)) (edges n outn)).
  assert (HE : edges_in_range n E) by (intros u v H; apply filter_In in H as [H _]; now apply (edges_range Hg)).
  assert (L : forall sch s, length (snd (exec n sch s)) = length (snd s)).
  { clear. induction sch as [|z sch IHs]; intros s; simpl; auto. rewrite IHs. unfold sys_step. destruct (nth_error (snd s) z); auto.
    destruct (tstep n z (fst s) t). simpl. apply length_lset. }
  assert (HL : length E <= length (edges n outn)).
  { unfold E. clear. induction (edges n outn) as [|a k IH]; simpl; auto. destruct (negb _); simpl; lia. }
  intros s1. destruct (@flat_ends n mx f o Ho He P0 H1 E sched1 sched2 Hw HE) as [A B]; auto.
  { intros t Ht. apply C1. lia. }
  split.
  - intros t Ht. unfold s1, union_phase in Ht. rewrite L in Ht. simpl in Ht. rewrite !map_length in Ht. exact (A t Ht).
  - intros t Ht. unfold label_phase in Ht. rewrite L in Ht. simpl in Ht. rewrite !map_length, seq_length in Ht. exact (B t Ht).
Qed.
Print Assumptions C85_ends.

(* UniteEarly is correct after k-out sampling ... *)
Theorem C85_early_after_kout : forall n outn mx f rnd ko r P0 freq sched1 sched2,
  graph_ok n outn outn -> kout outn rnd n ko r P0 ->
  let s1 := union_phase n mx f UEarly (edges n outn) freq sched1 P0 in
  let s2 := label_phase n f sched2 (par (fst s1)) in
  finished s1 -> finished s2 -> component_labels n (edges n outn) (par (fst s2)).
Proof.
  intros n outn mx f rnd ko r P0 freq sched1 sched2 Hg H s1 s2 F1 F2.
  destruct (kout_correct (sym_of Hg) (range_of Hg) H) as (Hd & Ho & _).
  destruct (C85_samplers Hg (by_kout H)) as [H1 H2].
  assert (L : forall sch s, length (snd (exec n sch s)) = length (snd s)).
  { clear. induction sch as [|z sch IHs]; intros s; simpl; auto. rewrite IHs. unfold sys_step. destruct (nth_error (snd s) z); auto.
    destruct (tstep n z (fst s) t). simpl. apply length_lset. }
  apply (@C36_union_find_components_sampled n mx f UEarly (edges n outn) P0 freq sched1 sched2).
  - split; discriminate.
  - exact (edges_sym Hg).
  - exact (edges_range Hg).
  - exact Hd.
  - intros x. destruct (Nat.lt_ge_cases x n) as [Hx|Hx]; auto. rewrite Ho by auto. apply rst_refl.
  - intros t Ht. apply F1. unfold s1, union_phase. rewrite L. simpl. rewrite !map_length. exact Ht.
  - intros t Ht. apply F2. unfold s2, label_phase. rewrite L. simpl. rewrite !map_length, seq_length. exact Ht.
Qed.
Print Assumptions C85_early_after_kout.

(* ... but not after BFS sampling, whose labels can be larger than the vertices: a cycle is reachable *)
Definition pair_graph (v : nat) : list nat := match v with 0 => [1] | 1 => [0] | _ => [] end.
Lemma pair_ok : graph_ok 3 pair_graph pair_graph.
Proof.
  constructor.
  - intros s d Hs Hd. destruct s as [|[|[|s]]], d as [|[|[|d]]]; simpl; try lia; intuition lia.
  - intros s d Hs H. destruct s as [|[|[|s]]]; simpl in H; try lia; intuition lia.
  - intros s d Hs H. destruct d as [|[|[|d]]]; simpl in H; try lia; intuition lia.
Qed.
Lemma pair_bfs : bfs_sample 3 2 pair_graph pair_graph (fun _ => false) (fset (fun i => i) 0 1).
Proof.
  exists 1, 2, true. split; [lia|].
  assert (R1 : bfs 3 2 pair_graph pair_graph (fun _ => false) 1 1 (fset (fun i => i) 0 1) true [0]).
  { apply (@bfs_round 3 2 pair_graph pair_graph (fun _ => false) 1 0 (fun i => i) false [1] [[(1, 0, false)]] [0; 0] [0]).
    - apply bfs_start.
    - discriminate.
    - apply Permutation_refl.
    - repeat constructor.
    - simpl. split; [repeat constructor; simpl; tauto|tauto]. }
  apply (@bfs_round 3 2 pair_graph pair_graph (fun _ => false) 1 1 _ true [0] [[(0, 1, false)]] [0; 0] [] R1).
  - discriminate.
  - apply Permutation_refl.
  - repeat constructor.
  - simpl. split; [constructor|tauto].
Qed.
Theorem C85_early_after_bfs_refuted :
  exists n outn m big P0 freq mx f sched, graph_ok n outn outn /\ bfs_sample n m outn outn big P0 /\ (exists x, x < n /\ P0 x = freq) /\
    exists x, x < n /\ ~ exists r, tree_root (par (fst (union_phase n mx f UEarly (edges n outn) freq sched P0))) x r.
Proof.
  exists 3, pair_graph, 2, (fun _ => false), (fset (fun i => i) 0 1), 2, 99, FindNaive, [0; 0].
  split; [exact pair_ok|]. split; [exact pair_bfs|]. split; [exists 2; split; [lia|reflexivity]|].
  exists 0. split; [lia|]. apply cycle_no_root with (b := 1); vm_compute; congruence.
Qed.
Print Assumptions C85_early_after_bfs_refuted.

(* the hypotheses are met: a run of every sampler on the graph 0 - 1, 2 *)
Example C85_run_bfs : exists P0 sched1 sched2, sampled_labels 3 pair_graph P0 /\ P0 0 = 1 /\
  let s1 := union_phase 3 99 FindNaive USimple (edges 3 pair_graph) 2 sched1 P0 in
  let s2 := label_phase 3 FindNaive sched2 (par (fst s1)) in
  finished s1 /\ finished s2 /\ par (fst s2) 0 = 1 /\ par (fst s2) 1 = 1 /\ par (fst s2) 2 = 2.
Proof.
  exists (fset (fun i => i) 0 1), (concat (repeat [0; 1] 40)), (concat (repeat [0; 1; 2] 40)).
  split; [exact (by_bfs pair_bfs)|]. split; [reflexivity|].
  split; [|split].
  - intros t. apply is_ret_returned. vm_compute. reflexivity.
  - intros t. apply is_ret_returned. vm_compute. reflexivity.
  - repeat split; vm_compute; reflexivity.
Qed.
Example C85_run_kout : exists P, kout pair_graph (fun _ _ => 0) 3 KHybrid 1 P /\ P 1 = 0 /\ P 2 = 2.
Proof.
  eexists. split.
  - apply (@kout_round pair_graph (fun _ _ => 0) 3 KHybrid 0 (fun i => i) (concat (repeat [0; 1] 12)) (concat (repeat [0; 1; 2] 24))).
    + apply kout_start.
    + intros t. apply is_ret_returned. vm_compute. reflexivity.
    + intros t. apply is_ret_returned. vm_compute. reflexivity.
  - split; vm_compute; reflexivity.
Qed.
