(* Theorems for C79. *)
From Verif Require Import Base VSModel VSSpec EMModel EMSpec EMProps FAModel FASpec FAProofs
  UFSpec FRSpec CTSpec BTModel BTSpec BTProofs BTLoops BTFinal.
Unset Strict Implicit.

Lemma tree_of n outn least par : graph_ok n outn outn -> FInv n outn least n par -> bfs_tree n outn least (parents_to_edges n par).
Proof.
  intros G HF v Hv. destruct (has_parent HF Hv) as [p E]. destruct (has_root HF Hv) as [r Hr]. exists r. split; auto.
  pose proof (root_parent G HF Hr E) as Hrp. destruct (Nat.eq_dec v r) as [Hvr|Hvr].
  - left. split; auto. intros q Hq. apply in_edges in Hq as (_ & E' & Hne). assert (q = p) by congruence. subst q. tauto.
  - right. split; auto. exists p. assert (Hne : p <> v) by tauto.
    destruct (parent_edge HF Hv E Hne) as (r' & Hr' & Hc). pose proof (root_fun G Hr Hr'). subst r'. split; auto.
    intros q. rewrite in_edges. split; [intros (_ & E' & _); congruence|]. intros ->. auto.
Qed.

(* C79: SpanningForest.  Whatever traversal each round uses and however its tasks interleave,
   there is a result, and every result is a spanning forest of the graph made of breadth-first
   search trees rooted at the least vertices of the components. *)
Theorem C79_bfs_forest : forall n outn m, graph_ok n outn outn ->
  (exists T, bfs_forest_returns n outn m T) /\
  (forall T, bfs_forest_returns n outn m T ->
     spanning_forest (unweighted (pairs n outn)) (unweighted T) /\ bfs_tree n outn false T).
Proof.
  intros n outn m G. split.
  - destruct (bfs_forest_exists G m (le_n n)) as [par H]. exists (parents_to_edges n par), par. auto.
  - intros T (par & H & ->). pose proof (bfs_forest_inv G (le_n n) H) as HF. split; [now apply (result_spanning G HF)|now apply tree_of].
Qed.
Print Assumptions C79_bfs_forest.

(* C79: SpanningForestDet, on graphs without parallel edges.  In addition every vertex is
   paired with the least of the neighbours that are closer to the root. *)
Theorem C79_bfs_forest_det : forall n outn m, graph_ok n outn outn -> (forall u, NoDup (outn u)) ->
  (exists T, det_forest_returns n outn m T) /\
  (forall T, det_forest_returns n outn m T ->
     spanning_forest (unweighted (pairs n outn)) (unweighted T) /\ bfs_tree n outn true T).
Proof.
  intros n outn m G Hs. split.
  - destruct (det_forest_exists G m Hs (le_n n)) as (par & vis & H). exists (parents_to_edges n par), par, vis. auto.
  - intros T (par & vis & H & ->). destruct (det_forest_inv G Hs (le_n n) H) as [HF _]. split; [now apply (result_spanning G HF)|now apply tree_of].
Qed.
Print Assumptions C79_bfs_forest_det.

(* ... so that its result is the same list in every execution *)
Theorem C79_deterministic : forall n outn m m' T T', graph_ok n outn outn -> (forall u, NoDup (outn u)) ->
  det_forest_returns n outn m T -> det_forest_returns n outn m' T' -> T = T'.
Proof.
  intros n outn m m' T T' G Hs (par & vis & H & ->) (par' & vis' & H' & ->).
  destruct (det_forest_inv G Hs (le_n n) H) as [HF _]. destruct (det_forest_inv G Hs (le_n n) H') as [HF' _].
  assert (E : forall v, v < n -> par v = par' v).
  { intros v Hv. destruct (has_parent HF Hv) as [p E]. destruct (has_parent HF' Hv) as [p' E']. rewrite E, E'. f_equal.
    destruct (has_root HF Hv) as [r Hr]. pose proof (root_parent G HF Hr E) as X. pose proof (root_parent G HF' Hr E') as X'.
    destruct (Nat.eq_dec v r) as [Hvr|Hvr]; [rewrite (proj2 X Hvr), (proj2 X' Hvr); auto|].
    destruct (parent_edge HF Hv E) as (r1 & R1 & C1 & j1 & C2 & C3 & C4); [tauto|].
    destruct (parent_edge HF' Hv E') as (r2 & R2 & D1 & j2 & D2 & D3 & D4); [tauto|].
    pose proof (root_fun G Hr R1). pose proof (root_fun G Hr R2). subst r1 r2.
    pose proof (dist_inj C3 D3) as Ej. injection Ej as <-. apply Nat.le_antisymm; [apply C4|apply D4]; auto. }
  unfold parents_to_edges. rewrite !flat_map_concat_map. f_equal. apply map_ext_in. intros v Hv. apply in_seq in Hv. rewrite E by lia. auto.
Qed.
Print Assumptions C79_deterministic.

(* the searches of SpanningForestDet end: at most n rounds, every round can be run, and no
   interleaving of a traversal goes on for ever *)
Theorem C79_rounds : forall n outn m source par0 vis0 k par vis U, graph_ok n outn outn -> (forall u, NoDup (outn u)) ->
  source < n -> (forall v, reachable outn source v -> par0 v = None) -> (forall v, vis0 v = true <-> par0 v <> None) ->
  det_loop n outn m source par0 vis0 k par vis U ->
  k <= n /\ exists U1 par1 vis1 out1 U2 par2 vis2 out2, edgeMap_det n outn m Det_F U par vis U1 par1 vis1 out1 /\
    edgeMap_det n outn m Det_F_2 U1 par1 vis1 U2 par2 vis2 out2.
Proof.
  intros n outn m source par0 vis0 k par vis U G Hs Hsrc H0 Hv H. split.
  - exact (det_bound G Hs Hsrc H0 Hv H).
  - exact (det_round G Hs Hsrc H0 Hv H).
Qed.
Print Assumptions C79_rounds.
Fixpoint dbusy (sched : list nat) (s : dstate) : Prop :=
  match sched with
  | [] => True
  | t :: r => (exists th, nth_error (dthr s) t = Some th /\ dtodo th <> []) /\ dbusy r (dstep s t)
  end.
Theorem C79_round_terminates : forall f par vis ts us, exists N, forall sched,
  dbusy sched (dstart par vis (dtasks (atomic_of f) ts ++ dtasks (plain_of f) us)) -> length sched <= N.
Proof.
  intros f par vis ts us. set (s := dstart _ _ _). exists (dpotential s). intros sched.
  assert (Ha : forall th, In th (dthr s) -> dafter th <> VTest).
  { simpl. intros th Hth. apply in_app_iff in Hth as [Hth|Hth]; apply dtasks_in in Hth as [_ ->]; destruct f; discriminate. }
  clearbody s. revert s Ha. induction sched as [|t r IH]; intros s Ha H; simpl; [lia|].
  destruct H as [(th & Ht & Hn) H]. apply IH in H; [|now apply dafter_step].
  assert (Hat : dafter th <> VTest) by (apply Ha; eapply nth_error_In; eauto). pose proof (dpot_decr Ht Hn Hat). lia.
Qed.
Print Assumptions C79_round_terminates.

(* two components: a diamond with a tail, and an edge *)
Definition bt_out (v : nat) : list nat := nth v [[1; 2]; [0; 3]; [0; 3; 4]; [1; 2]; [2]; [6]; [5]] [].
Example C79_graph_example : graph_ok 7 bt_out bt_out /\ forall u, NoDup (bt_out u).
Proof.
  split.
  - split.
    + intros s d Hs Hd. do 7 (destruct s as [|s]; [do 7 (destruct d as [|d]; [simpl; intuition lia|]); lia|]). lia.
    + intros s d Hs. do 7 (destruct s as [|s]; [simpl; intuition lia|]). lia.
    + intros s d Hd. do 7 (destruct d as [|d]; [simpl; intuition lia|]). lia.
  - intros u. do 7 (destruct u as [|u]; [repeat constructor; simpl; intuition lia|]). unfold bt_out. destruct u; constructor.
Qed.
(* the second round of the search from 0, in parallel blocks: 2 writes parents[3] first, 1 then
   lowers it; only 1 emits 3, and 2 emits 4 *)
Definition bt_U : vset unit := toDense tt (vs_sparse 7 [(1, tt); (2, tt)]).
Definition bt_par : pstate := fun v => nth v [Some 0; Some 0; Some 0] None.
Definition bt_vis (v : nat) : bool := v <? 3.
Definition bt_threads (f : dfun) : list dthread :=
  dtasks (atomic_of f) (pull_threads 7 bt_out bt_U (fun v => v =? 3) 1) ++ dtasks (plain_of f) (small_threads 7 bt_out bt_U (fun v => v =? 3)).
Example C79_run_example :
  let s0 := dstart bt_par bt_vis (bt_threads Det_F) in
  let s1 := dexec [1; 1; 1; 0; 0; 0] s0 in
  let s2 := dexec (concat (repeat (seq 0 10) 9)) s1 in
  let s3 := dexec (concat (repeat (seq 0 10) 9)) (dstart (dpar s2) (dvis s2) (bt_threads Det_F_2)) in
  dpar (dexec [1; 1; 1] s0) 3 = Some 2 /\ dpar s1 3 = Some 1 /\ forallb (fun th => length (dtodo th) =? 0) (dthr s2) = true /\
  map (dpar s2) (seq 0 7) = [Some 0; Some 0; Some 0; Some 1; Some 2; None; None] /\
  forallb (fun th => length (dtodo th) =? 0) (dthr s3) = true /\
  map (fun a => (src a, dst a)) (dlog s3) = [(2, 4); (1, 3)] /\ map (dvis s3) (seq 0 7) = [true; true; true; true; true; false; false].
Proof. vm_compute. repeat split. Qed.
Example C79_edges_example : parents_to_edges 7 (fun v => nth v [Some 0; Some 0; Some 0; Some 1; Some 2; Some 5; Some 5] None)
  = [(1, 0); (2, 0); (3, 1); (4, 2); (6, 5)].
Proof. reflexivity. Qed.
