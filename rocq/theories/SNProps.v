(* C66: the spanner; C28 for insert_check. *)
From Coq Require Import Permutation.
From Verif Require Import Base ListUtil VSModel EMModel EMSpec FAModel HTModel HTSpec HTProofs HTProps
  LDModel LDSpec LDProofs LDProps CTModel CTSpec SNModel SNSpec SNCheck SNProofs.

(* C28.  insert_check, any number of concurrent callers, any interleaving, any limit on the
   probes: every call returns within 3 * limit + 5 steps, even if the table is too small; and if
   the flag abort is still false at the end, table and answers are those of a phase of insert. *)
Theorem C28_insert_check : forall (V : Type) (hash : nat -> nat) (e0 : V) limit t calls sched,
  let c := cexec hash e0 limit calls sched (cstart t calls) in
  (forall i, i < length calls -> 3 * limit + 5 <= steps sched i -> exists r, creturned c i r) /\
  (cfinished c -> cab c = false ->
   exists l, let s := exec e0 (fun _ v => v) None calls l (start hash t calls) in
     finished s /\ tab s = ctab c /\ forall i r, returned s i r <-> creturned c i r).
Proof.
  intros V hash e0 limit t calls sched c. split.
  - exact (@check_ends V hash e0 limit calls t sched).
  - exact (@check_is_insert V hash e0 limit calls t sched).
Qed.
Print Assumptions C28_insert_check.
(* two callers of the same key and a third key, one after the other *)
Example C28_insert_check_example :
  let calls := [(5, tt); (5, tt); (6, tt)] in
  let c := cexec (fun k => k) tt 4 calls (flat_map (fun i => repeat i 6) [0; 1; 2]) (cstart (new_table tt 4) calls) in
  cfinished c /\ cab c = false /\ creturned c 0 true /\ creturned c 1 false /\ creturned c 2 true.
Proof.
  cbv zeta. repeat split; try reflexivity. intros i p E.
  do 3 (destruct i as [|i]; [vm_compute in E; injection E as <-; eauto|]). vm_compute in E. destruct i; discriminate.
Qed.
(* a table with one cell and two keys: the second caller gives up and sets the flag *)
Example C28_insert_check_abort_example :
  let calls := [(5, tt); (6, tt)] in
  let c := cexec (fun k => k) tt 4 calls (flat_map (fun i => repeat i 20) [0; 1]) (cstart (new_table tt 1) calls) in
  cab c = true /\ creturned c 0 true /\ creturned c 1 false.
Proof. cbv zeta. repeat split; reflexivity. Qed.

(* C66.  For every undirected graph, every outcome of the decomposition, every hash function and
   every interleaving of the insertions: the returned pairs are edges of the graph, none twice in
   either direction, one for every vertex that is not the centre of its cluster and one for every
   pair of adjacent clusters; and the ends of every edge of the graph are joined by a walk along
   returned edges of at most 4 (r - 1) + 1 steps, r being the number of rounds provided for. *)
Theorem C66_spanner : forall hash limit n outn m incs clu par result,
  undirected n outn -> LDSpec.covers n incs ->
  spanner_returns hash limit n outn m incs clu par result ->
  (forall a b, In (a, b) result -> a < n /\ In b (outn a)) /\
  (NoDup result /\ forall a b, In (a, b) result -> ~ In (b, a) result) /\
  length result = (n - length (cluster_ids n clu)) + length (adjacent_pairs n outn clu) /\
  (forall u v, u < n -> In v (outn u) -> exists d, d <= 4 * (length incs - 1) + 1 /\ walk result d u v).
Proof.
  intros hash limit n outn m incs clu par result G Hc H. destruct H as [perm clu par inter Hp HL HI].
  assert (Gr : graph_ok n outn outn).
  { split; [intros s d Hs Hd; split; intros X; [apply (G s d Hs X)|apply (G d s Hd X)]|intros s d Hs X; apply (G s d Hs X)|intros s d Hd X; apply (G d s Hd X)]. }
  assert (HC : forall v, v < n -> exists c k, c < n /\ k < length incs /\ in_cluster outn clu par c k v).
  { intros v Hv. exact (C53_clusters Gr Hc Hp HL Hv). }
  split; [|split; [|split]].
  - exact (@whole_edges hash limit n outn clu par (length incs) G HC inter HI).
  - exact (@whole_NoDup hash limit n outn clu par (length incs) G HC inter HI).
  - rewrite app_length. f_equal.
    + eapply tree_length; eauto.
    + eapply inter_length; eauto.
  - exact (@stretch hash limit n outn clu par (length incs) G HC inter HI).
Qed.
Print Assumptions C66_spanner.

(* and a result always comes out: the decomposition ends (C53), insert_check always returns
   (C28_insert_check), and the exact table has room for all its keys *)
Theorem C66_returns : forall hash limit n outn m incs,
  undirected n outn -> LDSpec.covers n incs ->
  (exists clu par result, spanner_returns hash limit n outn m incs clu par result) /\
  (forall cl, let calls := span_calls n outn cl in let cells := table_for (length calls) in
   forall sched i, i < length calls -> 3 * cells + 2 <= steps sched i ->
     exists r, returned (exec no_edge (fun _ v => v) None calls sched (start hash (new_table no_edge cells) calls)) i r).
Proof.
  intros hash limit n outn m incs G Hc. split.
  - assert (Gr : graph_ok n outn outn).
    { split; [intros s d Hs Hd; split; intros X; [apply (G s d Hs X)|apply (G d s Hd X)]|intros s d Hs X; apply (G s d Hs X)|intros s d Hd X; apply (G d s Hd X)]. }
    destruct (C53_returns m Gr Hc (Permutation_refl _)) as (clu & par & HL).
    destruct (inter_some hash limit n outn (cluster_of n clu)) as (inter & HI).
    exists clu, par, (span_tree n par ++ inter). econstructor; eauto.
  - intros cl calls cells sched i Hi Hs.
    assert (Hnk : keys_of (new_table no_edge cells) = []) by (unfold keys_of, new_table; clear; induction cells; simpl; auto).
    destruct (@C28_insert _ hash no_edge cells (new_table no_edge cells) calls sched (table_for_pos _) (reached_new _ _ _ _ _)) as [Hw _]; [|auto].
    rewrite Hnk. simpl. unfold distinct. pose proof (table_for_fits (length calls)).
    assert (length (nodup Nat.eq_dec (map fst calls)) <= length (map fst calls)).
    { apply NoDup_incl_length; [apply NoDup_nodup|]. intros x Hx. now apply nodup_In in Hx. }
    rewrite map_length in *. unfold cells. lia.
Qed.
Print Assumptions C66_returns.

(* a cycle of four vertices with a pendant: three rounds provided for *)
Example C66_example :
  let outn := fun v => nth v [[1; 3]; [0; 2]; [1; 3; 4]; [0; 2]; [2]] [] in
  undirected 5 outn /\ LDSpec.covers 5 [1; 2; 2] /\
  exists clu par result, spanner_returns (fun k => k) 3 5 outn 10 [1; 2; 2] clu par result /\ result <> [].
Proof.
  cbv zeta. set (outn := fun v => nth v [[1; 3]; [0; 2]; [1; 3; 4]; [0; 2]; [2]] []).
  assert (G : undirected 5 outn).
  { intros u v Hu Hv. do 5 (destruct u as [|u]; [unfold outn in Hv |- *; simpl in Hv; repeat (destruct Hv as [<-|Hv]; [simpl; split; [lia|tauto]|]); destruct Hv|]). lia. }
  assert (Hc : LDSpec.covers 5 [1; 2; 2]) by (split; [repeat constructor; lia|vm_compute; lia]).
  split; auto. split; auto. destruct (C66_returns (fun k => k) 3 10 G Hc) as [(clu & par & result & H) _].
  exists clu, par, result. split; auto.
  destruct (C66_spanner G Hc H) as (_ & _ & _ & St).
  intros ->. destruct (St 0 1) as (d & _ & W); [lia|unfold outn; simpl; auto|]. inversion W; subst; simpl in *; tauto.
Qed.
