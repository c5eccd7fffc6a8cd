(* Theorems for C80. *)
From Verif Require Import Base ListUtil VSModel VSSpec EMModel EMSpec EMProps FASpec FAProofs UFSpec FRSpec CTSpec
  RSModel RSProps BTSpec LPModel LPProofs PFModel PFSpec PFProofs PFLoops PFFinal.
Unset Strict Implicit.

(* C80: from labels and recorded edges of a sampling phase, whose edges form a forest of the label
   classes, every edge recorded in its own class, and with any label as the frequent one: there
   are at most n rounds, the next round can always be run, there is a result, and in every result
   the recorded edges are a spanning forest and the labels are the components. *)
Theorem C80_spanning_forest : forall largest n outn m freq P0 Ed0, graph_ok n outn outn ->
  labelled_forest n outn P0 Ed0 ->
  (exists P Ed, pf_returns largest n outn m freq P0 Ed0 P Ed) /\
  (forall k prev P chg Ed U, pf_loop largest n outn m freq P0 Ed0 k prev P chg Ed U ->
     k <= n /\ exists U1 P' chg' next U2 Ed' V, edgeMap_mark largest n outn m prev U P chg U1 P' chg' next /\
       edgeMap_record largest n outn m prev P' U1 Ed U2 Ed' /\ toSparse U2 = Some V) /\
  (forall P Ed, pf_returns largest n outn m freq P0 Ed0 P Ed ->
     spanning_forest (unweighted (pairs n outn)) (unweighted (recorded n Ed)) /\
     forall x y, x < n -> y < n -> (P x = P y <-> connected (pairs n outn) x y)).
Proof.
  intros largest n outn m freq P0 Ed0 G HL. split; [now apply pf_ends|]. split.
  - intros k prev P chg Ed U H. destruct (loop_qinv G H) as [Hk [F HI]]. split; auto. exact (pf_progress G m HI).
  - intros P Ed (k & prev & chg & U & H & Hs). destruct (loop_qinv G H) as [_ [F HI]]. exact (pf_spanning G HI Hs HL).
Qed.
Print Assumptions C80_spanning_forest.

(* without sampling: distinct labels, nothing recorded *)
Theorem C80_start_unsampled : forall n outn P0, (forall x y, x < n -> y < n -> P0 x = P0 y -> x = y) ->
  labelled_forest n outn P0 (fun _ => None).
Proof.
  intros n outn P0 Hinj. assert (E : recorded n (fun _ => None) = []) by (unfold recorded; generalize (seq 0 n); intros l; induction l; auto).
  split; rewrite ?E; try discriminate.
  - easy.
  - intros l1 e l2 H. destruct l1; discriminate.
  - intros x y Hx Hy. split; [|intros H; rewrite (Hinj x y); auto; apply rst_refl]. intros C. f_equal. clear Hx Hy.
    induction C as [a b X|a|a b _ IH|a b c _ IH1 _ IH2]; [easy|auto|auto|congruence].
Qed.
Print Assumptions C80_start_unsampled.

(* ... and the trees are breadth-first search trees rooted at the vertices with the least labels:
   every other vertex has recorded an edge to a neighbour one step closer to the root *)
Theorem C80_bfs_trees : forall largest n outn m freq P0 P Ed, graph_ok n outn outn ->
  (forall x y, x < n -> y < n -> P0 x = P0 y -> x = y) ->
  pf_returns largest n outn m freq P0 (fun _ => None) P Ed -> forall v, v < n ->
  exists r, r < n /\ reachable outn r v /\ (forall u, reachable outn r u -> lp_less largest (P0 u) (P0 r) = false) /\
    (v = r /\ Ed v = None \/
     v <> r /\ exists p, closer outn false r v p /\ (Ed v = Some (p, v) \/ Ed v = Some (v, p))).
Proof.
  intros largest n outn m freq P0 P Ed G Hinj (k & prev & chg & U & H & Hs) v Hv. destruct (loop_qinv G H) as [_ [F HI]].
  destruct (pf_bfs G HI Hs Hinj (fun _ => eq_refl) Hv) as (r & A & B & C & D). exists r. split; auto. split; auto. split; auto.
  intros u Hu. rewrite lp_less_key. apply Nat.ltb_ge. auto.
Qed.
Print Assumptions C80_bfs_trees.

(* no interleaving of a traversal goes on for ever *)
Fixpoint mbusy (largest : nat) (q : nat -> nat) (sched : list nat) (s : mstate) : Prop :=
  match sched with
  | [] => True
  | t :: r => (exists th, nth_error (mthr s) t = Some th /\ mtodo th <> []) /\ mbusy largest q r (mstep largest q s t)
  end.
Fixpoint ebusy (largest : nat) (q par : nat -> nat) (sched : list nat) (s : estate) : Prop :=
  match sched with
  | [] => True
  | t :: r => (exists th, nth_error (ethr s) t = Some th /\ etodo th <> []) /\ ebusy largest q par r (estep largest q par s t)
  end.
Theorem C80_round_terminates : forall largest q par s s', exists N, forall sched,
  (mbusy largest q sched s -> length sched <= N) /\ (ebusy largest q par sched s' -> length sched <= N).
Proof.
  intros largest q par s s'. exists (mpotential s + epotential s'). intros sched. split.
  - intros H. enough (length sched <= mpotential s) by lia. revert s H. induction sched as [|t r IH]; intros s H; simpl; [lia|].
    destruct H as [(th & Ht & Hn) H]. apply IH in H. pose proof (mpot_decr largest q Ht Hn). lia.
  - intros H. enough (length sched <= epotential s') by lia. revert s' H. induction sched as [|t r IH]; intros s' H; simpl; [lia|].
    destruct H as [(th & Ht & Hn) H]. apply IH in H. pose proof (epot_decr largest q par Ht Hn). lia.
Qed.
Print Assumptions C80_round_terminates.

(* -- the hypotheses are met -------------------------------------------------------------------- *)
Example C80_graph_example : graph_ok 5 em_out em_out.
Proof. apply C17_graph_example. Qed.
(* a start after sampling the edge (0, 2) of the path *)
Example C80_start_example : labelled_forest 6 path6 sampledP sampledE.
Proof.
  destruct C78_example_start as [_ HS]. split; try apply HS. intros v x y Hv. unfold sampledE.
  destruct (Nat.eqb_spec v 2) as [->|]; [|discriminate]. intros E. injection E as <- <-. reflexivity.
Qed.
(* a first round from the identity: the task of the edge 4 -> 2 runs first and lowers the label of
   its own source, then all other tasks step in turn; every vertex records the edge of its label *)
Definition pf_all : vset unit := first_frontier 5 None (fun v => v).
Definition pf_tasks : list tthread := forward_threads 5 em_out pf_all.
Example C80_run_example :
  let s0 := mstart (fun v => v) (fun _ => unemitted) pf_tasks in
  let s1 := mexec 9 (fun v => v) (repeat 9 11) s0 in
  let s2 := mexec 9 (fun v => v) (concat (repeat (seq 0 10) 12)) s1 in
  let e := eexec 9 (fun v => v) (mpar s2) (concat (repeat (seq 0 10) 3)) (estart (fun _ => None) pf_tasks) in
  (size pf_all, mchg s1 4) = (5, 1) /\ map (mpar s2) (seq 0 5) = [0; 0; 0; 1; 2] /\
  forallb (fun th => length (mtodo th) =? 0) (mthr s2) = true /\ forallb (fun th => length (etodo th) =? 0) (ethr e) = true /\
  map (eedges e) (seq 0 5) = [None; Some (0, 1); Some (0, 2); Some (1, 3); Some (2, 4)].
Proof. vm_compute. repeat split. Qed.
