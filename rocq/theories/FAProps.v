(* Theorems for C37, C38, C46. *)
From Coq Require Import ZArith.
From Verif Require Import Base VSModel VSSpec EMModel EMSpec EMProps FAModel FASpec FAProofs FABF FABFLoop.

(* C37: BFS from src, whatever traversal each round uses and however its tasks interleave.
   There are at most n rounds, the next round can always be run, and so there is a result.
   In every result exactly the vertices reachable from src have a parent; the parent of src
   is src; every other parent is one edge closer to src. *)
Theorem C37_bfs : forall n outn inn m src, graph_ok n outn inn -> src < n ->
  (exists par, bfs_returns n outn inn m src par) /\
  (forall k par U, bfs_loop n outn inn m src (fun _ => None) k par U ->
     k <= n /\ exists par' U', edgeMap_visit n outn inn m None bfs_flags U par par' U') /\
  (forall par, bfs_returns n outn inn m src par ->
     (forall v, par v <> None <-> reachable outn src v) /\
     par src = Some src /\
     (forall v p, v <> src -> par v = Some p ->
        In v (outn p) /\ exists k, dist outn src p k /\ dist outn src v (S k))).
Proof.
  intros n outn inn m src G Hsrc.
  assert (H0 : forall v, reachable outn src v -> (fun _ : nat => @None nat) v = None) by auto.
  split; [|split].
  - destruct (loop_ends G m Hsrc _ H0) as (k & par & U & A & B). exists par, k, U. auto.
  - intros k par U H. split; [eapply loop_bound; eauto|eapply loop_progress; eauto].
  - intros par (k & U & H & Hs). destruct (loop_binv G Hsrc H0 H) as [[F HI] _]. split; [|split].
    + intros v. rewrite (end_visited Hsrc H0 HI Hs v). split; [|auto]. intros [X|X]; auto. congruence.
    + apply (b_src HI).
    + intros v p Hv E. destruct (b_par HI v eq_refl E) as [[X _]|X]; [congruence|auto].
Qed.
Print Assumptions C37_bfs.

(* C46: connectivity by repeated BFS on a symmetric graph.  A result exists; every vertex with
   a neighbour is labelled with the least vertex of its component, so that two such vertices
   have the same label iff they are connected; a vertex without neighbours is not labelled. *)
Theorem C46_bfscc : forall n outn m, graph_ok n outn outn ->
  (exists lab, cc_loop n outn outn m n lab) /\
  (forall lab, cc_loop n outn outn m n lab ->
     (forall v, v < n -> outn v <> [] ->
        exists l, lab v = Some l /\ reachable outn v l /\ forall u, reachable outn v u -> l <= u) /\
     (forall v, outn v = [] -> lab v = None) /\
     (forall u v, u < n -> v < n -> outn u <> [] -> outn v <> [] -> (lab u = lab v <-> reachable outn u v))).
Proof.
  intros n outn m G. split; [now apply cc_exists|]. intros lab H. pose proof (cc_inv G (le_n n) H) as [I1 I2].
  assert (H1 : forall v, v < n -> outn v <> [] -> exists l, lab v = Some l /\ reachable outn v l /\ forall u, reachable outn v u -> l <= u).
  { intros v Hv Hn. pose proof (I2 v v Hv Hn Hv (reach_refl outn v)) as X. destruct (lab v) as [l|] eqn:El; [|congruence].
    exists l. destruct (I1 v l El) as (_ & _ & _ & A & B). auto. }
  split; auto. split.
  - intros v E. destruct (lab v) as [l|] eqn:El; auto. destruct (I1 v l El) as (_ & A & _). congruence.
  - intros u v Hu Hv Nu Nv. destruct (H1 u Hu Nu) as (lu & Eu & Ru & Mu). destruct (H1 v Hv Nv) as (lv & Ev & Rv & Mv).
    rewrite Eu, Ev. split.
    + intros E. injection E as <-. eapply reach_trans; eauto. now apply (reach_sym G).
    + intros Hr. f_equal. pose proof (reach_sym G Hu Hr) as Hr'.
      assert (lu <= lv) by (apply Mu; eapply reach_trans; eauto).
      assert (lv <= lu) by (apply Mv; eapply reach_trans; eauto). lia.
Qed.
Print Assumptions C46_bfscc.

(* Hence the labels do not identify the components of a graph with two isolated vertices. *)
Theorem C46_isolated_refuted : exists n outn, graph_ok n outn outn /\
  exists u v, u < n /\ v < n /\ ~ reachable outn u v /\
  forall m lab, cc_loop n outn outn m n lab -> lab u = lab v.
Proof.
  exists 2, (fun _ => []). assert (G : graph_ok 2 (fun _ : nat => @nil nat) (fun _ => [])) by (split; simpl; tauto).
  split; auto. exists 0, 1. split; [lia|]. split; [lia|]. split.
  - intros [k H]. inversion H. contradiction.
  - intros m lab H. destruct (C46_bfscc m G) as [_ X]. destruct (X lab H) as (_ & Y & _). now rewrite !Y.
Qed.
Print Assumptions C46_isolated_refuted.

(* C38: Bellman-Ford with integer weights, whatever traversal each round uses and however its
   tasks interleave.  There are at most n rounds, distances that are still infinite are
   never added to, and there is a result.  A negative cycle is reported iff one is
   reachable; otherwise every distance is that of a shortest walk, infinite iff there is none. *)
Theorem C38_bellman_ford : forall n outn inn wt m start, graph_ok n outn inn -> start < n ->
  (exists sp rep, bf_returns wt n outn m start sp rep) /\
  (forall k sp vis ov U, bf_loop wt n outn m start k sp vis ov U ->
     k <= n /\ ov = false /\ exists sp' vis' ov' U', edgeMap_relax wt n outn m U sp vis sp' vis' ov' U') /\
  (forall sp rep, bf_returns wt n outn m start sp rep ->
     (rep = true <-> negative_cycle outn wt start) /\
     (rep = false -> forall v, match sp v with
                               | Some x => shortest outn wt start v x
                               | None => forall p y, ~ wwalk outn wt start p v y
                               end)).
Proof.
  intros n outn inn wt m start G Hs. split; [now apply bf_ends with inn|]. split.
  - intros k sp vis ov U H. split; [eapply bf_bound; eauto|]. split; [|eapply bf_progress; eauto].
    destruct (loop_linv G Hs H) as [F HI]. apply (l_ov HI).
  - intros sp rep (k & vis & U & ov & H & Hend). destruct (loop_linv G Hs H) as [F HI].
    destruct Hend as [[Hz ->]|(Hz & Hk & ->)].
    + split; [|intros _; eapply done_shortest; eauto]. split; [discriminate|]. intros X. exfalso. eapply done_no_negative; eauto.
    + split; [|discriminate]. split; auto. intros _. eapply reported_negative; eauto.
Qed.
Print Assumptions C38_bellman_ford.

(* ... and no interleaving of a round goes on for ever: a schedule that only runs unfinished
   tasks has bounded length. *)
Fixpoint busy (wt : nat -> nat -> Z) (sched : list nat) (s : bstate) : Prop :=
  match sched with
  | [] => True
  | t :: r => (exists th, nth_error (bthr s) t = Some th /\ btodo th <> []) /\ busy wt r (bstep wt s t)
  end.
Theorem C38_round_terminates : forall wt s, exists N, forall sched, busy wt sched s -> length sched <= N.
Proof.
  intros wt s. exists (potential s). intros sched. revert s. induction sched as [|t r IH]; intros s H; simpl; [lia|].
  destruct H as [(th & Ht & Hn) H]. apply IH in H. pose proof (pot_decr wt s t Ht Hn). lia.
Qed.
Print Assumptions C38_round_terminates.

(* a graph with a negative edge: 0 -> 1 (4), 0 -> 2 (1), 2 -> 1 (-3), 1 -> 3 (2) *)
Definition bf_out (v : nat) : list nat := nth v [[1; 2]; [3]; [1]; []] [].
Definition bf_inn (v : nat) : list nat := nth v [[]; [0; 2]; [0]; [1]] [].
Definition bf_wt (v j : nat) : Z := nth j (nth v [[4; 1]; [2]; [-3]] [])%Z 0%Z.
Example C38_graph_example : graph_ok 4 bf_out bf_inn /\
  shortest bf_out bf_wt 0 3 0 /\ ~ negative_cycle bf_out bf_wt 0.
Proof.
  assert (Hin : forall u v, In v (bf_out u) -> In (u, v) [(0,1);(0,2);(1,3);(2,1)]).
  { intros s d. unfold bf_out. do 5 (destruct s as [|s]; [simpl; intros H; repeat (destruct H as [<-|H]; [tauto|]); destruct H|]). intros []. }
  assert (Hinn : forall u v, In u (bf_inn v) -> In (u, v) [(0,1);(0,2);(1,3);(2,1)]).
  { intros s d. unfold bf_inn. do 5 (destruct d as [|d]; [simpl; intros H; repeat (destruct H as [<-|H]; [tauto|]); destruct H|]). intros []. }
  assert (G : graph_ok 4 bf_out bf_inn).
  { split.
    + intros s d Hs Hd. split; intros H; [apply Hin in H|apply Hinn in H]; simpl in H;
        repeat (destruct H as [H|H]; [injection H as <- <-; simpl; tauto|]); destruct H.
    + intros s d _ H. apply Hin in H. simpl in H. repeat (destruct H as [H|H]; [injection H as <- <-; lia|]). destruct H.
    + intros s d _ H. apply Hinn in H. simpl in H. repeat (destruct H as [H|H]; [injection H as <- <-; lia|]). destruct H. }
  assert (He : forall u v w, wedge bf_out bf_wt u v w -> In (u, v, w) [(0,1,4%Z);(0,2,1%Z);(1,3,2%Z);(2,1,(-3)%Z)]).
  { intros u v w (j & Hj & ->). unfold bf_out, bf_wt in *.
    do 5 (destruct u as [|u]; [do 3 (destruct j as [|j]; [simpl in *; try discriminate; injection Hj as <-; tauto|]); simpl in Hj; try discriminate; destruct j; discriminate|]).
    simpl in Hj. destruct j, u; discriminate. }
  (* potentials d with d v <= d u + w on every edge bound the walks *)
  pose (d := fun v => nth v [0; -2; 1; 0]%Z 0%Z).
  assert (Hd : forall u v w, wedge bf_out bf_wt u v w -> (d v <= d u + w)%Z).
  { intros u v w H. apply He in H. simpl in H. repeat (destruct H as [H|H]; [injection H as <- <- <-; unfold d; simpl; lia|]). destruct H. }
  assert (Hb : forall u p v x, wwalk bf_out bf_wt u p v x -> (d v <= d u + x)%Z).
  { intros u p v x H. induction H as [|p v x w y H IH E]; [lia|]. pose proof (Hd _ _ _ E). lia. }
  split; auto. split; [split|].
  - exists [3; 1; 2; 0]. change 0%Z with ((0 + 1 + (-3)) + 2)%Z.
    econstructor; [econstructor; [econstructor; [constructor|]|]|].
    + exists 1. auto.
    + exists 0. auto.
    + exists 0. auto.
  - intros p y H. apply Hb in H. unfold d in H. simpl in H. lia.
  - intros (v & p & x & q & y & _ & H & Hy). apply Hb in H. lia.
Qed.
(* a round from {0}, then one from {1, 2} in which the writes to 1 and the read of 1 race:
   3 first gets 6, then 2 -> 1 lowers 1, which is in the next frontier again *)
Example C38_run_example :
  let s0 := bexec bf_wt [0; 0; 0; 0; 1; 1; 1; 1] (bstart (fset (fun _ => None) 0 (Some 0%Z)) (fun _ => false) (forward_threads 4 bf_out (vs_dense 4 [(true, tt); (false, tt); (false, tt); (false, tt)]))) in
  let s1 := bexec bf_wt [0; 1; 1; 1; 0; 0; 0; 1] (bstart (bsp s0) (fun _ => false) (forward_threads 4 bf_out (vs_dense 4 [(false, tt); (true, tt); (true, tt); (false, tt)]))) in
  map (bsp s0) [0; 1; 2; 3] = [Some 0; Some 4; Some 1; None]%Z /\
  map (bsp s1) [0; 1; 2; 3] = [Some 0; Some (-2); Some 1; Some 6]%Z /\
  map dst (blog s1) = [1; 3] /\ forallb (fun th => match btodo th with [] => true | _ => false end) (bthr s1) = true.
Proof. vm_compute. repeat split. Qed.

Example C37_graph_example : graph_ok 5 em_out em_out /\ reachable em_out 0 4 /\ dist em_out 0 4 2.
Proof.
  split; [apply C17_graph_example|].
  assert (W : walk em_out 0 2 4).
  { apply walk_S with 2; [|simpl; tauto]. apply walk_S with 0; [constructor|simpl; tauto]. }
  split; [now exists 2|]. split; auto. intros j Hj H. destruct j as [|[|j]]; [inversion H| |lia].
  inversion H as [|? v ? Hv Hin]; subst. inversion Hv; subst. simpl in Hin. lia.
Qed.
