(* Theorems for C45. *)
From Verif Require Import Base VSModel VSSpec EMModel EMSpec EMProps FASpec FAProofs LPModel LPProofs.

(* C45: label propagation on a symmetric graph from any initial labels, whatever traversal
   each round uses, however its tasks interleave and in whichever order the arguments of the
   comparisons are evaluated.  There are at most n rounds, the next round can always be run,
   and there is a result.  In every result the label of v is the initial label of some vertex
   of the component of v, everyone in the component has the same label, and no initial label
   in the component is strictly preferred to it. *)
Theorem C45_label_propagation : forall flip largest n outn m par0, graph_ok n outn outn ->
  (exists par, lp_returns flip largest n outn m par0 par) /\
  (forall k par chg U, lp_loop flip largest n outn m par0 k par chg U ->
     k <= n /\ exists U' par' chg' next V, edgeMap_label flip largest n outn m U par chg U' par' chg' next /\ toSparse U' = Some V) /\
  (forall par, lp_returns flip largest n outn m par0 par -> forall v, v < n ->
     (exists u, reachable outn v u /\ par v = par0 u) /\
     (forall u, reachable outn v u -> par u = par v /\ lp_less largest (par0 u) (par v) = false)).
Proof.
  intros flip largest n outn m par0 G. split; [now apply lp_ends|]. split.
  - intros k par chg U H. destruct (loop_pinv G H) as [Hk [F HI]]. split; auto.
    exact (label_progress flip largest G m F par chg (p_inv HI) (p_chg HI) (p_val HI)).
  - intros par (k & chg & U & H & Hs) v Hv. destruct (loop_pinv G H) as [_ [F HI]].
    destruct (end_labels G HI Hs Hv) as [A B]. split; auto. intros u Hu. destruct (B u Hu) as [X Y]. split; auto.
    destruct (lp_less largest (par0 u) (par v)) eqn:E; auto. rewrite lp_less_key in E. apply Nat.ltb_lt in E. lia.
Qed.
Print Assumptions C45_label_propagation.

(* so with distinct initial labels two vertices end with the same label iff they are connected *)
Theorem C45_components : forall flip largest n outn m par0 par, graph_ok n outn outn ->
  (forall u v, u < n -> v < n -> par0 u = par0 v -> u = v) ->
  lp_returns flip largest n outn m par0 par ->
  forall u v, u < n -> v < n -> (par u = par v <-> reachable outn u v).
Proof.
  intros flip largest n outn m par0 par G Hinj HR u v Hu Hv. destruct (C45_label_propagation flip largest m par0 G) as (_ & _ & H).
  specialize (H par HR). destruct (H u Hu) as [(a & Ra & Ea) Su]. destruct (H v Hv) as [(b & Rb & Eb) Sv]. split.
  - intros E. rewrite Ea, Eb in E. pose proof (Hinj a b (reach_lt G Hu Ra) (reach_lt G Hv Rb) E). subst b.
    eapply reach_trans; [exact Ra|exact (reach_sym G Hv Rb)].
  - intros Hr. symmetry. now apply Su.
Qed.
Print Assumptions C45_components.

(* ... and from the identity, no label being special, with the least vertex of the component *)
Theorem C45_least_vertex : forall flip largest n outn m par, graph_ok n outn outn -> n <= largest ->
  lp_returns flip largest n outn m (fun v => v) par ->
  forall v, v < n -> reachable outn v (par v) /\ forall u, reachable outn v u -> par v <= u.
Proof.
  intros flip largest n outn m par G Hl HR v Hv. destruct (C45_label_propagation flip largest m (fun v => v) G) as (_ & _ & H).
  destruct (H par HR v Hv) as [(a & Ra & Ea) Sv]. rewrite Ea. split; auto. intros u Hu.
  destruct (Sv u Hu) as [_ X]. rewrite Ea in X. pose proof (reach_lt G Hv Ra). pose proof (reach_lt G Hv Hu).
  unfold lp_less in X. rewrite !(proj2 (Nat.eqb_neq _ _)) in X by lia. now apply Nat.ltb_ge.
Qed.
Print Assumptions C45_least_vertex.

(* no interleaving of a round goes on for ever *)
Fixpoint lbusy (flip : bool) (largest : nat) (sched : list nat) (s : lstate) : Prop :=
  match sched with
  | [] => True
  | t :: r => (exists th, nth_error (lthr s) t = Some th /\ ltodo th <> []) /\ lbusy flip largest r (lstep flip largest s t)
  end.
Theorem C45_round_terminates : forall flip largest s, exists N, forall sched, lbusy flip largest sched s -> length sched <= N.
Proof.
  intros flip largest s. exists (lpotential s). intros sched. revert s. induction sched as [|t r IH]; intros s H; simpl; [lia|].
  destruct H as [(th & Ht & Hn) H]. apply IH in H. pose proof (lpot_decr flip largest s t Ht Hn). lia.
Qed.
Print Assumptions C45_round_terminates.

(* a symmetric graph *)
Example C45_graph_example : graph_ok 5 em_out em_out.
Proof. apply C17_graph_example. Qed.
(* a first round over all five vertices: the task of the edge 4 -> 2 runs first, lowers the
   label of its own source and marks it for the next frontier *)
Example C45_run_example :
  let all := vs_dense 5 (repeat (true, tt) 5) in
  let run flip sched := lexec flip 9 sched (lstart (fun v => v) (fun _ => unemitted) (forward_threads 5 em_out all)) in
  let sched := repeat 9 11 ++ flat_map (fun t => repeat t 11) (seq 0 9) in
  map (lpar (run false sched)) [0; 1; 2; 3; 4] = [0; 0; 0; 0; 0] /\
  forallb (fun th => match ltodo th with [] => true | _ => false end) (lthr (run false sched)) = true /\
  map (lchg (run true (repeat 9 11))) [0; 1; 2; 3; 4] = [0; 0; 0; 0; 1].
Proof. vm_compute. repeat split. Qed.
