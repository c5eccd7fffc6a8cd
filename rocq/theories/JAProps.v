(* C76: the union-find with randomized linking by rank. *)
From Verif Require Import Base ListUtil UFSpec FRSpec CTSpec SPProofs UFProps JAModel JATree JAProofs JASys JAForest JAWait JAEnd.
Unset Strict Implicit.

(* C76.  Any calls of unite and find, any find option, any random bits, any interleaving: no call
   leaves the arrays, every vertex has a root, and two vertices in one tree are connected by the
   initial parents and the edges of the calls that have started. *)
Theorem C76_sound : forall n two (P0 : nat -> nat) E0 (js : list job) (sched : list (nat * bool)),
  flat n P0 -> in_range n js ->
  let s := exec n two sched (init (initialize P0 E0) js) in
  (forall t, nth_error (snd s) t <> Some Fault) /\
  (forall x, x < n -> exists r, r < n /\ tree_root (up (fst s)) x r) /\
  (forall x y, x < n -> y < n -> same_tree (up (fst s)) x y -> connected (links n P0 ++ inserted (started sched js)) x y).
Proof.
  intros n two P0 E0 js sched Hf Hr s. split; [|split].
  - intros t. now apply run_no_fault.
  - intros x Hx. now apply run_root.
  - apply (@run_sound n two P0 E0 js sched Hf Hr (connected (links n P0 ++ inserted (started sched js)))); auto using csym.
    + intros x y z. apply ctrans.
    + intros x Hx. apply rst_step. apply in_or_app. left. now apply links_P0.
    + intros x y H. apply rst_step. apply in_or_app. auto.
Qed.
Print Assumptions C76_sound.

(* the rank fits in the 31 bits it has *)
Theorem C76_ranks : forall n two (P0 : nat -> nat) E0 (js : list job) (sched : list (nat * bool)) x,
  flat n P0 -> in_range n js -> x < n -> rk (fst (exec n two sched (init (initialize P0 E0) js))) x <= n.
Proof. intros. now apply run_rank. Qed.
Print Assumptions C76_ranks.

Theorem C76_returned_insert_is_joined : forall n two (P0 : nat -> nat) E0 (js : list job) (sched : list (nat * bool)) t u v r,
  flat n P0 -> in_range n js ->
  let s := exec n two sched (init (initialize P0 E0) js) in
  nth_error js t = Some (Insert u v) -> returned s t r -> same_tree (up (fst s)) u v.
Proof. intros n two P0 E0 js sched t u v r Hf Hr s. now apply run_joined. Qed.
Print Assumptions C76_returned_insert_is_joined.

Theorem C76_trees_never_split : forall n two (P0 : nat -> nat) E0 (js : list job) (sched1 sched2 : list (nat * bool)) x y,
  flat n P0 -> in_range n js -> x < n -> y < n ->
  same_tree (up (fst (exec n two sched1 (init (initialize P0 E0) js)))) x y ->
  same_tree (up (fst (exec n two (sched1 ++ sched2) (init (initialize P0 E0) js)))) x y.
Proof. intros. now apply trees_never_split. Qed.
Print Assumptions C76_trees_never_split.

Theorem C76_partition_when_all_returned : forall n two (P0 : nat -> nat) E0 (js : list job) (sched : list (nat * bool)),
  flat n P0 -> in_range n js ->
  let s := exec n two sched (init (initialize P0 E0) js) in
  all_returned s (length js) ->
  forall x y, x < n -> y < n -> (same_tree (up (fst s)) x y <-> connected (links n P0 ++ inserted js) x y).
Proof.
  intros n two P0 E0 js sched Hf Hr s Ha x y Hx Hy. split.
  - revert x y Hx Hy. apply (@run_sound n two P0 E0 js sched Hf Hr (connected (links n P0 ++ inserted js))); auto using csym.
    + intros x y z. apply ctrans.
    + intros x Hx. apply rst_step. apply in_or_app. left. now apply links_P0.
    + intros x y H. apply rst_step. apply in_or_app. right. apply inserted_in in H. apply inserted_in. eapply started_in; eauto.
  - intros C. revert C Hx. apply run_complete; auto. intros a b H. apply in_app_iff in H as [H|H].
    + unfold links in H. apply in_map_iff in H as (z & E & Hz). injection E as <- <-. apply in_seq in Hz. assert (z < n) by lia.
      split; auto. split; [now apply Hf|]. now apply run_P0.
    + apply inserted_in in H. destruct (Hr _ H) as [A B]. split; auto. split; auto.
      apply In_nth_error in H as (t & Et). destruct (Ha t) as (r & Er); [apply nth_error_Some; congruence|].
      eapply run_joined; eauto.
Qed.
Print Assumptions C76_partition_when_all_returned.

(* every call returns after at most call_steps n + 1 steps of its own, whatever the coins are and
   whatever the other calls do, even if they stop; call_steps is a polynomial in n *)
Theorem C76_calls_end : forall n two (P0 : nat -> nat) E0 (js : list job) (sched : list (nat * bool)) t,
  flat n P0 -> in_range n js -> t < length js -> call_steps n < turns t sched ->
  exists r, returned (exec n two sched (init (initialize P0 E0) js)) t r.
Proof. intros. now apply run_calls_end. Qed.
Print Assumptions C76_calls_end.
Theorem C76_call_steps : forall n, call_steps n = (22 * (n * (n + 1) + n) + 44) * (n * (n + 1) + 2).
Proof. intros n. unfold call_steps, K, FB. lia. Qed.
Print Assumptions C76_call_steps.

(* the labels of a whole run: unite in parallel, then find in parallel *)
Lemma labels_from n two (P0 : nat -> nat) E0 (G : list (nat * nat)) js sched1 sched2 :
  flat n P0 -> in_range n js ->
  let s1 := exec n two sched1 (init (initialize P0 E0) js) in
  (forall x y, x < n -> y < n -> (same_tree (up (fst s1)) x y <-> connected G x y)) ->
  let s2 := exec n two sched2 (init (fst s1) (labels_pass n)) in
  all_returned s2 n -> component_labels n G (label_of s2).
Proof.
  intros Hf Hr s1 Hs s2 Ha i j Hi Hj.
  destruct (@run_inv n two P0 E0 js sched1 Hf Hr) as (key & [Gd _] & _). fold s1 in Gd.
  assert (FL : forall k, k < n -> tree_root (up (fst s1)) k (label_of s2 k) /\ label_of s2 k < n) by exact (final_labels Gd Ha).
  destruct (FL i Hi) as [A1 A2]. destruct (FL j Hj) as [B1 B2]. destruct (FL _ A2) as [C1 _].
  rewrite <- rooted_tree in A1, B1, C1. split; [|split; auto].
  - rewrite <- Hs by auto. rewrite <- same_spec. split.
    + intros E. exists (label_of s2 i). split; auto. now rewrite E.
    + intros (r & X & Y). rewrite (rooted_det A1 X), (rooted_det B1 Y). auto.
  - apply (rooted_det C1). apply r_here. eapply rooted_fix; eauto.
Qed.

Lemma unites_range n G : edges_in_range n G -> in_range n (unites G).
Proof.
  intros HG j Hj. unfold unites in Hj. apply in_map_iff in Hj as ([u v] & <- & H). apply filter_In in H as [H _]. simpl. auto.
Qed.
Lemma unites_sampled_range n P0 freq G : edges_in_range n G -> in_range n (unites_sampled P0 freq G).
Proof.
  intros HG j Hj. unfold unites_sampled in Hj. apply in_map_iff in Hj as ([u v] & <- & H). apply filter_In in H as [H _]. simpl. auto.
Qed.
Lemma flat_id n : flat n (fun x => x).
Proof. intros x Hx. auto. Qed.

Lemma unites_partition n two P0 G E0 sched : symmetric G -> edges_in_range n G -> flat n P0 ->
  (forall x, x < n -> connected G x (P0 x)) ->
  let s := exec n two sched (init (initialize P0 E0) (unites G)) in
  all_returned s (length (unites G)) ->
  forall x y, x < n -> y < n -> (same_tree (up (fst s)) x y <-> connected G x y).
Proof.
  intros Hs HG Hf HP s Ha x y Hx Hy. split.
  - revert x y Hx Hy. apply (@run_sound n two P0 E0 (unites G) sched Hf (unites_range HG) (connected G)); auto using csym.
    + intros x y z. apply ctrans.
    + intros x y H. apply rst_step. apply inserted_in in H. apply started_in in H. unfold unites in H.
      apply in_map_iff in H as ([u v] & E & H). injection E as <- <-. apply filter_In in H as [H _]. auto.
  - intros C. revert C Hx. apply run_complete; auto using unites_range. intros a b H. destruct (HG _ _ H) as [Ha' Hb].
    split; auto. split; auto.
    assert (J : forall a b, In (a, b) G -> a < b -> same_tree (up (fst s)) a b).
    { intros c d Hcd Hlt. assert (HI : In (Insert c d) (unites G)).
      { unfold unites. apply in_map_iff. exists (c, d). split; auto. apply filter_In. split; auto. now apply Nat.ltb_lt. }
      apply In_nth_error in HI as (t & Et). destruct (Ha t) as (r & Er); [apply nth_error_Some; congruence|].
      eapply run_joined; eauto using unites_range. }
    destruct (lt_eq_lt_dec a b) as [[Hl|He]|Hl]; [auto| |apply same_spec, same_sym, same_spec; auto].
    subst b. pose proof (@run_P0 n two P0 E0 (unites G) sched Hf (unites_range HG) a Ha') as X. fold s in X.
    rewrite <- same_spec in *. eauto using same_trans, same_sym.
Qed.

Lemma sampled_partition n two (P0 : nat -> nat) freq G E0 sched : symmetric G -> edges_in_range n G -> flat n P0 ->
  (forall x, x < n -> connected G x (P0 x)) ->
  let s := exec n two sched (init (initialize P0 E0) (unites_sampled P0 freq G)) in
  all_returned s (length (unites_sampled P0 freq G)) ->
  forall x y, x < n -> y < n -> (same_tree (up (fst s)) x y <-> connected G x y).
Proof.
  intros Hs HG Hf HP s Ha x y Hx Hy. split.
  - revert x y Hx Hy. apply (@run_sound n two P0 E0 _ sched Hf (@unites_sampled_range n P0 freq G HG) (connected G)); auto using csym.
    + intros x y z. apply ctrans.
    + intros x y H. apply rst_step. apply inserted_in in H. apply started_in in H. unfold unites_sampled in H.
      apply in_map_iff in H as ([u v] & E & H). injection E as <- <-. apply filter_In in H as [H _]. auto.
  - intros C. revert C Hx. apply run_complete; auto using unites_sampled_range. intros a b H. destruct (HG _ _ H) as [Ha' Hb].
    split; auto. split; auto.
    assert (J : forall a b, In (a, b) G -> P0 a <> freq -> same_tree (up (fst s)) a b).
    { intros c d Hcd Hlt. assert (HI : In (Insert c d) (unites_sampled P0 freq G)).
      { unfold unites_sampled. apply in_map_iff. exists (c, d). split; auto. apply filter_In. split; auto. simpl.
        destruct (Nat.eqb_spec (P0 c) freq); auto. }
      apply In_nth_error in HI as (t & Et). destruct (Ha t) as (r & Er); [apply nth_error_Some; congruence|].
      eapply run_joined; eauto using unites_sampled_range. }
    destruct (Nat.eq_dec (P0 a) freq) as [Ea|Ea]; [destruct (Nat.eq_dec (P0 b) freq) as [Eb|Eb]|]; auto.
    + pose proof (@run_P0 n two P0 E0 _ sched Hf (@unites_sampled_range n P0 freq G HG) a Ha') as Xa.
      pose proof (@run_P0 n two P0 E0 _ sched Hf (@unites_sampled_range n P0 freq G HG) b Hb) as Xb.
      fold s in Xa, Xb. rewrite Ea in Xa. rewrite Eb in Xb. rewrite <- same_spec in *. eauto using same_trans, same_sym.
    + apply same_spec, same_sym, same_spec. auto.
Qed.

(* connectivity, without sampling: the labels are the connected components *)
Theorem C76_components : forall n two (G : list (nat * nat)) E0 (sched1 sched2 : list (nat * bool)),
  symmetric G -> edges_in_range n G ->
  let s1 := exec n two sched1 (init (initialize (fun x => x) E0) (unites G)) in
  all_returned s1 (length (unites G)) ->
  let s2 := exec n two sched2 (init (fst s1) (labels_pass n)) in
  all_returned s2 n ->
  component_labels n G (label_of s2).
Proof.
  intros n two G E0 sched1 sched2 Hs HG s1 H1 s2 H2.
  apply (@labels_from n two (fun x => x) E0 G (unites G) sched1 sched2); auto using flat_id, unites_range.
  apply unites_partition; auto using flat_id. intros x _. apply rst_refl.
Qed.
Print Assumptions C76_components.

(* after sampling: P0 gives vertices that carry themselves, each connected to its vertex; the
   vertices whose label is freq are skipped, or all edges are used *)
Theorem C76_components_sampled : forall n two (G : list (nat * nat)) (P0 : nat -> nat) freq E0 js (sched1 sched2 : list (nat * bool)),
  symmetric G -> edges_in_range n G -> flat n P0 -> (forall x, x < n -> connected G x (P0 x)) ->
  js = unites_sampled P0 freq G \/ js = unites G ->
  let s1 := exec n two sched1 (init (initialize P0 E0) js) in
  all_returned s1 (length js) ->
  let s2 := exec n two sched2 (init (fst s1) (labels_pass n)) in
  all_returned s2 n ->
  component_labels n G (label_of s2).
Proof.
  intros n two G P0 freq E0 js sched1 sched2 Hs HG Hf HP Hj s1 H1 s2 H2.
  apply (@labels_from n two P0 E0 G js sched1 sched2); auto.
  - destruct Hj as [->| ->]; auto using unites_sampled_range, unites_range.
  - destruct Hj as [->| ->]; [now apply sampled_partition|now apply unites_partition].
Qed.
Print Assumptions C76_components_sampled.

(* spanning forest, without sampling: the recorded edges are a spanning forest of the graph *)
Lemma spanning_of (n : nat) (G T : list (nat * nat)) : edges_in_range n G -> incl T G -> forest' T ->
  (forall x y, x < n -> y < n -> connected G x y -> connected T x y) -> spanning_forest (unweighted G) (unweighted T).
Proof.
  intros HG Hi Hfo Hc. split; [|split].
  - intros e He. unfold unweighted in *. apply in_map_iff in He as (p & <- & Hp). apply in_map_iff. exists p. auto.
  - now apply forest_unweighted.
  - intros u v. rewrite !ends_unweighted. intros C.
    assert (X : u = v \/ (u < n /\ v < n)).
    { induction C as [a b C|a|a b _ IH|a b c _ IH1 _ IH2]; [right; eauto|auto|intuition auto|intuition (subst; auto)]. }
    destruct X as [->|[A B]]; [apply rst_refl|auto].
Qed.

Theorem C76_spanning_forest : forall n two (G : list (nat * nat)) (sched : list (nat * bool)),
  symmetric G -> edges_in_range n G ->
  let s := exec n two sched (init (initialize (fun x => x) (fun _ => None)) (unites G)) in
  all_returned s (length (unites G)) ->
  spanning_forest (unweighted G) (unweighted (edges_of n (fst s))).
Proof.
  intros n two G sched Hs HG s Ha.
  assert (E : edges_of n (initialize (fun x => x) (fun _ => None)) = []).
  { unfold edges_of. simpl. generalize (seq 0 n). intros l. induction l; simpl; auto. }
  destruct (@run_forest n two (fun x => x) (fun _ => None) (unites G) sched (@flat_id n) (unites_range HG) G) as (A & B & C); auto.
  - intros [x y] H. apply inserted_in in H. unfold unites in H. apply in_map_iff in H as ([u v] & Ei & H). injection Ei as <- <-.
    apply filter_In in H as [H _]. auto.
  - rewrite E. intros e [].
  - rewrite E. intros l1 e l2 H. destruct l1; discriminate.
  - rewrite E. intros x y _ _. split; [|intros ->; apply rst_refl]. intros X.
    induction X as [a b X|a|a b _ IH|a b c _ IH1 _ IH2]; [easy|auto|auto|congruence].
  - fold s in A, B, C. apply (@spanning_of n); auto. intros x y Hx Hy Hc. apply C; auto.
    apply unites_partition; auto using flat_id. intros z _. apply rst_refl.
Qed.
Print Assumptions C76_spanning_forest.

(* after sampling: the sampled edges are a forest whose trees are the sampled components, and the
   entry of Edges of a vertex that carries itself is free *)
Theorem C76_spanning_forest_sampled : forall n two (G : list (nat * nat)) (P0 : nat -> nat) freq E0 js (sched : list (nat * bool)),
  symmetric G -> edges_in_range n G -> flat n P0 ->
  let T0 := edges_of n (initialize P0 E0) in
  incl T0 G -> forest (unweighted T0) ->
  (forall x y, x < n -> y < n -> (connected T0 x y <-> P0 x = P0 y)) ->
  (forall x, x < n -> P0 x = x -> E0 x = None) ->
  js = unites_sampled P0 freq G \/ js = unites G ->
  let s := exec n two sched (init (initialize P0 E0) js) in
  all_returned s (length js) ->
  spanning_forest (unweighted G) (unweighted (edges_of n (fst s))).
Proof.
  intros n two G P0 freq E0 js sched Hs HG Hf T0 Hi Hfo Hc Hn Hj s Ha.
  assert (Hr : in_range n js) by (destruct Hj as [->| ->]; auto using unites_sampled_range, unites_range).
  destruct (@run_forest n two P0 E0 js sched Hf Hr G) as (A & B & C); auto.
  - intros [x y] H. apply inserted_in in H.
    destruct Hj as [->| ->]; unfold unites_sampled, unites in H; apply in_map_iff in H as ([u v] & Ei & H); injection Ei as <- <-;
      apply filter_In in H as [H _]; auto.
  - fold s in A, B, C. apply (@spanning_of n); auto. intros x y Hx Hy Hcc. apply C; auto.
    assert (HP : forall z, z < n -> connected G z (P0 z)).
    { intros z Hz. apply (@conn_mono T0); auto. apply Hc; auto; [now apply Hf|]. now destruct (Hf z Hz). }
    unfold s in *. destruct Hj as [->| ->]; [now apply (@sampled_partition n two P0 freq G E0 sched)|now apply (@unites_partition n two P0 G E0 sched)].
Qed.
Print Assumptions C76_spanning_forest_sampled.

(* -- the hypotheses are met -------------------------------------------------------------------- *)
(* the 4-cycle and a pendant vertex; two rounds of splitting, three calls at a time, coins 0 1 0 1 *)
Definition ex_graph : list (nat * nat) := [(0, 1); (1, 0); (1, 2); (2, 1); (2, 3); (3, 2); (3, 0); (0, 3); (3, 4); (4, 3)].
Definition ex_sched : list (nat * bool) :=
  concat (repeat (flat_map (fun t => [(t, false); (4 - t, Nat.odd t)]) (seq 0 5)) 40).
Definition ex_run := exec 5 true ex_sched (init (initialize (fun x => x) (fun _ => None)) (unites ex_graph)).
Definition ex_labels := exec 5 true ex_sched (init (fst ex_run) (labels_pass 5)).
Definition results (s : sys) : list bool := map (fun st => match st with Done _ => true | _ => false end) (snd s).
Example C76_example : symmetric ex_graph /\ edges_in_range 5 ex_graph /\ results ex_run = repeat true 5 /\
  results ex_labels = repeat true 5 /\ map (label_of ex_labels) (seq 0 5) = repeat (label_of ex_labels 0) 5 /\
  length (edges_of 5 (fst ex_run)) = 4.
Proof.
  split; [|split].
  - intros u v H. simpl in H |- *. intuition congruence.
  - intros u v H. simpl in H. intuition (try match goal with X : (_, _) = _ |- _ => injection X as <- <- end; lia).
  - vm_compute. auto.
Qed.
(* after sampling: 0 1 2 have been joined by (1, 0) and (2, 1), 0 is skipped *)
Definition ex_P0 (x : nat) : nat := if x <? 3 then 0 else x.
Definition ex_E0 (x : nat) : option (nat * nat) := match x with 1 => Some (1, 0) | 2 => Some (2, 1) | _ => None end.
Definition ex_run2 := exec 5 true ex_sched (init (initialize ex_P0 ex_E0) (unites_sampled ex_P0 0 ex_graph)).
Example C76_example_sampled : flat 5 ex_P0 /\ edges_of 5 (initialize ex_P0 ex_E0) = [(1, 0); (2, 1)] /\
  length (unites_sampled ex_P0 0 ex_graph) = 4 /\ results ex_run2 = repeat true 4 /\
  length (edges_of 5 (fst ex_run2)) = 4.
Proof.
  split; [|vm_compute; auto].
  intros x Hx. do 5 (destruct x as [|x]; [unfold ex_P0; simpl; lia|]). lia.
Qed.
