(* Theorems for C81. *)
From Coq Require Import Permutation.
From Verif Require Import Base MISpec YQModel YQSpec YQProofs YQFinal YQMatch.
Unset Strict Implicit.

(* C81, independent set.  Undirected graph without self loops, any hash function: there is a
   reordered graph; there are a maximal independent set S, the one chosen greedily in the order of
   the hashes, and a number of steps per vertex, such that every query with every cutoff answers
   membership in S after exactly that many steps if the cutoff allows them, and otherwise stops
   without an answer at the cutoff; and MaximalIndependentSet returns the greatest and the total
   number of steps and the number of answers.  Its verification (with the cutoff SIZE_MAX) passes
   whenever every query was answered. *)
Theorem C81_independent_set : forall pri n outn,
  (forall u v, u < n -> In v (outn u) -> v < n /\ In u (outn v)) -> (forall v, v < n -> ~ In v (outn v)) ->
  (exists edges, reordered (vertex_comp pri) n outn edges) /\
  forall edges, reordered (vertex_comp pri) n outn edges ->
  exists S steps, maximal_independent n outn S /\ first_set n outn (vertex_before pri) S /\
    (forall cutoff depth v, n <= depth -> v < n -> mis_query pri (slice outn edges) cutoff depth v 0 =
       if steps v <=? cutoff then Ret (if S v then In_ else Out_) (steps v) else Ret Unknown cutoff) /\
    (forall smax cutoff depth, n <= depth -> cutoff < smax \/ (forall v, v < n -> steps v <= cutoff) ->
       exists mis answered, MaximalIndependentSet smax pri n outn edges cutoff depth =
           Some (mis, answered, list_max (map (fun v => Nat.min (steps v) cutoff) (seq 0 n)),
                 list_sum (map (fun v => Nat.min (steps v) cutoff) (seq 0 n)) mod (smax + 1),
                 length (filter (fun v => steps v <=? cutoff) (seq 0 n))) /\
         forall v, v < n -> mis v = S v && (steps v <=? cutoff) /\ answered v = (steps v <=? cutoff)).
Proof.
  intros pri n outn Hsym Hself. split.
  - apply reordered_exists; [intros i x y z; apply vertex_cotrans|]. intros i x y E. destruct (vertex_comp pri i y x) eqn:E'; auto.
    apply vertex_comp_true in E, E'. unfold vertex_before in *. lia.
  - intros edges Hre. assert (Hlt : forall u v, u < n -> In v (outn u) -> v < n) by (intros; now apply (Hsym u)).
    destruct (mis_queries Hlt Hre) as (S & steps & HS & Hq). exists S, steps.
    assert (HM : maximal_independent n outn S).
    { apply (first_set_maximal Hsym (before := vertex_before pri)); auto. unfold vertex_before. lia. }
    split; auto. split; auto. split; auto. intros smax cutoff depth Hd Hc. apply mis_run; auto.
Qed.
Print Assumptions C81_independent_set.

(* C81, matching.  The same for undirected graphs without self loops and parallel edges; L lists
   the edges answered as matched. *)
Theorem C81_matching : forall hash n outn,
  (forall u v, u < n -> In v (outn u) -> v < n /\ In u (outn v)) -> (forall v, v < n -> ~ In v (outn v)) ->
  (forall v, v < n -> NoDup (outn v)) ->
  (exists edges, reordered (edge_comp hash) n outn edges) /\
  forall edges, reordered (edge_comp hash) n outn edges ->
  exists M steps, maximal_matching_set n outn M /\ first_matching n outn (edge_before hash) M /\
    (forall cutoff depth u v, n * n <= depth -> is_edge n outn (u, v) -> mm_query hash (slice outn edges) cutoff depth u v 0 =
       if steps (u, v) <=? cutoff then Ret (if M (u, v) then In_ else Out_) (steps (u, v)) else Ret Unknown cutoff) /\
    (forall smax cutoff depth, n * n <= depth -> cutoff < smax \/ (forall e, is_edge n outn e -> steps e <= cutoff) ->
       exists L, MaximalMatching smax hash n outn edges cutoff depth =
           Some (L, list_max (map (fun e => Nat.min (steps e) cutoff) (upper_edges n outn)),
                 list_sum (map (fun e => Nat.min (steps e) cutoff) (upper_edges n outn)) mod (smax + 1),
                 length (filter (fun e => steps e <=? cutoff) (upper_edges n outn))) /\
         NoDup L /\ forall e, In e L <-> is_edge n outn e /\ M e = true /\ steps e <= cutoff).
Proof.
  intros hash n outn Hsym Hself Hnd. split.
  - apply reordered_exists; [intros i x y z|intros i x y]; rewrite !comp_elt; [apply elt_cotrans|apply elt_asym].
  - intros edges Hre. destruct (slice_eq Hre) as (f & Hf & Hsl).
    assert (Hin : forall x y, x < n -> (In y (slice outn edges x) <-> In y (outn x))).
    { intros x y Hx. rewrite Hsl by auto. split; apply Permutation_in; [|symmetry]; apply Hf; auto. }
    assert (Hedge : forall e, is_edge n (slice outn edges) e <-> is_edge n outn e).
    { intros e. unfold is_edge. split; intros (A & B & C); repeat split; auto; apply Hin; auto; lia. }
    destruct (@mm_queries hash n (slice outn edges)) as (M & steps & HM & Hq).
    + intros x y Hx Hy. apply Hin in Hy; auto. destruct (Hsym x y Hx Hy). split; auto. now apply Hin.
    + intros x Hx Hx'. apply Hin in Hx'; auto. now apply (Hself x).
    + intros x Hx. rewrite Hsl by auto. now apply Hf.
    + assert (HM' : first_matching n outn (edge_before hash) M).
      { intros e He. rewrite (HM e (proj2 (Hedge e) He)). split; intros H g Hg; apply H; now apply Hedge. }
      pose proof (first_matching_maximal HM') as HX. exists M, steps. split; auto. split; auto. split.
      * intros cutoff depth u v Hd He. apply (Hq cutoff depth (u, v)); auto. now apply Hedge.
      * intros smax cutoff depth Hd Hc. apply mm_run with (f := f); auto; [intros v Hv; now apply Hf|]. intros e He. apply Hq; auto. now apply Hedge.
Qed.
Print Assumptions C81_matching.

(* a self loop: its vertex is chosen and the verification exits, for all hash functions *)
Theorem C81_self_loop_refuted : forall pri smax, 1 <= smax ->
  reordered (vertex_comp pri) 1 (fun _ => [0]) [0] /\
  forall depth, MaximalIndependentSet smax pri 1 (fun _ => [0]) [0] smax (S depth) = None.
Proof.
  intros pri smax Hs. split.
  - exists (fun _ => [0]). split; auto. intros v Hv. split; auto. repeat constructor.
  - intros depth. unfold MaximalIndependentSet, slice, offset. simpl. destruct smax as [|s]; [lia|]. simpl.
    rewrite Nat.ltb_irrefl, Nat.eqb_refl. simpl. rewrite Nat.eqb_refl. reflexivity.
Qed.
Print Assumptions C81_self_loop_refuted.

(* parallel edges: the edge is counted twice and an assertion fails *)
Definition double (v : nat) : list nat := nth v [[1; 1]; [0; 0]] [].
Theorem C81_parallel_edges_refuted : forall hash smax, 1 <= smax ->
  reordered (edge_comp hash) 2 double [1; 1; 0; 0] /\
  forall depth, MaximalMatching smax hash 2 double [1; 1; 0; 0] smax (S depth) = None.
Proof.
  intros hash smax Hs. split.
  - exists double. split; auto. intros v Hv. split; auto. unfold sorted_by, edge_comp. destruct v as [|[|v]]; [| |lia];
      repeat constructor; rewrite !Nat.ltb_irrefl; reflexivity.
  - intros depth. unfold MaximalMatching, slice, offset. simpl. destruct smax as [|s]; [lia|].
    unfold get_edge_pri. simpl. unfold get_next, it_lt, get_edge_pri. simpl. rewrite !Nat.ltb_irrefl, !Nat.eqb_refl. simpl.
    repeat (rewrite ?Nat.ltb_irrefl, ?Nat.eqb_refl; simpl).
    reflexivity.
Qed.
Print Assumptions C81_parallel_edges_refuted.

(* -- the hypotheses are met: a path of five vertices with a hash that has ties --------------------- *)
Definition path5 (v : nat) : list nat := nth v [[1]; [0; 2]; [1; 3]; [2; 4]; [3]] [].
Definition pri5 (v : nat) : nat := nth v [4; 1; 1; 3; 2] 0.
Example C81_graph_example : (forall u v, u < 5 -> In v (path5 u) -> v < 5 /\ In u (path5 v)) /\ (forall v, v < 5 -> ~ In v (path5 v)) /\
  (forall v, v < 5 -> NoDup (path5 v)).
Proof.
  repeat split.
  1, 2: revert H0; destruct u as [|[|[|[|[|u]]]]]; try lia; unfold path5; simpl; intuition (subst; simpl; auto; lia).
  - intros v Hv. unfold path5. destruct v as [|[|[|[|[|v]]]]]; try lia; simpl; intuition discriminate.
  - intros v Hv. unfold path5. destruct v as [|[|[|[|[|v]]]]]; try lia; simpl; repeat constructor; simpl; intuition discriminate.
Qed.
Example C81_run_example :
  (forall v, v < 5 -> Permutation (nth v [[1]; [2; 0]; [1; 3]; [2; 4]; [3]] []) (path5 v) /\
     sorted_by (vertex_comp pri5 v) (nth v [[1]; [2; 0]; [1; 3]; [2; 4]; [3]] [])) /\
  map (fun v => mis_query pri5 (slice path5 [1; 2; 0; 1; 3; 2; 4; 3]) 100 5 v 0) (seq 0 5) =
    [Ret Out_ 2; Ret In_ 1; Ret Out_ 2; Ret Out_ 5; Ret In_ 1] /\
  map (fun v => mis_query pri5 (slice path5 [1; 2; 0; 1; 3; 2; 4; 3]) 4 5 v 0) (seq 0 5) =
    [Ret Out_ 2; Ret In_ 1; Ret Out_ 2; Ret Unknown 4; Ret In_ 1] /\
  option_map (fun r => let '(_, _, longest, total, answers) := r in (longest, total, answers))
    (MaximalIndependentSet 100 pri5 5 path5 [1; 2; 0; 1; 3; 2; 4; 3] 100 5) = Some (5, 11, 5) /\
  option_map (fun r => let '(_, _, longest, total, answers) := r in (longest, total, answers))
    (MaximalIndependentSet 100 pri5 5 path5 [1; 2; 0; 1; 3; 2; 4; 3] 4 5) = Some (4, 10, 4) /\
  MaximalMatching 100 (fun e => pri5 (fst e)) 5 path5 [1; 2; 0; 1; 3; 2; 4; 3] 100 25 = Some ([(1, 2); (3, 4)], 4, 9, 4).
Proof.
  split; [|vm_compute; repeat split].
  intros v Hv. destruct v as [|[|[|[|[|v]]]]]; try lia; (split; [simpl; auto; try apply perm_swap|]);
    repeat constructor; vm_compute; reflexivity.
Qed.
