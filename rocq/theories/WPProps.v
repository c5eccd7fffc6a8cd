(* C60: widest paths (SSWidestPath by buckets, SSWidestPathBF). *)
From Coq Require Import ZArith Permutation.
From Verif Require Import Base BKModel WBModel WBSpec WBProofs WPModel WPSpec WPRound WPBFProofs.
Local Open Scope nat_scope.

Lemma max_weight_le : forall n outw x, max_weight n outw <= x <-> forall v u w, v < n -> In (u, w) (outw v) -> w <= x.
Proof.
  intros n outw x. assert (E : forall l y, fold_right Nat.max 0 l <= y <-> forall w, In w l -> w <= y).
  { induction l as [|a l IH]; intros y; simpl; [split; [intros; contradiction|lia]|]. split.
    - intros H w [<-|Hw]; [lia|]. apply (proj1 (IH y)); auto. lia.
    - intros H. assert (fold_right Nat.max 0 l <= y) by (apply IH; auto). specialize (H a (or_introl eq_refl)). lia. }
  unfold max_weight. rewrite E. split.
  - intros H v u w Hv Hi. apply H. apply in_map_iff. exists (u, w). split; auto. apply in_flat_map. exists v. split; auto. apply in_seq. lia.
  - intros H w Hw. apply in_map_iff in Hw as ([u w'] & <- & Hw). apply in_flat_map in Hw as (v & Hv & Hi). apply in_seq in Hv. apply (H v u); auto. lia.
Qed.

Lemma weights_fit n outw o half : 0 < o -> 1 < half -> (forall v u w, v < n -> In (u, w) (outw v) -> w < o /\ w < half - 1) ->
  max_weight n outw + 1 <= o /\ max_weight n outw < half - 1.
Proof.
  intros Ho Hh H. assert (A : max_weight n outw <= o - 1) by (apply max_weight_le; intros v u w Hv Hi; destruct (H v u w Hv Hi); lia).
  assert (B : max_weight n outw <= half - 2) by (apply max_weight_le; intros v u w Hv Hi; destruct (H v u w Hv Hi); lia). lia.
Qed.

(* SSWidestPath, with every interleaving of the calls of every round: if every weight is
   less than num_buckets - 1 (and than INT_E_MAX), the number returned for v is the greatest width of a walk
   from src to v (0 if there is none), INT_E_MAX for src *)
Theorem C60_widest : forall n outw src o half D, src < n -> wgraph_ok n outw -> 0 < o -> 1 < half ->
  (forall v u w, v < n -> In (u, w) (outw v) -> w < o /\ w < half - 1) ->
  wp_returns n outw src o half D -> widths_are n (zout outw) src (Z.of_nat (half - 1)) 0 (fun v => Z.of_nat (D v)).
Proof. intros n outw src o half D H1 H2 H3 H4 H5. destruct (weights_fit outw H3 H4 H5). now apply wp_correct. Qed.

(* and it returns: there are at most n rounds, no state is stuck *)
Theorem C60_terminates : forall n outw src o half, src < n -> wgraph_ok n outw -> 0 < o -> 1 < half ->
  (forall v u w, v < n -> In (u, w) (outw v) -> w < o /\ w < half - 1) ->
  (exists D, wp_returns n outw src o half D) /\
  forall r D s, wp_loop n outw src o half r D s ->
    r <= n /\ (wp_returns n outw src o half D \/ exists D' s', wp_loop n outw src o half (S r) D' s').
Proof.
  intros n outw src o half H1 H2 H3 H4 H5. destruct (weights_fit outw H3 H4 H5). split; [now apply wp_exists|]. intros r D s H6. split.
  - eapply wp_rounds; eauto.
  - eapply wp_progress; eauto.
Qed.

(* one weight more and vertices are lost: with the default of 128 buckets and an edge of weight
   127, vertex 1 is given its width 1 but is never put into a bucket, so that vertex 3 behind it is
   said not to be reached *)
Definition lost_wide (v : nat) : list (nat * nat) := match v with 0 => [(1, 1); (2, 127)] | 1 => [(3, 1)] | _ => [] end.
Theorem C60_large_weights_refuted : exists D,
  wp_returns 4 lost_wide 0 127 1000 D /\ D 3 = 0 /\
  wide_walk (zout lost_wide) 0 999 3 1 /\ ~ widths_are 4 (zout lost_wide) 0 999 0 (fun v => Z.of_nat (D v)).
Proof.
  assert (Hw : wide_walk (zout lost_wide) 0 999 3 1).
  { change 1%Z with (Z.min (Z.min 999 1) 1). apply wide_S with (v := 1); [|now left]. apply wide_S with (v := 0); [constructor|now left]. }
  eexists. split; [|split; [|split]].
  - exists 2. eexists. exists 10. eexists. split.
    + eapply wp_round with (fuel := 10) (sched := []); [eapply wp_round with (fuel := 10) (sched := [0; 1; 0; 1; 1; 0]); [apply wp_start|..]|..].
      all: try (vm_compute; reflexivity).
      all: try (vm_compute; apply Permutation_refl).
      all: vm_compute; repeat constructor; discriminate.
    + vm_compute. reflexivity.
  - vm_compute. reflexivity.
  - exact Hw.
  - intros H. destruct (H 3 ltac:(lia)) as (_ & _ & X). specialize (X _ Hw). vm_compute in X. now apply X.
Qed.

(* SSWidestPathBF, weights of any sign, every interleaving: the greatest width of a walk, -1 if
   there is no walk of width 0 or more; the answer for a negative cycle is never given, there are at
   most n rounds, no state is stuck *)
Theorem C60_bellman_ford : forall n outw src inf, src < n -> zgraph_ok n outw -> (-1 <= inf)%Z ->
  (forall D broken, wbf_returns n outw src inf D broken -> broken = false /\ widths_are n outw src inf (-1) D) /\
  (exists D, wbf_returns n outw src inf D false) /\
  forall r m F, wbf_loop n outw src inf r m F -> r <= n /\ (F = [] \/ exists m' F', wbf_loop n outw src inf (S r) m' F').
Proof.
  intros n outw src inf H1 H2 H3. split; [|split].
  - intros D broken. now apply wbf_correct.
  - now apply wbf_exists.
  - intros r m F H. split; [eapply wbf_rounds; eauto|eapply wbf_progress; eauto].
Qed.

(* -- the hypotheses are met ------------------------------------------------------------------- *)
Definition wide_graph (v : nat) : list (nat * nat) :=
  match v with 0 => [(1, 2); (2, 5)] | 1 => [(3, 7)] | 2 => [(1, 4); (3, 1)] | 3 => [(0, 3); (3, 9)] | _ => [] end.
Example C60_example : exists D, wp_returns 5 wide_graph 0 10 100 D /\ map D (seq 0 5) = [99; 4; 5; 4; 0].
Proof.
  eexists. split.
  - exists 4. eexists. exists 20. eexists. split.
    + eapply wp_round with (fuel := 20) (sched := [0; 1; 0; 1; 1; 0]); [eapply wp_round with (fuel := 20) (sched := [0; 0; 0]); [eapply wp_round with (fuel := 20) (sched := [0; 1; 0; 1; 1; 0]);
        [eapply wp_round with (fuel := 20) (sched := [0; 1; 0; 1; 1; 0]); [apply wp_start|..]|..]|..]|..].
      all: try (vm_compute; reflexivity).
      all: try (vm_compute; apply Permutation_refl).
      all: vm_compute; repeat constructor; discriminate.
    + vm_compute. reflexivity.
  - vm_compute. reflexivity.
Qed.
Example C60_fits : wgraph_ok 5 wide_graph /\ forall v u w, v < 5 -> In (u, w) (wide_graph v) -> w < 10 /\ w < 100 - 1.
Proof.
  split; intros [|[|[|[|v]]]] u w Hv H; simpl in H; repeat destruct H as [H|H]; try contradiction; injection H as <- <-; lia.
Qed.
Definition signed_graph (v : nat) : list (nat * Z) :=
  match v with 0 => [(1, 2%Z); (2, (-5)%Z)] | 1 => [(0, 3%Z); (3, 1%Z)] | 3 => [(1, (-1)%Z)] | _ => [] end.
Example C60_signed_example : zgraph_ok 4 signed_graph /\ exists D, wbf_returns 4 signed_graph 0 1000 D false /\ map D (seq 0 4) = [1000; 2; -1; 1]%Z.
Proof.
  split.
  - intros [|[|[|[|v]]]] u w Hv H; simpl in H; repeat destruct H as [H|H]; try contradiction; injection H as <- <-; lia.
  - eexists. split.
    + exists 3. do 2 eexists. split.
      * eapply wbf_round with (sched := [0; 0]); [eapply wbf_round with (sched := [0; 1; 0; 1; 1; 0; 1]); [eapply wbf_round with (sched := [0; 1; 0; 1; 0; 0]); [apply wbf_start|..]|..]|..].
        all: try discriminate.
        all: try (vm_compute; apply Permutation_refl).
        all: vm_compute; repeat constructor; discriminate.
      * left. split; [vm_compute; reflexivity|]. split; reflexivity.
    + vm_compute. reflexivity.
Qed.

Print Assumptions C60_widest.
Print Assumptions C60_terminates.
Print Assumptions C60_large_weights_refuted.
Print Assumptions C60_bellman_ford.
