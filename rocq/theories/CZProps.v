(* C88: the correctness checks of the connectivity and spanning-forest benchmarks. *)
From Coq Require Import Permutation.
From Verif Require Import Base GBModel GNSpec CZModel CZSpec CZProofs.
Unset Strict Implicit.

(* RelabelDet gives vertex 0 a label of its own, and groups the other vertices as before. *)
Theorem C88_relabel : forall ids, ids <> [] -> (forall x, In x ids -> x <= length ids) ->
  exists r, RelabelDet ids = Some r /\ length r = length ids /\
    (forall i, 1 <= i < length ids -> nth i r 0 <> nth 0 r 0) /\ same_groups (fun i => 1 <= i < length ids) r ids.
Proof.
  intros ids Hne H. destruct (relabel_spec Hne H) as (r & E & L & Z & G). exists r. split; auto. split; auto. split.
  - intros i Hi. rewrite Z. apply (G i i Hi Hi).
  - intros i j Hi Hj. apply (G i j Hi Hj).
Qed.
Print Assumptions C88_relabel.

(* So it does not keep the groups if vertex 0 is not alone in its own. *)
Theorem C88_relabel_groups_refuted : forall ids i, ids <> [] -> (forall x, In x ids -> x <= length ids) -> 1 <= i < length ids -> nth i ids 0 = nth 0 ids 0 ->
  exists r, RelabelDet ids = Some r /\ ~ same_groups (fun i => i < length ids) r ids.
Proof.
  intros ids i Hne H Hi E. destruct (C88_relabel Hne H) as (r & Er & _ & Hz & _). exists r. split; auto. intros G.
  apply (Hz i Hi). apply G; auto; lia.
Qed.
Print Assumptions C88_relabel_groups_refuted.

(* The check of labels passes iff the two labellings group the vertices other than 0 in the same way. *)
Theorem C88_cc_check : forall correct check, length correct = length check -> (forall x, In x correct -> x <= length correct) ->
  (forall x, In x check -> x <= length check) ->
  exists r, cc_check correct check = Some r /\ (r = true <-> same_groups (fun i => 1 <= i < length correct) correct check).
Proof. intros a b Hl Ha Hb. exact (cc_check_spec Hl Ha Hb). Qed.
Print Assumptions C88_cc_check.

(* In particular it never rejects right labels, *)
Theorem C88_cc_check_accepts : forall correct check, length correct = length check -> (forall x, In x correct -> x <= length correct) ->
  (forall x, In x check -> x <= length check) -> same_groups (fun i => i < length correct) correct check -> cc_check correct check = Some true.
Proof.
  intros a b Hl Ha Hb H. destruct (cc_check_spec Hl Ha Hb) as (r & E & Hr). rewrite E. f_equal. apply Hr. intros i j Hi Hj. apply H; lia.
Qed.
Print Assumptions C88_cc_check_accepts.
(* but it accepts wrong ones. *)
Theorem C88_cc_check_refuted : exists correct check, length correct = length check /\ (forall x, In x correct -> x < length correct) /\
  (forall x, In x check -> x < length check) /\ cc_check correct check = Some true /\ ~ same_groups (fun i => i < length correct) correct check.
Proof.
  exists [0; 0; 0], [0; 1; 1]. split; auto. split; [simpl; intuition lia|]. split; [simpl; intuition lia|]. split; [reflexivity|].
  intros H. specialize (H 0 1 ltac:(simpl; lia) ltac:(simpl; lia)). simpl in H. destruct H as [H _]. discriminate (H eq_refl).
Qed.
Print Assumptions C88_cc_check_refuted.
Theorem C88_relabel_out_of_bounds : forall ids x, In x ids -> length ids < x -> RelabelDet ids = None.
Proof. intros ids x. exact (@relabel_bounds ids x). Qed.
Print Assumptions C88_relabel_out_of_bounds.

(* The check of a forest passes iff it has as many edges as the other one and connects the same pairs of vertices
   other than 0, if the connectivity algorithm labels components. *)
Theorem C88_forest_check : forall cc n correct check,
  labels_components n (double_edges correct) (cc n (double_edges correct)) -> labels_components n (double_edges check) (cc n (double_edges check)) ->
  exists r, check_spanning_forest cc n correct check = Some r /\
    (r = true <-> length correct = length check /\ forall i j, 1 <= i < n -> 1 <= j < n -> (joined correct i j <-> joined check i j)).
Proof. intros cc n correct check H1 H2. exact (forest_check_spec H1 H2). Qed.
Print Assumptions C88_forest_check.
Theorem C88_double_edges : forall es u v, In (u, v) (double_edges es) <-> In (u, v) es \/ In (v, u) es.
Proof. intros. apply double_in. Qed.
Print Assumptions C88_double_edges.

(* It accepts a list of edges that leaves vertex 0 out and repeats an edge, whatever the connectivity algorithm. *)
Theorem C88_forest_check_refuted : exists correct check, joined correct 0 1 /\ ~ joined check 0 1 /\ ~ NoDup check /\
  forall cc, (forall es, (forall u v, In (u, v) es -> u < 3 /\ v < 3) -> labels_components 3 es (cc 3 es)) -> check_spanning_forest cc 3 correct check = Some true.
Proof.
  exists [(0, 1); (1, 2)], [(1, 2); (1, 2)]. split; [|split; [|split]].
  - eapply j_edge; [constructor|]. left. simpl. auto.
  - assert (G : forall u v, joined [(1, 2); (1, 2)] u v -> u = 0 -> v = 0).
    { induction 1 as [|u v w Huv IH Hvw]; auto. intros E. specialize (IH E). subst v. simpl in Hvw. intuition congruence. }
    intros H. discriminate (G 0 1 H eq_refl).
  - intros H. inversion H as [|? ? Hn _]; subst. apply Hn. simpl. auto.
  - intros cc Hcc. destruct (@C88_forest_check cc 3 [(0, 1); (1, 2)] [(1, 2); (1, 2)]) as (r & E & Hr).
    + apply Hcc. intros u v H. apply double_in in H. simpl in H. destruct H as [[H|[H|[]]]|[H|[H|[]]]]; inversion H; lia.
    + apply Hcc. intros u v H. apply double_in in H. simpl in H. destruct H as [[H|[H|[]]]|[H|[H|[]]]]; inversion H; lia.
    + rewrite E. f_equal. apply Hr. split; auto.
      assert (A : joined [(0, 1); (1, 2)] 1 2) by (eapply j_edge; [constructor|]; left; simpl; auto).
      assert (A' : joined [(0, 1); (1, 2)] 2 1) by (eapply j_edge; [constructor|]; right; simpl; auto).
      assert (B : joined [(1, 2); (1, 2)] 1 2) by (eapply j_edge; [constructor|]; left; simpl; auto).
      assert (B' : joined [(1, 2); (1, 2)] 2 1) by (eapply j_edge; [constructor|]; right; simpl; auto).
      intros i j Hi Hj. assert (Ei : i = 1 \/ i = 2) by lia. assert (Ej : j = 1 \/ j = 2) by lia.
      destruct Ei, Ej; subst; split; intros _; auto; constructor.
Qed.
Print Assumptions C88_forest_check_refuted.

(* The number of components reported is the number of labels, the size that of the most frequent label. *)
Theorem C88_num_cc : forall labels order, (forall x, In x labels -> x < length labels) -> Permutation order (seq 0 (length labels)) ->
  num_cc labels order = Some (length (nodup Nat.eq_dec labels)).
Proof. intros. now apply num_cc_spec. Qed.
Print Assumptions C88_num_cc.
Theorem C88_largest_cc : forall labels, labels <> [] -> (forall x, In x labels -> x < length labels) ->
  exists s, largest_cc labels = Some s /\ (exists c, In c labels /\ count_occ Nat.eq_dec labels c = s) /\ forall c, count_occ Nat.eq_dec labels c <= s.
Proof. intros. now apply largest_cc_spec. Qed.
Print Assumptions C88_largest_cc.

(* Non-vacuity *)
Example C88_run : RelabelDet [3; 3; 1; 3; 0] = Some [0; 1; 2; 1; 3] /\ cc_check [3; 3; 1; 3; 0] [2; 2; 4; 2; 1] = Some true /\
  cc_check [3; 3; 1; 3; 0] [2; 2; 4; 4; 1] = Some false /\ num_cc [3; 3; 1; 3; 0] [4; 2; 0; 1; 3] = Some 3 /\ largest_cc [3; 3; 1; 3; 0] = Some 3 /\
  (forall x, In x [3; 3; 1; 3; 0] -> x < length [3; 3; 1; 3; 0]).
Proof. repeat split; auto. simpl. intuition lia. Qed.
Example C88_components : labels_components 3 (double_edges [(0, 1)]) [1; 1; 2].
Proof.
  split; auto. split. { intros i Hi. destruct i as [|[|[|]]]; simpl; lia. }
  assert (A : joined (double_edges [(0, 1)]) 0 1) by (eapply j_edge; [constructor|]; left; simpl; auto).
  assert (A' : joined (double_edges [(0, 1)]) 1 0) by (eapply j_edge; [constructor|]; right; simpl; auto).
  assert (G : forall u v, joined (double_edges [(0, 1)]) u v -> (u = 2 <-> v = 2)).
  { induction 1 as [|u v w Huv IH Hvw]; [tauto|]. rewrite IH. rewrite !double_in in Hvw. simpl in Hvw.
    destruct Hvw as [[[H|[]]|[H|[]]]|[[H|[]]|[H|[]]]]; inversion H; subst; lia. }
  intros i j Hi Hj. split.
  - intros E. destruct i as [|[|[|]]], j as [|[|[|]]]; simpl in E; try lia; auto; constructor.
  - intros H. apply G in H. destruct i as [|[|[|]]], j as [|[|[|]]]; simpl; try lia.
Qed.
