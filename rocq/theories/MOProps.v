(* C73: CollectReduce and the modularity of a clustering. *)
From Verif Require Import Base ListUtil CUSpec CUModel CUProofs MOSpec MOModel MOProofs.
From Coq Require Import QArith Qcanon Sorted.
Local Open Scope nat_scope.
Unset Strict Implicit.

(* entry k is the reduction of the values with key k, however equal keys are ordered by the sort *)
Theorem C73_collect_reduce (A V : Type) (sq : list A) (key : A -> nat) (value : A -> V) op identity num_keys order :
  (forall a b, op a b = op b a) -> (forall a b c, op a (op b c) = op (op a b) c) ->
  (forall a, In a sq -> key a < num_keys) -> sorts (map key sq) order ->
  length (collect_reduce sq key value op identity num_keys order) = num_keys /\
  forall k, k < num_keys -> nth k (collect_reduce sq key value op identity num_keys order) identity = reduced op identity key value sq k.
Proof.
  intros C1 C2 K S. split; [|intros k Hk; now apply collect_sorts].
  unfold collect_reduce. destruct (length sq =? 0); [apply repeat_length|]. now rewrite map_length, seq_length.
Qed.
Print Assumptions C73_collect_reduce.

(* weighted: modularity, if no vertex in no cluster has a self loop *)
Theorem C73_weighted mx cl g sort :
  (forall l, sorts (map fst l) (sort l)) ->
  (forall u e, u < length cl -> In e (g u) -> fst e < length cl) ->
  (forall u, u < length cl -> nth u cl mx = mx -> wt g u u = 0%Qc) -> wtotal (length cl) g <> 0%Qc ->
  modularity_weighted mx cl sort g = Some (modularity_of mx cl g).
Proof. intros S I L M. now apply weighted_ok. Qed.
Print Assumptions C73_weighted.

Theorem C73_unweighted mx cl adj sort :
  (forall l, sorts (map fst l) (sort l)) ->
  (forall u v, u < length cl -> In v (adj u) -> v < length cl) ->
  (forall u, u < length cl -> nth u cl mx = mx -> ~ In u (adj u)) ->
  modularity_unweighted mx cl sort adj =
    if list_sum (map (fun v => length (adj v)) (seq 0 (length cl))) =? 0 then 0%Qc else modularity_of mx cl (unit_weights adj).
Proof.
  intros S I L. destruct (Nat.eqb_spec (list_sum (map (fun v => length (adj v)) (seq 0 (length cl)))) 0) as [Z|Z].
  - unfold modularity_unweighted. cbn zeta. now rewrite Z.
  - rewrite (@unweighted_value mx cl adj I sort S Z). symmetry. apply spec_split.
    + intros u Hu E. apply qsum_zero. intros e He. apply filter_In in He as [He Q]. apply in_map_iff in He as (v & <- & Hv). cbn [fst] in Q. apply Nat.eqb_eq in Q. subst v. destruct (L u Hu E Hv).
    + rewrite (unit_total I). now apply qn_nonzero.
Qed.
Print Assumptions C73_unweighted.

(* at most 1 for weights that are not negative, self loops or not *)
Theorem C73_at_most_1 mx cl g sort q :
  (forall l, sorts (map fst l) (sort l)) ->
  (forall u e, u < length cl -> In e (g u) -> fst e < length cl) ->
  (forall u e, u < length cl -> In e (g u) -> (0 <= snd e)%Qc) ->
  modularity_weighted mx cl sort g = Some q -> (q <= 1)%Qc.
Proof.
  intros S I P E. destruct (Qc_eq_dec (wtotal (length cl) g) 0) as [Z|Z].
  - unfold modularity_weighted in E. cbn zeta in E. destruct (_ =? 0); [injection E as <-; discriminate|]. rewrite (total_ok I) in E. destruct (Qc_eq_dec _ 0); [discriminate|tauto].
  - rewrite (@weighted_value mx cl g I sort S Z) in E. injection E as <-. now apply value_le.
Qed.
Print Assumptions C73_at_most_1.
Theorem C73_at_most_1_unweighted mx cl adj sort :
  (forall l, sorts (map fst l) (sort l)) -> (forall u v, u < length cl -> In v (adj u) -> v < length cl) ->
  (modularity_unweighted mx cl sort adj <= 1)%Qc.
Proof.
  intros S I. destruct (Nat.eq_dec (list_sum (map (fun v => length (adj v)) (seq 0 (length cl)))) 0) as [Z|Z].
  - unfold modularity_unweighted. cbn zeta. rewrite Z. discriminate.
  - rewrite (@unweighted_value mx cl adj I sort S Z). apply value_le; [|rewrite (unit_total I); now apply qn_nonzero].
    intros u e _ He. apply in_map_iff in He as (v & <- & _). discriminate.
Qed.
Print Assumptions C73_at_most_1_unweighted.

(* the names of the clusters do not matter; in particular CompactClustering keeps the modularity *)
Theorem C73_names mx cl cl' g : length cl' = length cl ->
  (forall u v, u < length cl -> v < length cl -> together mx cl' u v = together mx cl u v) -> modularity_of mx cl' g = modularity_of mx cl g.
Proof.
  intros L T. unfold modularity_of. rewrite L. apply qsum_map_ext. intros u Hu. apply qsum_map_ext. intros v Hv. apply in_seq in Hu, Hv. now rewrite T by lia.
Qed.
Print Assumptions C73_names.
Theorem C73_renumbered mx cl out k g : renumbers mx cl out k -> modularity_of mx out g = modularity_of mx cl g.
Proof.
  intros [L N R O U]. apply C73_names; auto. intros u v Hu Hv. unfold together. f_equal.
  pose proof (N u Hu) as Nu. pose proof (N v Hv) as Nv.
  destruct (Nat.eqb_spec (nth u out mx) mx) as [E|E], (Nat.eqb_spec (nth u cl mx) mx) as [E'|E']; try tauto; cbn [negb]; [now rewrite !andb_false_r|]. rewrite !andb_true_r.
  destruct (Nat.eq_dec (nth v cl mx) mx) as [F|F].
  - rewrite (proj2 Nv F), F. now rewrite (proj2 (Nat.eqb_neq _ _) E), (proj2 (Nat.eqb_neq _ _) E').
  - pose proof (O u v Hu Hv E' F). pose proof (O v u Hv Hu F E'). destruct (Nat.eqb_spec (nth u out mx) (nth v out mx)), (Nat.eqb_spec (nth u cl mx) (nth v cl mx)); auto; exfalso; lia.
Qed.
Print Assumptions C73_renumbered.

(* all vertices in one cluster: 0 *)
Theorem C73_one_cluster mx cl g c : c <> mx -> (forall u, u < length cl -> nth u cl mx = c) -> wtotal (length cl) g <> 0%Qc -> modularity_of mx cl g = 0%Qc.
Proof.
  intros Hc H Hm. unfold modularity_of. cbn zeta. set (n := length cl) in *. set (m := wtotal n g) in *.
  assert (R : forall u, In u (seq 0 n) -> qsum (map (fun v => if together mx cl u v then (wt g u v / m - wdeg n g u / m * (wdeg n g v / m))%Qc else 0%Qc) (seq 0 n)) = 0%Qc).
  { intros u Hu. apply in_seq in Hu. rewrite (@qsum_map_ext _ _ (fun v => / m * wt g u v - (wdeg n g u / m * / m) * wdeg n g v)%Qc).
    - rewrite qsum_map_sub, !qsum_scale. fold (wdeg n g u). change (qsum (map (wdeg n g) (seq 0 n))) with m. unfold Qcdiv. field. exact Hm.
    - intros v Hv. apply in_seq in Hv. unfold together. rewrite !H by (unfold n in *; lia). rewrite Nat.eqb_refl, (proj2 (Nat.eqb_neq _ _) Hc). rewrite orb_true_r. unfold Qcdiv. ring. }
  apply qsum_zero. exact R.
Qed.
Print Assumptions C73_one_cluster.

(* an insertion sort of positions by key, to run the examples *)
Fixpoint insert_pos (keys : list nat) (i : nat) (l : list nat) : list nat :=
  match l with [] => [i] | j :: r => if nth i keys 0 <=? nth j keys 0 then i :: l else j :: insert_pos keys i r end.
Definition sort_pos (keys : list nat) : list nat := fold_right (insert_pos keys) [] (seq 0 (length keys)).
Lemma insert_pos_perm keys i l : Permutation (i :: l) (insert_pos keys i l).
Proof. induction l as [|j r IH]; cbn [insert_pos]; auto. destruct (_ <=? _); auto. etransitivity; [apply perm_swap|]. now constructor. Qed.
Lemma sort_pos_sorts keys : sorts keys (sort_pos keys).
Proof.
  unfold sorts, sort_pos. generalize (seq 0 (length keys)). intros l. split.
  - induction l as [|x l IH]; cbn [fold_right]; auto. etransitivity; [|apply insert_pos_perm]. now constructor.
  - induction l as [|x l IH]; cbn [fold_right]; [constructor|]. induction IH as [|y r S IH' Hy]; cbn [insert_pos]; [repeat constructor|]. destruct (Nat.leb_spec (nth x keys 0) (nth y keys 0)) as [Q|Q].
    + constructor; [now constructor|]. constructor; auto. revert Hy. apply Forall_impl. intros z. lia.
    + constructor; auto. rewrite Forall_forall in *. intros z Hz. apply (Permutation_in _ (Permutation_sym (insert_pos_perm keys x r))) in Hz as [<-|Hz]; [lia|auto].
Qed.
Definition msort {V} (l : list (nat * V)) : list nat := sort_pos (map fst l).

(* two triangles 0 1 2 and 3 4 5 joined by the edge 2 3, and a vertex 6 attached to 0, in no cluster *)
Definition joined (u : nat) : list nat := nth u [[1; 2; 6]; [0; 2]; [0; 1; 3]; [2; 4; 5]; [3; 5]; [3; 4]; [0]] [].
Example C73_triangles :
  let cl := [4; 4; 4; 1; 1; 1; 100] in
  (forall l : list (nat * nat), sorts (map fst l) (msort l)) /\
  (forall u v, u < length cl -> In v (joined u) -> v < length cl) /\
  (forall u, u < length cl -> nth u cl 100 = 100 -> ~ In u (joined u)) /\
  modularity_unweighted 100 cl msort joined = Q2Qc (39 # 128) /\
  compact 100 cl [0; 1; 2; 3; 4; 5; 6; 0; 1; 2; 3; 4; 5; 6] = Some ([1; 1; 1; 0; 0; 0; 100], 2) /\
  modularity_unweighted 100 [1; 1; 1; 0; 0; 0; 100] msort joined = Q2Qc (39 # 128).
Proof.
  cbn zeta. split; [intros; apply sort_pos_sorts|]. split; [|split; [|split; [|split]]].
  - intros u v Hu. cbn [length] in *. do 7 (destruct u as [|u]; [cbn; intros; lia|]). lia.
  - intros u Hu. cbn [length] in *. do 7 (destruct u as [|u]; [cbn; try discriminate; intros; lia|]). lia.
  - apply Qc_is_canon. vm_compute. reflexivity.
  - reflexivity.
  - apply Qc_is_canon. vm_compute. reflexivity.
Qed.

(* a self loop at a vertex in no cluster is left out, although it would count if the vertex had its own cluster *)
Theorem C73_self_loop_refuted :
  ~ (forall mx cl (adj : nat -> list nat) sort, (forall l, sorts (map fst l) (sort l)) -> (forall u v, u < length cl -> In v (adj u) -> v < length cl) ->
      list_sum (map (fun v => length (adj v)) (seq 0 (length cl))) <> 0 -> modularity_unweighted mx cl sort adj = modularity_of mx cl (unit_weights adj)).
Proof.
  intros H. specialize (H 100 [100; 0] (fun u => nth u [[0; 1]; [0]] []) msort). assert (E : modularity_unweighted 100 [100; 0] msort (fun u => nth u [[0; 1]; [0]] []) = Q2Qc (- 5 # 9)) by (apply Qc_is_canon; vm_compute; reflexivity).
  rewrite E in H. assert (E' : modularity_of 100 [100; 0] (unit_weights (fun u => nth u [[0; 1]; [0]] [])) = Q2Qc (- 2 # 9)) by (apply Qc_is_canon; vm_compute; reflexivity). rewrite E' in H.
  assert (X : Q2Qc (-5 # 9) = Q2Qc (-2 # 9)); [|discriminate X]. apply H; [intros; apply sort_pos_sorts| |discriminate].
  intros u v Hu. cbn [length] in *. do 2 (destruct u as [|u]; [cbn; intros; lia|]). lia.
Qed.
Print Assumptions C73_self_loop_refuted.

(* edges of weight 0 only: the result is not a number *)
Theorem C73_zero_weight_refuted :
  ~ (forall mx cl (g : wgraph) sort, (forall l, sorts (map fst l) (sort l)) -> (forall u e, u < length cl -> In e (g u) -> fst e < length cl) ->
      (forall u e, u < length cl -> In e (g u) -> (0 <= snd e)%Qc) -> exists q, modularity_weighted mx cl sort g = Some q).
Proof.
  intros H. destruct (H 100 [0; 0] (fun u => nth u [[(1, 0%Qc)]; [(0, 0%Qc)]] []) msort) as (q & E).
  - intros; apply sort_pos_sorts.
  - intros u e Hu. cbn [length] in *. do 2 (destruct u as [|u]; [cbn; intros [<-|[]]; cbn; lia|]). lia.
  - intros u e Hu. cbn [length] in *. do 2 (destruct u as [|u]; [cbn; intros [<-|[]]; discriminate|]). lia.
  - vm_compute in E. discriminate.
Qed.
Print Assumptions C73_zero_weight_refuted.
