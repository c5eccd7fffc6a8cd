(* Theorems for C23, C24 and C25. *)
From Verif Require Import Base ListUtil GBModel GBSpec ISSpec ISProofs GBProofs.

Lemma sym_edges {W} sort (es : list (edge W)) : sorts sort ->
  StronglySorted klt (undirect_and_sort sort es) /\
  (forall e, In e (undirect_and_sort sort es) -> In e (both es)) /\
  (forall e, In e (both es) -> exists e', In e' (undirect_and_sort sort es) /\ key e' = key e).
Proof.
  intros Hsort. destruct (Hsort (both es)) as [Hp Hso]. unfold undirect_and_sort.
  rewrite (@filter_prev_ext W _ (keepg (fun _ => true)) None _ keep_sym_g).
  destruct (@dedupe_sorted W (fun _ => true) (sort (both es)) None Hso I) as [H1 H2].
  split; auto. split.
  - intros e He. apply H2 in He as [He _]. eapply Permutation_in; [apply Permutation_sym|]; eauto.
  - intros e He. apply (Permutation_in _ Hp) in He.
    destruct (@dedupe_covers W (fun _ => true) (sort (both es)) ltac:(auto) None e He eq_refl) as [?|(p & ? & _)]; auto. discriminate.
Qed.
Lemma both_below {W} n (es : list (edge W)) : endpoints_below n es -> endpoints_below n (both es).
Proof.
  intros H. apply Forall_forall. intros [[v u] w] He. unfold endpoints_below in H. rewrite Forall_forall in H.
  apply In_both in He as [He|He]; apply H in He; unfold src, dst in *; simpl in *; tauto.
Qed.

Lemma empty_tiled W n : tiled (@empty_csr W n).
Proof.
  unfold tiled, empty_csr; simpl. rewrite !repeat_length. repeat split; auto.
  - intros _. now destruct n.
  - intros v Hv. rewrite !nth_repeat. destruct (v =? n - 1); auto.
Qed.
Lemma empty_neighbors W n v : neighbors (@empty_csr W n) v = [].
Proof. unfold neighbors, empty_csr; simpl. rewrite skipn_nil. apply firstn_nil. Qed.

(* C23, symmetric graphs: for every edge list over [0, n), every sort, and every order of
   the parallel stores, the construction stays within bounds; the neighbour list of v is
   strictly increasing and holds u exactly if {u, v} was listed, with a listed weight;
   offsets and degrees tile the neighbour array. *)
Theorem C23_symmetric : forall W (sort : list (edge W) -> list (edge W)) n es order,
  sorts sort -> endpoints_below n es ->
  Permutation order (all_offset_stores n (undirect_and_sort sort es)) ->
  exists G, from_edges_sym sort n es order = Some G /\ gn G = n /\ tiled G /\
    forall v, v < n ->
      increasing (ids (neighbors G v)) /\
      (forall u, In u (ids (neighbors G v)) <-> exists w, In (u, v, w) es \/ In (v, u, w) es) /\
      (forall u w, In (u, w) (neighbors G v) -> In (u, v, w) es \/ In (v, u, w) es).
Proof.
  intros W sort n es order Hsort Hn Hp. unfold from_edges_sym.
  destruct (Nat.eqb_spec (length es) 0) as [E|E].
  { apply length_zero_iff_nil in E. subst es. exists (empty_csr W n). split; auto. split; auto. split; [apply empty_tiled|].
    intros v Hv. rewrite empty_neighbors. split; [constructor|]. split.
    - intros u. split; [intros []|]. intros (w & [[]|[]]).
    - intros u w []. }
  destruct (sym_edges es Hsort) as (S1 & S2 & S3). set (es' := undirect_and_sort sort es) in *.
  destruct (@csr_of_ok W es' n) with (order := order) as (G & EG & E1 & E2 & Ht & Hng); auto.
  { now apply klt_src_le. }
  { apply Forall_forall. intros e He. apply S2 in He. pose proof (both_below Hn) as Hb. unfold endpoints_below in Hb. rewrite Forall_forall in Hb. now apply Hb. }
  exists G. split; auto. split; auto. split; auto. intros v Hv. rewrite Hng by auto. split; [now apply ids_increasing|]. split.
  - intros u. rewrite In_ids. split.
    + intros (w & Hw). apply S2, In_both in Hw. exists w. tauto.
    + intros (w & Hw). assert (Hb : In (v, u, w) (both es)) by (apply In_both; tauto).
      destruct (S3 _ Hb) as ([[v' u'] w'] & Hin & Hk). unfold key in Hk. simpl in Hk. injection Hk as -> ->. eauto.
  - intros u w Hw. apply In_neighbors, S2, In_both in Hw. tauto.
Qed.
Print Assumptions C23_symmetric.

(* C23, directed graphs: the out-neighbours (with weights) of v are exactly the listed
   edges out of v with multiplicity, the in-neighbours those into v; ids are sorted. *)
Theorem C23_asymmetric : forall W (sort : list (edge W) -> list (edge W)) n es order_out order_in,
  sorts sort -> endpoints_below n es ->
  Permutation order_out (all_offset_stores n (sort es)) ->
  Permutation order_in (all_offset_stores n (sort (transpose es))) ->
  exists Gout Gin, from_edges_asym sort n es order_out order_in = Some (Gout, Gin) /\
    gn Gout = n /\ gn Gin = n /\ gm Gout = length es /\ gm Gin = length es /\ tiled Gout /\ tiled Gin /\
    forall v, v < n ->
      Permutation (neighbors Gout v) (map (fun e => (dst e, wgh e)) (filter (fun e => src e =? v) es)) /\
      Permutation (neighbors Gin v) (map (fun e => (src e, wgh e)) (filter (fun e => dst e =? v) es)) /\
      StronglySorted le (ids (neighbors Gout v)) /\ StronglySorted le (ids (neighbors Gin v)).
Proof.
  intros W sort n es oo oi Hsort Hn Ho Hi. unfold from_edges_asym.
  destruct (Nat.eqb_spec (length es) 0) as [E|E].
  { apply length_zero_iff_nil in E. subst es. exists (empty_csr W n), (empty_csr W n).
    do 5 (split; [reflexivity|]). split; [apply empty_tiled|]. split; [apply empty_tiled|].
    intros v Hv. rewrite !empty_neighbors. simpl. repeat split; constructor. }
  destruct (Hsort es) as [P1 S1]. destruct (Hsort (transpose es)) as [P2 S2].
  unfold endpoints_below in Hn. rewrite Forall_forall in Hn.
  destruct (@csr_of_ok W (sort es) n) with (order := oo) as (Go & EG & E1 & E2 & Ht & Hng); auto.
  { now apply kle_src_le. }
  { apply Forall_forall. intros e He. apply Hn. eapply Permutation_in; [apply Permutation_sym|]; eauto. }
  destruct (@csr_of_ok W (sort (transpose es)) n) with (order := oi) as (Gi & EG' & E1' & E2' & Ht' & Hng'); auto.
  { now apply kle_src_le. }
  { apply Forall_forall. intros e He. apply (Permutation_in _ (Permutation_sym P2)) in He. unfold transpose in He.
    apply in_map_iff in He as (e' & <- & He). apply Hn in He. unfold flip, src, dst in *. simpl. tauto. }
  exists Go, Gi. rewrite EG, EG'. split; auto. split; auto. split; auto.
  split; [rewrite E2; apply Permutation_length, Permutation_sym, P1|].
  split. { rewrite E2', <- (Permutation_length P2). unfold transpose. apply map_length. }
  split; auto. split; auto. intros v Hv. rewrite Hng, Hng' by auto. repeat split.
  - unfold get_neighbors. apply Permutation_map. apply perm_filter. now apply Permutation_sym.
  - assert (E3 : map (fun e => (src e, wgh e)) (filter (fun e => dst e =? v) es) = get_neighbors (filter (fun e => src e =? v) (transpose es))).
    { unfold get_neighbors, transpose. clear. induction es as [|e es IH]; simpl; auto.
      unfold flip at 1, src at 2. simpl. destruct (dst e =? v); simpl; now rewrite IH. }
    rewrite E3. unfold get_neighbors. apply Permutation_map. apply perm_filter. now apply Permutation_sym.
  - now apply ids_sorted.
  - now apply ids_sorted.
Qed.
Print Assumptions C23_asymmetric.

(* a sort, parametrised by what it does with edges of equal endpoints *)
Section Isort.
  Variable W : Type.
  Variable tie : edge W -> edge W -> bool.
  Definition before (a b : edge W) : bool := key_lt a b || (negb (key_lt b a) && tie a b).
  Fixpoint insert (x : edge W) (l : list (edge W)) : list (edge W) :=
    match l with [] => [x] | y :: l' => if before x y then x :: l else y :: insert x l' end.
  Definition isort (l : list (edge W)) : list (edge W) := fold_right insert [] l.
  Lemma insert_perm x l : Permutation (x :: l) (insert x l).
  Proof.
    induction l as [|y l IH]; simpl; auto. destruct (before x y); auto.
    eapply perm_trans; [apply perm_swap|]. now constructor.
  Qed.
  Lemma kle_trans (a b c : edge W) : kle a b -> kle b c -> kle a c.
  Proof. rewrite !kle_iff, !klt_iff, !key_eq. lia. Qed.
  Lemma insert_sorted x l : StronglySorted kle l -> StronglySorted kle (insert x l).
  Proof.
    induction 1 as [|y l Hl IH Hy]; simpl; [repeat constructor|].
    assert (Hb : (before x y = true -> kle x y) /\ (before x y = false -> kle y x)).
    { unfold before, kle. destruct (key_lt x y) eqn:E1, (key_lt y x) eqn:E2; simpl; split; auto; try discriminate.
      apply klt_iff in E1, E2. lia. }
    destruct (before x y).
    - constructor; [constructor; auto|]. constructor; [now apply Hb|]. eapply Forall_impl; [|exact Hy].
      intros z Hz. eapply kle_trans; [apply Hb|]; auto.
    - constructor; auto. apply Forall_forall. intros z Hz. apply (Permutation_in _ (Permutation_sym (insert_perm x l))) in Hz.
      destruct Hz as [<-|Hz]; [now apply Hb|]. rewrite Forall_forall in Hy. auto.
  Qed.
  Lemma isort_sorts : sorts isort.
  Proof.
    intros l. split.
    - induction l as [|x l IH]; simpl; auto. eapply perm_trans; [constructor; exact IH|apply insert_perm].
    - change (StronglySorted kle (isort l)). induction l as [|x l IH]; simpl; [constructor|]. now apply insert_sorted.
  Qed.
End Isort.

(* If an undirected edge is listed with different weights, the two directions can end up
   with different weights: the graph is then not symmetric as a weighted graph. *)
Theorem C23_weight_symmetry_refuted : exists (sort : list (edge nat) -> list (edge nat)) es order G,
  sorts sort /\ endpoints_below 2 es /\ Permutation order (all_offset_stores 2 (undirect_and_sort sort es)) /\
  from_edges_sym sort 2 es order = Some G /\ neighbors G 0 = [(1, 5)] /\ neighbors G 1 = [(0, 7)].
Proof.
  set (tie := fun a b : edge nat => if src a <? dst a then wgh a <=? wgh b else wgh b <=? wgh a).
  exists (isort tie), [(0, 1, 5); (0, 1, 7)]. eexists. eexists.
  split; [apply isort_sorts|]. split; [repeat constructor|]. split; [apply Permutation_refl|].
  split; [vm_compute; reflexivity|]. split; reflexivity.
Qed.
Print Assumptions C23_weight_symmetry_refuted.

Example C23_example : (* self loop, repeated and reversed edges, isolated vertices 0, 3 and 6 *)
  let es : list (edge unit) := [(2, 1, tt); (1, 2, tt); (5, 5, tt); (4, 1, tt); (4, 1, tt)] in
  let es' := undirect_and_sort (isort (fun _ _ => true)) es in
  endpoints_below 7 es /\
  option_map (fun G => map (fun v => ids (neighbors G v)) (seq 0 7)) (from_edges_sym (isort (fun _ _ => true)) 7 es (rev (all_offset_stores 7 es')))
  = Some [[]; [2; 4]; [1]; []; [1]; [5]; []].
Proof. split; [repeat constructor|vm_compute; reflexivity]. Qed.

(* C24: the default vertex count always covers the listed endpoints ... *)
Theorem C24_default_n_covers : forall W (es : list (edge W)), endpoints_below (default_n es) es.
Proof.
  intros W es. unfold endpoints_below, default_n. apply Forall_forall. intros e He.
  assert (H : Nat.max (src e) (dst e) <= list_sum (map (fun e => Nat.max (src e) (dst e)) es)).
  { induction es as [|x es IH]; [destruct He|]. simpl. destruct He as [->|He]; [lia|]. specialize (IH He). lia. }
  lia.
Qed.
Print Assumptions C24_default_n_covers.
(* ... but it is the sum, not the maximum: two edges with larger endpoint >= 1 already
   give vertices that no edge mentions. *)
Theorem C24_default_n_refuted : forall W (e1 e2 : edge W) es,
  1 <= Nat.max (src e1) (dst e1) -> 1 <= Nat.max (src e2) (dst e2) ->
  Forall (fun e => S (Nat.max (src e) (dst e)) < default_n (e1 :: e2 :: es)) (e1 :: e2 :: es).
Proof.
  intros W e1 e2 es H1 H2. apply Forall_forall. intros e He. unfold default_n.
  assert (H : Nat.max (src e) (dst e) < list_sum (map (fun e => Nat.max (src e) (dst e)) (e1 :: e2 :: es))).
  { simpl. destruct He as [<-|[<-|He]]; [lia|lia|].
    assert (Nat.max (src e) (dst e) <= list_sum (map (fun e => Nat.max (src e) (dst e)) es)); [|lia].
    induction es as [|x es IH]; [destruct He|]. simpl. destruct He as [->|He]; [lia|]. specialize (IH He). lia. }
  lia.
Qed.
Print Assumptions C24_default_n_refuted.
Example C24_example : default_n [(0, 1, tt); (1, 2, tt)] = 4 /\ default_n ([] : list (edge unit)) = 1.
Proof. split; reflexivity. Qed.

(* -- edge lists -------------------------------------------------------------------- *)
Lemma simple_edges {W} sort (es : list (edge W)) : sorts sort ->
  StronglySorted klt (sort_and_dedupe sort es) /\
  (forall e, In e (sort_and_dedupe sort es) -> In e es /\ src e <> dst e) /\
  (forall e, In e es -> src e <> dst e -> exists e', In e' (sort_and_dedupe sort es) /\ key e' = key e).
Proof.
  intros Hsort. destruct (Hsort es) as [Hp Hso]. unfold sort_and_dedupe.
  change (@keep_simple W) with (keepg (fun e : edge W => negb (src e =? dst e))).
  destruct (@dedupe_sorted W (fun e => negb (src e =? dst e)) (sort es) None Hso I) as [H1 H2].
  split; auto. split.
  - intros e He. apply H2 in He as (He & Hk & _). split; [eapply Permutation_in; [apply Permutation_sym|]; eauto|].
    intros E. rewrite E, Nat.eqb_refl in Hk. discriminate.
  - intros e He Hk. apply (Permutation_in _ Hp) in He.
    destruct (@dedupe_covers W (fun e => negb (src e =? dst e)) (sort es)) with (prev := @None (edge W)) (x := e) as [?|(p & ? & _)]; auto; try discriminate.
    + intros a b Hab. apply key_eq in Hab as [-> ->]. auto.
    + apply negb_true_iff. now apply Nat.eqb_neq.
Qed.
Lemma num_vertices_spec {W} (es : list (edge W)) : endpoints_below (num_vertices_from_edges es) es /\
  (es <> [] -> exists e, In e es /\ num_vertices_from_edges es = S (Nat.max (src e) (dst e))).
Proof.
  unfold num_vertices_from_edges. split.
  - apply Forall_forall. intros e He. induction es as [|x es IH]; [destruct He|]. simpl. destruct He as [->|He]; [lia|]. specialize (IH He). lia.
  - induction es as [|x es IH]; intros H; [congruence|]. simpl. destruct es as [|y es].
    + exists x. simpl. split; [now left|]. lia.
    + destruct IH as (e & He & E); [discriminate|].
      destruct (Nat.le_gt_cases (fold_right Nat.max 0 (map (fun e => Nat.max (src e) (dst e)) (y :: es))) (Nat.max (src x) (dst x))) as [Hc|Hc].
      * exists x. split; [now left|]. lia.
      * exists e. split; [now right|]. lia.
Qed.
Lemma keyed {W} (l : list (edge W)) v u : (exists w, In (v, u, w) l) <-> exists e, In e l /\ key e = (v, u).
Proof.
  split.
  - intros (w & H). exists (v, u, w). auto.
  - intros ([[a b] c] & H & E). unfold key in E. simpl in E. injection E as -> ->. eauto.
Qed.

(* C25, undirected: if some listed edge is not a self loop, the graph is the simple graph
   of the listed edges; its vertex count is one more than the largest endpoint of these. *)
Theorem C25_undirected : forall W (sort : list (edge W) -> list (edge W)) es order,
  sorts sort -> (exists e, In e es /\ src e <> dst e) ->
  let es' := sort_and_dedupe sort (both es) in
  Permutation order (vdata_stores (num_vertices_from_edges es') es') ->
  exists G, edge_list_sym sort es order = Some (Built G) /\ tiled G /\
    (forall e, In e es -> src e <> dst e -> src e < gn G /\ dst e < gn G) /\
    (exists e, In e es /\ src e <> dst e /\ gn G = S (Nat.max (src e) (dst e))) /\
    forall v, v < gn G ->
      increasing (ids (neighbors G v)) /\
      (forall u, In u (ids (neighbors G v)) <-> u <> v /\ exists w, In (u, v, w) es \/ In (v, u, w) es) /\
      (forall u w, In (u, w) (neighbors G v) -> In (u, v, w) es \/ In (v, u, w) es).
Proof.
  intros W sort es order Hsort Hex es' Hp. unfold edge_list_sym. fold es'.
  destruct Hex as (e0 & He0 & Hl0). destruct (Nat.eqb_spec (length es) 0) as [E|_]; [destruct es; [destruct He0|discriminate]|].
  destruct (simple_edges (both es) Hsort) as (S1 & S2 & S3). fold es' in S1, S2, S3.
  destruct (num_vertices_spec es') as [N1 N2]. set (n := num_vertices_from_edges es') in *.
  assert (Hcov : forall e, In e es -> src e <> dst e -> exists e', In e' es' /\ key e' = key e).
  { intros [[v u] w] He Hk. destruct (S3 (v, u, w)) as (e' & H1 & H2); eauto. apply In_both. auto. }
  assert (Hne : es' <> []). { destruct (Hcov e0 He0 Hl0) as (e' & H1 & _). intros E. rewrite E in H1. destruct H1. }
  unfold endpoints_below in N1. rewrite Forall_forall in N1.
  destruct (@edges_to_csr_ok W es' n) with (order := order) as (G & EG & E1 & E2 & Ht & Hng); auto.
  { now apply klt_src_le. }
  { apply Forall_forall. intros e He. now apply N1. }
  exists G. split; auto. split; auto. rewrite E1. split; [|split].
  - intros e He Hk. destruct (Hcov e He Hk) as (e' & H1 & H2). apply N1 in H1. apply key_eq in H2 as [E3 E4]. lia.
  - destruct (N2 Hne) as ([[v u] w] & He & E). apply S2 in He as [He Hk]. apply In_both in He as [He|He].
    + exists (v, u, w). auto.
    + exists (u, v, w). unfold src, dst in *. simpl in *. split; auto. split; auto. rewrite E. lia.
  - intros v Hv. rewrite Hng by auto. split; [now apply ids_increasing|]. split.
    + intros u. rewrite In_ids. split.
      * intros (w & Hw). apply S2 in Hw as [Hw Hk]. apply In_both in Hw. unfold src, dst in Hk. simpl in Hk. split; auto. exists w. tauto.
      * intros (Hk & w & Hw). apply keyed. apply (S3 (v, u, w)); [apply In_both; tauto|]. unfold src, dst. simpl. auto.
    + intros u w Hw. apply In_neighbors, S2 in Hw as [Hw _]. apply In_both in Hw. tauto.
Qed.
Print Assumptions C25_undirected.

(* C25, directed *)
Theorem C25_directed : forall W (sort : list (edge W) -> list (edge W)) es order_out order_in,
  sorts sort -> (exists e, In e es /\ src e <> dst e) ->
  let out := sort_and_dedupe sort es in
  let n := num_vertices_from_edges out in
  Permutation order_out (vdata_stores n out) -> Permutation order_in (vdata_stores n (sort (transpose out))) ->
  exists Gout Gin, edge_list_asym sort es order_out order_in = Some (Built Gout, Built Gin) /\
    tiled Gout /\ tiled Gin /\ gn Gout = n /\ gn Gin = n /\ gm Gout = gm Gin /\
    (exists e, In e es /\ src e <> dst e /\ n = S (Nat.max (src e) (dst e))) /\
    (forall e, In e es -> src e <> dst e -> src e < n /\ dst e < n) /\
    forall v, v < n ->
      increasing (ids (neighbors Gout v)) /\
      (forall u, In u (ids (neighbors Gout v)) <-> u <> v /\ exists w, In (v, u, w) es) /\
      (forall u w, In (u, w) (neighbors Gout v) -> In (v, u, w) es) /\
      StronglySorted le (ids (neighbors Gin v)) /\ NoDup (ids (neighbors Gin v)) /\
      (forall u w, u < n -> (In (u, w) (neighbors Gin v) <-> In (v, w) (neighbors Gout u))).
Proof.
  intros W sort es oo oi Hsort Hex out n Ho Hi. unfold edge_list_asym. fold out. fold n.
  destruct Hex as (e0 & He0 & Hl0). destruct (Nat.eqb_spec (length es) 0) as [E|_]; [destruct es; [destruct He0|discriminate]|].
  destruct (simple_edges es Hsort) as (S1 & S2 & S3). fold out in S1, S2, S3.
  destruct (num_vertices_spec out) as [N1 N2]. fold n in N1, N2.
  assert (Hne : out <> []). { destruct (S3 e0 He0 Hl0) as (e' & H1 & _). intros E. rewrite E in H1. destruct H1. }
  unfold endpoints_below in N1. rewrite Forall_forall in N1.
  destruct (@edges_to_csr_ok W out n) with (order := oo) as (Go & EG & E1 & E2 & Ht & Hng); auto.
  { now apply klt_src_le. }
  { apply Forall_forall. intros e He. now apply N1. }
  destruct (Hsort (transpose out)) as [P2 S4].
  assert (Htin : forall v u w, In (v, u, w) (transpose out) <-> In (u, v, w) out).
  { intros v u w. unfold transpose. rewrite in_map_iff. split.
    - intros ([[a b] c] & E & H). unfold flip, src, dst, wgh in E. simpl in E. injection E as <- <- <-. exact H.
    - intros H. exists (u, v, w). split; auto. }
  assert (Htin' : forall v u w, In (v, u, w) (sort (transpose out)) <-> In (u, v, w) out).
  { intros v u w. rewrite <- Htin. split; intros H; [eapply Permutation_in; [apply Permutation_sym|]|eapply Permutation_in]; eauto. }
  destruct (@edges_to_csr_ok W (sort (transpose out)) n) with (order := oi) as (Gi & EG' & E1' & E2' & Ht' & Hng'); auto.
  { now apply kle_src_le. }
  { apply Forall_forall. intros [[v u] w] He. apply Htin' in He. apply N1 in He. unfold src, dst in *. simpl in *. lia. }
  { intros E. apply Hne. rewrite E in P2. apply Permutation_sym, Permutation_nil in P2. unfold transpose in P2. now apply map_eq_nil in P2. }
  exists Go, Gi. rewrite EG, EG'. split; auto. split; auto. split; auto. split; auto. split; auto.
  split. { rewrite E2, E2', <- (Permutation_length P2). unfold transpose. now rewrite map_length. }
  split. { destruct (N2 Hne) as (e & He & E). apply S2 in He as [He Hk]. eauto. }
  split. { intros e He Hk. destruct (S3 e He Hk) as (e' & H1 & H2). apply N1 in H1. apply key_eq in H2 as [E3 E4]. lia. }
  intros v Hv. rewrite Hng, Hng' by auto. split; [now apply ids_increasing|]. split; [|split; [|split; [|split]]].
  - intros u. rewrite In_ids. split.
    + intros (w & Hw). apply S2 in Hw as [Hw Hk]. unfold src, dst in Hk. simpl in Hk. split; eauto.
    + intros (Hk & w & Hw). apply keyed. apply (S3 (v, u, w)); auto.
  - intros u w Hw. apply In_neighbors, S2 in Hw as [Hw _]. auto.
  - now apply ids_sorted.
  - (* no repetition: keys of out are distinct *)
    assert (Hnd : NoDup (map key out)).
    { clear -S1. induction S1 as [|a l Hl IH Ha]; simpl; constructor; auto. rewrite in_map_iff. intros (b & E & Hb).
      rewrite Forall_forall in Ha. apply Ha in Hb. apply klt_iff in Hb. apply key_eq in E. lia. }
    assert (Hnd2 : NoDup (map key (sort (transpose out)))).
    { eapply Permutation_NoDup; [apply Permutation_map, P2|]. unfold transpose. rewrite map_map.
      assert (E : map (fun x => key (flip x)) out = map (fun k => (snd k, fst k)) (map key out)).
      { rewrite map_map. apply map_ext. intros [[a b] c]. reflexivity. }
      rewrite E. apply FinFun.Injective_map_NoDup; auto. intros [a b] [c d] H. simpl in H. congruence. }
    unfold ids, get_neighbors. rewrite map_map. simpl. clear -Hnd2. revert Hnd2.
    induction (sort (transpose out)) as [|a l IH]; intros Hnd2; simpl; [constructor|]. simpl in Hnd2. inversion Hnd2 as [|? ? N1 N2]; subst.
    destruct (Nat.eqb_spec (src a) v) as [E|E]; auto. simpl. constructor; auto.
    rewrite in_map_iff. intros (b & Eb & Hb). apply filter_In in Hb as [Hb Hv]. apply Nat.eqb_eq in Hv. apply N1.
    apply in_map_iff. exists b. split; auto. apply key_eq. lia.
  - intros u w Hu. rewrite Hng by auto. rewrite !In_neighbors. apply Htin'.
Qed.
Print Assumptions C25_directed.

(* If every listed edge is a self loop, the result claims one vertex but has no vertex
   data at all (a null pointer): querying vertex 0 is undefined. *)
Theorem C25_only_self_loops_refuted : forall W (sort : list (edge W) -> list (edge W)) es order,
  sorts sort -> es <> [] -> Forall (fun e => src e = dst e) es ->
  edge_list_sym sort es order = Some (NullData W 1) /\
  forall order_in, edge_list_asym sort es order order_in = Some (NullData W 1, NullData W 1).
Proof.
  intros W sort es order Hsort Hne Hl. rewrite Forall_forall in Hl.
  assert (Hempty : forall l, (forall e, In e l -> src e = dst e) -> sort_and_dedupe sort l = []).
  { intros l H. destruct (sort_and_dedupe sort l) as [|e r] eqn:E; auto. exfalso.
    destruct (simple_edges l Hsort) as (_ & S2 & _). destruct (S2 e) as [H1 H2]; [rewrite E; now left|]. apply H2, H, H1. }
  assert (E1 : length es =? 0 = false) by (destruct es; [congruence|reflexivity]).
  split.
  - unfold edge_list_sym. rewrite E1. rewrite Hempty; [reflexivity|].
    intros [[v u] w] He. apply In_both in He as [He|He]; apply Hl in He; unfold src, dst in *; simpl in *; auto.
  - intros oi. unfold edge_list_asym. rewrite E1, (Hempty es Hl). simpl.
    destruct (Hsort []) as [P _]. apply Permutation_nil in P. rewrite P. reflexivity.
Qed.
Print Assumptions C25_only_self_loops_refuted.

Example C25_example : (* repeated edge, self loops (7 only occurs in a self loop, so n = 5) *)
  let es : list (edge unit) := [(3, 1, tt); (1, 3, tt); (7, 7, tt); (4, 1, tt); (4, 1, tt); (1, 1, tt)] in
  let srt := isort (W := unit) (fun _ _ => true) in
  let es' := sort_and_dedupe srt (both es) in
  match edge_list_sym srt es (rev (vdata_stores 5 es')) with
  | Some (Built G) => gn G = 5 /\ map (fun v => ids (neighbors G v)) (seq 0 5) = [[]; [3; 4]; []; [1]; [1]]
  | _ => False
  end.
Proof. vm_compute. split; reflexivity. Qed.
