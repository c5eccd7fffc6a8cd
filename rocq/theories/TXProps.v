(* Theorems for C26, C27 and C49. *)
From Coq Require Import NArith ZArith Sorted.
From Verif Require Import Base ListUtil GBModel GBSpec GBProofs TXModel TXSpec TXProofs.
Open Scope nat_scope.

(* C26: an unweighted graph written as text and read back has the same vertex count, edge
   count and neighbour lists, in the same order; its offsets tile the edge array, whatever
   the layout of the written graph was. *)
Theorem C26_unweighted : forall G : csr unit, wf_graph G ->
  exists G', read_unweighted (write_unweighted G) = Some G' /\ gn G' = gn G /\ gm G' = gm G /\ tiled G' /\
    forall v, v < gn G -> neighbors G' v = neighbors G v.
Proof. exact read_write_unweighted. Qed.
Print Assumptions C26_unweighted.

(* C26, 32-bit integer weights up to 2^24 in absolute value *)
Theorem C26_weighted : forall G : csr Z, wf_graph G ->
  (forall v u w, v < gn G -> In (u, w) (neighbors G v) -> (Z.abs w <= 2 ^ 24)%Z) ->
  exists G', read_weighted (write_weighted G) = Some G' /\ gn G' = gn G /\ gm G' = gm G /\ tiled G' /\
    forall v, v < gn G -> neighbors G' v = neighbors G v.
Proof.
  intros G Hwf Hw. destruct (read_write_weighted Hwf) as (G' & E & H1 & H2 & H3 & H4).
  - intros v u w Hv Hin. apply Hw in Hin; auto. rewrite f32_exact by auto. unfold to_weight.
    destruct (Z.leb_spec (- 2 ^ 31) w), (Z.ltb_spec w (2 ^ 31)); simpl; auto; lia.
  - exists G'. split; auto. split; auto. split; auto. split; auto. intros v Hv. rewrite H4 by auto.
    rewrite <- (map_id (neighbors G v)) at 2. apply map_ext_in. intros [u w] Hin. simpl. f_equal. apply f32_exact. eauto.
Qed.
Print Assumptions C26_weighted.

(* Weights are parsed as floats: 2^24 + 1 is read as 2^24, and the largest 32-bit integer
   is not even representable after the conversion (undefined behaviour). *)
Definition one_edge (w : Z) : csr Z := {| gn := 2; gm := 1; goff := [0; 1]; gdeg := [1; 0]; gngh := [(1, w)] |}.
Theorem C26_large_weights_refuted :
  (forall w, wf_graph (one_edge w) /\ neighbors (one_edge w) 0 = [(1, w)]) /\
  option_map (fun G => neighbors G 0) (read_weighted (write_weighted (one_edge 16777217))) = Some [(1, 16777216%Z)] /\
  read_weighted (write_weighted (one_edge 2147483647)) = None.
Proof.
  split; [|split; vm_compute; reflexivity].
  intros w. split; [split|]; auto. intros [|[|v]] Hv; simpl in *; lia.
Qed.
Print Assumptions C26_large_weights_refuted.

Example C26_example : (* a graph whose ranges leave gaps, as after packing *)
  let G := {| gn := 3; gm := 3; goff := [0; 2; 4]; gdeg := [1; 2; 0]; gngh := [(12, tt); (9, tt); (2, tt); (105, tt)] |} in
  wf_graph G /\
  write_unweighted {| gn := 1; gm := 0; goff := [0]; gdeg := [0]; gngh := [] |} =
    header_adj ++ [10; 49; 10; 48; 10; 48; 10] /\
  option_map (fun G => (gn G, gm G, goff G, gngh G)) (read_unweighted (write_unweighted G)) =
    Some (3, 3, [0; 1; 3], [(12, tt); (2, tt); (105, tt)]).
Proof.
  split; [|split; vm_compute; reflexivity]. split; auto. intros [|[|[|v]]] Hv; simpl in *; lia.
Qed.

(* C49: reading a directed graph with at least one edge: the in-neighbours of v are exactly
   the sources of the edges into v, with weights and multiplicity.  For unweighted graphs
   the last cell holds INT_T_MAX. *)
Theorem C49_in_neighbours : forall W int_max sort (G : csr W) last_cell order,
  sorts_by_target sort -> wf_graph G -> targets_below G -> 0 < gm G -> gm G <= int_max -> gm G <= last_cell ->
  Permutation order (tstores (sort (temp_of G))) ->
  exists Gin, in_graph int_max sort G last_cell order = Some Gin /\ gn Gin = gn G /\ gm Gin = gm G /\ tiled Gin /\
    forall v, v < gn G -> Permutation (neighbors Gin v) (edges_into G v).
Proof. intros. now apply in_graph_ok. Qed.
Print Assumptions C49_in_neighbours.

(* For weighted graphs the last cell is not initialised: if the memory happens to hold 0,
   every vertex gets an empty in-neighbour list, for every graph. *)
Theorem C49_uninitialised_refuted : forall W int_max sort (G : csr W) order,
  sorts_by_target sort -> wf_graph G -> targets_below G -> 0 < gm G ->
  Permutation order (tstores (sort (temp_of G))) ->
  exists Gin, in_graph int_max sort G 0 order = Some Gin /\ forall v, v < gn G -> neighbors Gin v = [].
Proof.
  intros W int_max sort G order Hsort Hwf Htb Hm Hp. destruct (Hsort (temp_of G)) as [P S1]. set (es := sort (temp_of G)) in *.
  assert (Hlen : length es = gm G) by (rewrite <- (temp_length Hwf); symmetry; now apply Permutation_length).
  assert (Hn : Forall (fun e => src e < gn G) es).
  { apply Forall_forall. intros e He. apply (Permutation_in _ (Permutation_sym P)) in He. unfold temp_of in He.
    apply in_flat_map in He as (u & Hu & He). apply in_seq in Hu. apply in_map_iff in He as ([a w] & <- & He). eapply Htb; [|exact He]. lia. }
  unfold in_graph. fold es. rewrite Hlen. destruct (Nat.eqb_spec (gm G) 0); [lia|].
  destruct (@run_stores_consistent nat (rank es) (gn G + 1) order (repeat int_max (gn G) ++ [0])) as (t & Et & Lt & HA).
  { rewrite app_length, repeat_length. reflexivity. }
  { intros k x Hk. apply (Permutation_in _ Hp), (@tstores_rank W es (gn G) S1 Hn ltac:(lia)) in Hk. split; [lia|tauto]. }
  rewrite Et. eexists. split; [reflexivity|]. intros v Hv.
  assert (Hlast : nth (gn G) t 0 = 0).
  { destruct (HA (gn G) ltac:(lia)) as [[_ (x & Hx)]|[E _]].
    - apply (Permutation_in _ Hp), (@tstores_rank W es (gn G) S1 Hn ltac:(lia)) in Hx. lia.
    - rewrite nth_error_app2 in E by (rewrite repeat_length; auto). rewrite repeat_length, Nat.sub_diag in E. simpl in E. now apply nth_error_nth. }
  assert (H0 : forall i, i <= gn G -> nth i (suffix_min (gm G) t) 0 = 0).
  { intros i Hi. destruct (@suffix_min_spec (gm G) t i ltac:(lia)) as (_ & S2 & _). specialize (S2 (gn G) ltac:(lia)). lia. }
  unfold neighbors, csr_of_offsets. cbn [gdeg goff gngh]. rewrite nth_map_seq by auto. rewrite !H0 by lia. reflexivity.
Qed.
Print Assumptions C49_uninitialised_refuted.

(* With no edges at all, the first element of an empty array is read. *)
Theorem C49_no_edges_refuted : forall W int_max sort (G : csr W) last_cell order,
  sorts_by_target sort -> wf_graph G -> gm G = 0 -> in_graph int_max sort G last_cell order = None.
Proof.
  intros W int_max sort G last order Hsort Hwf Hm. unfold in_graph.
  destruct (Hsort (temp_of G)) as [P _]. rewrite <- (Permutation_length P), (temp_length Hwf), Hm. reflexivity.
Qed.
Print Assumptions C49_no_edges_refuted.

Example C49_example :
  let G := {| gn := 4; gm := 4; goff := [0; 2; 2; 3]; gdeg := [2; 0; 1; 1]; gngh := [(1, 5); (3, 6); (1, 7); (0, 8)] |} in
  let es := [(0, 3, 8); (1, 0, 5); (1, 2, 7); (3, 0, 6)] in
  wf_graph G /\ targets_below G /\ Permutation (temp_of G) es /\ StronglySorted (fun a b : edge nat => src a <= src b) es /\
  option_map (fun G => map (neighbors G) (seq 0 4)) (in_graph 100 (fun _ => es) G 100 (rev (tstores es))) =
    Some [[(3, 8)]; [(0, 5); (2, 7)]; []; [(0, 6)]].
Proof.
  split; [|split; [|split; [|split]]].
  - split; auto. intros [|[|[|[|v]]]] Hv; simpl in *; lia.
  - intros [|[|[|[|v]]]] u w Hv; simpl in *; intros H; repeat (destruct H as [H|H]; [injection H as <- <-; lia|]); try destruct H; lia.
  - apply Permutation_sym. apply (@Permutation_middle _ [(1, 0, 5); (1, 2, 7); (3, 0, 6)] [] (0, 3, 8)) || idtac.
    vm_compute. eapply perm_trans; [apply (@Permutation_cons_append _ [(1, 0, 5); (1, 2, 7); (3, 0, 6)] (0, 3, 8))|].
    simpl. constructor. apply perm_swap.
  - repeat constructor; unfold src; simpl; lia.
  - vm_compute. reflexivity.
Qed.

(* C27: exactly how much of the file is read.  pg is the page size, c * pg the chunk size
   (1 GiB).  The size that is left after whole chunks is tail; if the file size is a
   multiple of the page size and tail exceeds one page, only the first page of the tail is
   read and the rest of the buffer is never filled. *)
Theorem C27_bytes_read : forall A pg c (file : list A), 0 < pg -> 0 < c ->
  let f := length file in
  let tail := if f =? 0 then 0 else (f - 1) mod (c * pg) + 1 in
  (f mod pg <> 0 \/ tail <= pg -> read_o_direct pg (c * pg) file = Some (map Some file)) /\
  (f mod pg = 0 -> pg < tail ->
     read_o_direct pg (c * pg) file = Some (map Some (firstn (f - tail + pg) file) ++ repeat None (tail - pg))).
Proof.
  intros A pg c file Hpg Hc f tail. rewrite (@read_ok pg c Hpg Hc A file). fold f.
  unfold bytes_read, tail_chunk. fold tail.
  assert (Ht : tail <= f).
  { unfold tail. destruct (Nat.eqb_spec f 0); [lia|]. pose proof (Nat.mod_le (f - 1) (c * pg) ltac:(nia)). lia. }
  split.
  - intros H. assert (E : (f mod pg =? 0) && (pg <? tail) = false).
    { destruct (Nat.eqb_spec (f mod pg) 0), (Nat.ltb_spec pg tail); simpl; auto. lia. }
    rewrite E, Nat.sub_diag. unfold f. now rewrite firstn_all, app_nil_r.
  - intros H1 H2. apply Nat.eqb_eq in H1. apply Nat.ltb_lt in H2. rewrite H1, H2. cbn [andb]. apply Nat.ltb_lt in H2.
    now replace (f - (f - tail + pg)) with (tail - pg) by lia.
Qed.
Print Assumptions C27_bytes_read.
(* so the whole file is not read for any size k * pg with 1 < k <= c *)
Theorem C27_page_multiples_refuted : forall A pg c k (file : list A), 0 < pg -> 1 < k <= c -> length file = k * pg ->
  exists r, read_o_direct pg (c * pg) file = Some r /\ length r = length file /\ nth_error r pg = Some None.
Proof.
  intros A pg c k file Hpg Hk Hl. destruct (@C27_bytes_read A pg c file Hpg ltac:(lia)) as [_ H]. rewrite Hl in H. cbv zeta in H.
  destruct (Nat.eqb_spec (k * pg) 0); [nia|]. rewrite (Nat.mod_small (k * pg - 1) (c * pg)) in H by nia.
  replace (k * pg - 1 + 1) with (k * pg) in H by lia. rewrite Nat.sub_diag in H. simpl (0 + pg) in H.
  eexists. split; [apply H; [apply Nat.mod_mul; lia|nia]|].
  assert (L : length (map (@Some A) (firstn pg file)) = pg) by (rewrite map_length, firstn_length; nia).
  split; [rewrite app_length, L, repeat_length; nia|].
  rewrite nth_error_app2 by lia. rewrite L, Nat.sub_diag. destruct (k * pg - pg) eqn:E; [nia|]. reflexivity.
Qed.
Print Assumptions C27_page_multiples_refuted.
Example C27_example : read_o_direct 4 16 [1; 2; 3; 4; 5; 6] = Some (map Some [1; 2; 3; 4; 5; 6]) /\
  read_o_direct 4 16 [1; 2; 3; 4; 5; 6; 7; 8] = Some [Some 1; Some 2; Some 3; Some 4; None; None; None; None].
Proof. split; vm_compute; reflexivity. Qed.
