(* C47: work-efficient spanning forest. *)
From Coq Require Import Permutation.
From Verif Require Import Base ListUtil GBModel GBSpec GBProps LDModel LDSpec UFSpec FRSpec CTModel CTSpec WCProofs WCProps SPModel SPProofs.

(* the result is a spanning forest of the graph after some entries (0, 0), at most one for each
   tree edge; these entries are there exactly if the graph has an edge between different vertices *)
Theorem C47_forest : forall hash sort incs permute n outn m result,
  sorts sort -> (forall n, covers n (incs n)) -> undirected n outn ->
  spanning_forest_returns hash sort incs permute n outn m result ->
  exists q T, result = repeat (0, 0) q ++ T /\
    spanning_forest (unweighted (pairs n outn)) (unweighted T) /\ q <= length T /\
    (0 < q <-> exists u v, u < n /\ In v (outn u) /\ u <> v).
Proof.
  intros hash sort incs permute n outn m result Hs Hi G H. destruct (sf_ok Hs Hi H G) as (T & q & -> & (A & B & C) & Hq & Hpos).
  exists q, T. split; [|split; [|split; [auto|split; auto]]].
  - f_equal. unfold map_edges. clear. induction T as [|[u v] T IH]; simpl; congruence.
  - split; [|split].
    + intros e He. unfold unweighted in *. apply in_map_iff in He as (e' & <- & He). apply in_map_iff. exists e'. auto.
    + now apply forest_unweighted.
    + rewrite !ends_unweighted. exact C.
  - intros Hq0. destruct T as [|[u v] T]; [simpl in Hq; lia|].
    exists u, v. assert (X : In (u, v) (pairs n outn)) by (apply A; now left). apply CTProofs.In_pairs in X. destruct X as [X Y]. split; auto. split; auto.
    intros ->. apply (@forest'_irrefl _ v B). now left.
Qed.
Print Assumptions C47_forest.

(* so on a graph with an edge between different vertices the result is never a forest: it
   contains (0, 0), and more entries than any spanning forest *)
Theorem C47_only_tree_edges_refuted : forall hash sort incs permute n outn m result,
  sorts sort -> (forall n, covers n (incs n)) -> undirected n outn ->
  (exists u v, u < n /\ In v (outn u) /\ u <> v) ->
  spanning_forest_returns hash sort incs permute n outn m result ->
  In (0, 0) result /\ ~ forest (unweighted result) /\
  forall T, spanning_forest (unweighted (pairs n outn)) T -> length T < length result.
Proof.
  intros hash sort incs permute n outn m result Hs Hi G Hne H.
  destruct (C47_forest Hs Hi G H) as (q & T & -> & HT & _ & Hq). apply Hq in Hne.
  assert (Hin : In (0, 0) (repeat (0, 0) q ++ T)) by (apply in_or_app; left; destruct q; [lia|now left]).
  split; auto. split.
  - intros F. apply forest_unweighted in F. exact (@forest'_irrefl _ _ F Hin).
  - intros T' (A & B & C). rewrite app_length, repeat_length. destruct HT as (A' & _ & C').
    assert (length T' <= length (unweighted T)).
    { apply FRProofs.forest_bound; auto. intros e He. apply C', rst_step. apply A in He.
      apply (in_map (fun e => (src e, dst e))) in He. exact He. }
    unfold unweighted in *. rewrite map_length in *. lia.
Qed.
Print Assumptions C47_only_tree_edges_refuted.

(* it can return on graphs of up to 64 vertices *)
Theorem C47_small : forall hash sort incs permute n outn m,
  sorts sort -> (forall n, covers n (incs n)) -> (forall n, nth 0 (incs n) 0 = 1) -> undirected n outn -> n <= 64 ->
  exists result, spanning_forest_returns hash sort incs permute n outn m result.
Proof. intros hash sort incs permute n outn m Hs Hi Hf G Hn. apply sf_exists; auto. Qed.
Print Assumptions C47_small.
(* but not on every graph (compare C54_always_returns_refuted) *)
Theorem C47_always_returns_refuted : forall hash sort incs a c j m result,
  (forall n, covers n (incs n)) ->
  j < length (incs (a + c)) -> a = list_sum (firstn j (incs (a + c))) -> c = nth j (incs (a + c)) 0 ->
  130 <= c -> a + c < 2048 ->
  undirected (a + c) (clique_after a c) /\
  ~ spanning_forest_returns hash sort incs false (a + c) (clique_after a c) m result.
Proof.
  intros hash sort incs a c j m result Hi Hj Ha Hc H1 H2. split; [apply clique_undirected|].
  intros H. inversion H; subst; eapply clique_hangs; eauto.
Qed.
Print Assumptions C47_always_returns_refuted.

(* one edge: two entries *)
Example C47_example :
  let outn := fun v => nth v [[1]; [0]] [] in
  sorts (isort (fun _ _ : edge unit => true)) /\ undirected 2 outn /\
  (forall result, spanning_forest_returns (fun x => x) (isort (fun _ _ : edge unit => true)) incs_example false 2 outn 2 result ->
    result = [(0, 0); (0, 1)] \/ result = [(0, 0); (1, 0)]) /\
  exists result, spanning_forest_returns (fun x => x) (isort (fun _ _ : edge unit => true)) incs_example false 2 outn 2 result.
Proof.
  cbv zeta. set (outn := fun v => nth v [[1]; [0]] []). set (sort := isort (fun _ _ : edge unit => true)).
  assert (Hs : sorts sort) by apply isort_sorts.
  assert (G : undirected 2 outn).
  { intros u v Hu Hv. do 2 (destruct u as [|u]; [unfold outn in Hv |- *; simpl in Hv; destruct Hv as [<-|[]]; simpl; auto|]). lia. }
  assert (Hi : forall n, covers n (incs_example n)) by (intros n; apply incs_example_ok).
  split; auto. split; auto. split.
  - intros result H. destruct (C47_forest Hs Hi G H) as (q & T & -> & (A & B & C) & Hq & Hpos).
    assert (Hq0 : 0 < q) by (apply Hpos; exists 0, 1; simpl; auto).
    assert (HT : length (unweighted T) <= length [(0, 1, tt)]).
    { apply FRProofs.forest_bound; auto. intros e He. apply A in He. simpl in He.
      destruct He as [<-|[<-|[]]]; [apply rst_step|apply rst_sym, rst_step]; simpl; auto. }
    unfold unweighted in HT. rewrite map_length in HT. destruct T as [|e [|e' T]]; simpl in HT, Hq; try lia.
    assert (q = 1) by lia. subst q. simpl. specialize (A (fst e, snd e, tt)). simpl in A.
    destruct e as [u v]. simpl in A. destruct A as [E|[E|[]]]; auto; injection E as <- <-; auto.
  - apply C47_small; auto. lia.
Qed.
