(* C54: work-efficient connectivity. *)
From Coq Require Import Permutation.
From Verif Require Import Base ListUtil EMSpec GBModel GBSpec GBProps HTSpec LDModel LDSpec UFSpec CTModel CTSpec CTProofs WCProofs.

(* whenever connectivity returns, two vertices have the same label iff they are connected, and
   the labels are below n *)
Theorem C54_components : forall hash sort incs permute n outn m labels,
  sorts sort -> (forall n, covers n (incs n)) -> undirected n outn ->
  cc_impl hash sort incs permute n outn m labels ->
  length labels = n /\ (forall v, v < n -> nth v labels 0 < n) /\
  (forall u v, u < n -> v < n -> (nth u labels 0 = nth v labels 0 <-> connected (pairs n outn) u v)).
Proof. intros hash sort incs permute n outn m labels Hs Hi G H. exact (cc_ok Hs Hi H G). Qed.
Print Assumptions C54_components.

(* at every level of the recursion the decomposition returns; the contraction can return unless
   there are fewer than 2048 clusters and more distinct pairs of adjacent clusters than the
   table has cells; the recursion is less than n deep *)
Theorem C54_levels : forall hash sort incs permute0 n0 outn0 m0 i permute n outn m,
  sorts sort -> (forall n, covers n (incs n)) -> (forall n, nth 0 (incs n) 0 = 1) -> undirected n0 outn0 ->
  cc_level hash sort incs permute0 n0 outn0 m0 i permute n outn m ->
  i <= n0 - 1 /\
  (exists clusters k par, decomposes incs permute n outn m clusters k par) /\
  (forall clusters k par, decomposes incs permute n outn m clusters k par ->
     (exists t es mapping GC, contracts tt hash sort n outn (fun _ _ => tt) clusters k t es mapping GC) <->
     ~ (k < 2048 /\ 64 * 64 < distinct (map fst (edge_calls n outn (fun _ _ => tt) clusters k)))).
Proof.
  intros hash sort incs permute0 n0 outn0 m0 i permute n outn m Hs Hi Hf G0 H.
  destruct (level_ok Hs Hi Hf G0 H) as [G Hl]. split; [lia|]. split; [apply decomposes_exist; auto|].
  intros clusters k par HD. destruct (decomposes_ok Hi G HD) as (clu & D & _). split.
  - intros (t & es & mapping & GC & HC) [A B]. destruct (contracts_fit HC) as [X|X].
    + unfold small_cluster_size in X. apply (Nat.lt_irrefl k). eapply Nat.lt_le_trans; eauto.
    + rewrite table_small in X. apply (Nat.lt_irrefl (64 * 64)). eapply Nat.lt_le_trans; eauto.
  - intros Hno. apply contracts_exist; auto; [apply (d_lt D)|]. rewrite table_small.
    destruct (Nat.lt_ge_cases k small_cluster_size) as [X|X]; auto.
    right. destruct (Nat.lt_ge_cases (64 * 64) (distinct (map fst (edge_calls n outn (fun _ _ => tt) clusters k)))) as [Y|Y]; auto.
    exfalso. auto.
Qed.
Print Assumptions C54_levels.

(* so it can always return on graphs of up to 64 vertices *)
Theorem C54_small : forall hash sort incs permute n outn m,
  sorts sort -> (forall n, covers n (incs n)) -> (forall n, nth 0 (incs n) 0 = 1) -> undirected n outn -> n <= 64 ->
  exists labels, cc_impl hash sort incs permute n outn m labels.
Proof. intros hash sort incs permute n outn m Hs Hi Hf G Hn. apply cc_exists; auto. Qed.
Print Assumptions C54_small.

(* but not on every graph: a clique on the ids that the default, unpermuted decomposition takes
   as new centres in one round, preceded by isolated vertices, is split into single vertices, and
   their edges do not fit the table *)
Theorem C54_always_returns_refuted : forall hash sort incs a c j m labels,
  (forall n, covers n (incs n)) ->
  j < length (incs (a + c)) -> a = list_sum (firstn j (incs (a + c))) -> c = nth j (incs (a + c)) 0 ->
  130 <= c -> a + c < 2048 ->
  undirected (a + c) (clique_after a c) /\
  ~ cc_impl hash sort incs false (a + c) (clique_after a c) m labels.
Proof.
  intros hash sort incs a c j m labels Hi Hj Ha Hc H1 H2. split; [apply clique_undirected|].
  intros H. inversion H; subst; eapply clique_hangs; eauto.
Qed.
Print Assumptions C54_always_returns_refuted.

(* a path on four vertices and an isolated vertex; and the increments floor(exp(i / 5)), for which
   655 isolated vertices and a clique of 148 make connectivity run forever *)
Definition incs_example (n : nat) : list nat :=
  [1; 1; 1; 1; 2; 2; 3; 4; 4; 6; 7; 9; 11; 13; 16; 20; 24; 29; 36; 44; 54; 66; 81; 99; 121; 148] ++ repeat 1 n.
Lemma incs_example_ok n : covers n (incs_example n) /\ nth 0 (incs_example n) 0 = 1.
Proof.
  split; [|reflexivity]. unfold incs_example. split.
  - apply Forall_app. split; [repeat constructor|]. apply Forall_forall. intros x Hx. apply repeat_spec in Hx. lia.
  - rewrite list_sum_app. apply Nat.le_trans with (list_sum (repeat 1 n)); [|apply Nat.le_add_l].
    clear. induction n; simpl; auto. lia.
Qed.
Example C54_example :
  let outn := fun v => nth v [[1]; [0; 2]; [1; 3]; [2]; []] [] in
  sorts (isort (fun _ _ : edge unit => true)) /\ undirected 5 outn /\
  exists labels, cc_impl (fun x => x) (isort (fun _ _ : edge unit => true)) incs_example false 5 outn 6 labels /\
    nth 0 labels 0 = nth 3 labels 0 /\ nth 0 labels 0 <> nth 4 labels 0.
Proof.
  cbv zeta. set (outn := fun v => nth v [[1]; [0; 2]; [1; 3]; [2]; []] []).
  assert (G : undirected 5 outn).
  { intros u v Hu Hv. do 5 (destruct u as [|u]; [unfold outn in Hv |- *; simpl in Hv; repeat (destruct Hv as [<-|Hv]; [simpl; split; [lia|tauto]|]); destruct Hv|]). lia. }
  split; [apply isort_sorts|]. split; auto.
  destruct (@C54_small (fun x => x) (isort (fun _ _ : edge unit => true)) incs_example false 5 outn 6) as [labels H]; auto; try apply isort_sorts; try lia.
  { intros n. apply incs_example_ok. }
  exists labels. split; auto.
  destruct (@C54_components (fun x => x) (isort (fun _ _ : edge unit => true)) incs_example false 5 outn 6 labels) as (_ & _ & HC); auto; try apply isort_sorts.
  { intros n. apply incs_example_ok. }
  split.
  - apply HC; [lia..|]. apply rst_trans with 1; [|apply rst_trans with 2]; apply rst_step; unfold pairs, outn; simpl; tauto.
  - rewrite HC by lia. intros X.
    assert (Y : forall x y, connected (pairs 5 outn) x y -> (x = 4 <-> y = 4)).
    { clear. intros x y H. induction H as [x y H| | |]; try tauto.
      unfold pairs, outn in H. simpl in H. repeat (destruct H as [H|H]; [injection H as <- <-; lia|]). easy. }
    apply Y in X. lia.
Qed.
Example C54_hang_example :
  26 < length (incs_example (655 + 148)) /\ 655 = list_sum (firstn 25 (incs_example (655 + 148))) /\
  148 = nth 25 (incs_example (655 + 148)) 0 /\ 130 <= 148 /\ 655 + 148 < 2048.
Proof.
  split; [unfold incs_example; rewrite app_length, repeat_length; simpl; lia|]. split; [reflexivity|]. split; [reflexivity|].
  split; [lia|]. apply Nat.ltb_lt. reflexivity.
Qed.
