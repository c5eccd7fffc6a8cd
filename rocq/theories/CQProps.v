(* C61: clique counting. *)
From Coq Require Import Permutation.
From Verif Require Import Base ListUtil ISModel ISSpec SFModel GBModel GBSpec TCModel TCProofs CQModel CQSpec CQRec CQSetup CQCount CQCliques CQFinal.

(* Whatever the order of the vertices, whether DG is filtered or relabelled, with either way to set up
   the spaces, for every assignment of the iterations to workers: a returned count is the number of
   cliques with K vertices, and the count of each vertex the number of those containing it. *)
Theorem C61_count : forall top bsz thresh base n outn, sgraph n outn -> n < top -> 2 <= base ->
  forall half K rank filt label how count cl, is_rank n rank -> 3 <= K <= half + 1 ->
  clique_returns half top bsz thresh base n outn K rank filt label how (Some (count, cl)) -> (label = true \/ how <> ByEdge) ->
  count = length (cliques n outn K) /\
  forall v, v < n -> per_vert rank filt cl v = length (filter (fun c => has c v) (cliques n outn K)).
Proof.
  intros top bsz thresh base n outn HG Htop Hb half K rank filt label how count cl HR HK H Hl. apply good_result; auto. unfold clique_returns in H.
  pose proof (@dg_ord n outn rank K filt) as Hord. pose proof (@dg_lt n outn HG rank HR K filt) as Hlt. pose proof (@dg_inc n outn HG rank HR K filt) as Hinc.
  destruct (Nat.eqb_spec K 3) as [->|HK3].
  - destruct H as (c & made & H & E). injection E as -> ->. eapply triangles_ok; eauto.
  - destruct H as (split & Hs & H). replace K with (K - 1 + 1) at 2 by lia. destruct how as [level| |level].
    + destruct H as (c & cl' & H & E). injection E as -> ->. exact (@by_vertex_ok half n _ _ Hord Hlt Hinc split Hs label (K - 1) level ltac:(lia) ltac:(lia) c cl' H).
    + destruct Hl as [El|]; [|congruence]. destruct (@by_edge_ok half n _ _ Hord Hlt Hinc split Hs label (K - 1) ltac:(lia) ltac:(lia) top Htop _ El ltac:(lia) H) as (c & cl' & E & X).
      injection E as -> ->. exact X.
    + symmetry in H. exact (@by_block_ok half n _ _ Hord Hlt Hinc split Hs label (K - 1) level ltac:(lia) ltac:(lia) bsz count cl H).
Qed.
Print Assumptions C61_count.

(* The orderings that are permutations by construction are admissible ranks. *)
Theorem C61_orderings : forall n outn core order_type rank, ordering n outn core order_type rank -> is_rank n rank.
Proof.
  intros n outn core t rank H. assert (HP : forall o, Permutation o (seq 0 n) -> is_rank n (fun v => nth v o 0)).
  { intros o Hp. assert (Hl : length o = n) by (rewrite (Permutation_length Hp); apply seq_length). split.
    - intros u Hu. assert (X : In (nth u o 0) o) by (apply nth_In; lia). apply (Permutation_in _ Hp), in_seq in X. lia.
    - intros u v Hu Hv. apply NoDup_nth; try lia. eapply Permutation_NoDup; [symmetry; exact Hp|apply seq_NoDup]. }
  destruct t as [|[|[|[|[|t]]]]]; try contradiction.
  - destruct H as (o & Hp & _ & E). destruct (HP o Hp) as [A B]. split; intros u; [rewrite E; auto|]. intros v Hu Hv. rewrite !E. auto.
  - destruct H as (o & r & Hp & _ & Hr & E). destruct (@rank_nodes_ok _ _ Hp) as [_ HH]. destruct (HH r Hr) as [Hl HN].
    assert (Ho : forall v, v < n -> exists i, i < n /\ nth i o 0 = v).
    { intros v Hv. assert (X : In v o) by (apply (Permutation_in _ (Permutation_sym Hp)), in_seq; lia). apply (In_nth _ _ 0) in X as (i & Hi & <-). exists i. split; auto.
      now rewrite (Permutation_length Hp), seq_length in Hi. }
    split.
    + intros u Hu. rewrite E. destruct (Ho u Hu) as (i & Hi & <-). now rewrite HN.
    + intros u v Hu Hv. rewrite !E. destruct (Ho u Hu) as (i & Hi & <-), (Ho v Hv) as (j & Hj & <-). rewrite !HN by auto. now intros ->.
  - cbn [ordering] in H. split; intros u; [now rewrite H|]. intros v _ _. now rewrite !H.
Qed.
Print Assumptions C61_orderings.

(* Clique_enum hands each clique to base_f exactly once. *)
Theorem C61_enum : forall half n outn K rank filt label count made, sgraph n outn -> is_rank n rank -> 4 <= K <= half + 1 ->
  clique_enum_returns half n outn K rank filt label count made ->
  count = length (cliques n outn K) /\ (forall c, In c made -> length c = K /\ NoDup c) /\
  Permutation (map (fun c => filter (fun v => has c (if filt then v else rank v)) (seq 0 n)) made) (cliques n outn K).
Proof.
  intros half n outn K rank filt label count made HG HR HK H. unfold clique_enum_returns in H.
  pose proof (@dg_ord n outn rank K filt) as Hord. pose proof (@dg_lt n outn HG rank HR K filt) as Hlt. pose proof (@dg_inc n outn HG rank HR K filt) as Hinc.
  destruct (@enum_returns_ok half n _ _ Hord Hlt Hinc label (K - 1) ltac:(lia) ltac:(lia) (S n) ltac:(lia) count made H) as [Hc Hp]. unfold all in *. replace (K - 1 + 1) with K in * by lia.
  pose proof (@cs_cliques n outn HG rank HR K filt) as HP. split; [rewrite Hc, <- (Permutation_length HP); now rewrite map_length|]. split.
  - intros c Hin. apply (Permutation_in _ Hp) in Hin. destruct (@chain_in _ _ Hord K (seq 0 n) c Hin) as (A & B & _). auto.
  - rewrite <- HP. rewrite Hp. erewrite map_ext; [reflexivity|]. intros c. unfold vertices_of, name. destruct filt; reflexivity.
Qed.
Print Assumptions C61_enum.

(* It returns: from every start by vertices, by edges with labels, and by blocks unless no vertex of DG
   has a neighbour with neighbours. *)
Theorem C61_returns : forall half top bsz thresh base n outn K rank filt label how, sgraph n outn -> is_rank n rank -> 2 <= base -> 2 <= bsz -> K <> 3 ->
  (exists level, how = ByVertex level) \/ how = ByEdge /\ label = true \/ (exists level, how = ByBlock level) /\ total_work n (direct n outn K rank filt) <> 0 ->
  exists count cl, clique_returns half top bsz thresh base n outn K rank filt label how (Some (count, cl)).
Proof.
  intros half top bsz thresh base n outn K rank filt label how HG HR Hb Hbs HK H. unfold clique_returns. rewrite (proj2 (Nat.eqb_neq K 3) HK).
  set (sp := fun (_ l : list nat) => [l]). assert (Hs : forall p l, Permutation (concat (sp p l)) l) by (intros; unfold sp; simpl; now rewrite app_nil_r).
  destruct H as [[level ->]|[[-> ->]|[[level ->] Hw]]].
  - set (res := run_workers (vertex_body half (direct n outn K rank filt) sp label (K - 1) level) [seq 0 n]).
    exists (fst res), (snd res), sp. split; auto. exists (fst res), (snd res). split; auto. exists [seq 0 n]. split; [simpl; now rewrite app_nil_r|]. symmetry. exact (surjective_pairing res).
  - set (dg := direct n outn K rank filt). set (m := sum_before (fun i => length (dg i)) n). set (res := run_workers (edge_body half n dg sp (K - 1) top) [seq 0 m]).
    exists (fst res), (snd res), sp. split; auto. exists [seq 0 m]. split; [simpl; now rewrite app_nil_r|]. rewrite (surjective_pairing (run_workers _ _)). reflexivity.
  - unfold by_block, split_blocks. set (tw := total_work n (direct n outn K rank filt)) in *. destruct (Nat.eqb_spec (tw / (tw / bsz + 1)) 0) as [E|E].
    + exfalso. apply Nat.div_small_iff in E; [|lia]. pose proof (Nat.div_mod tw bsz ltac:(lia)). nia.
    + eexists _, _, sp. split; auto.
Qed.
Print Assumptions C61_returns.

(* The labels are chars: for K of half + 2 = 130 or more the count is 0 for every graph, even for the
   complete graph on K vertices. *)
Definition complete (n u : nat) : list nat := if u <? n then filter (fun v => negb (v =? u)) (seq 0 n) else [].
Lemma complete_graph n : sgraph n (complete n).
Proof.
  intros u Hu. unfold complete. rewrite (proj2 (Nat.ltb_lt u n) Hu). split; [apply ssort_filter, seq_inc|]. intros v Hv. apply filter_In in Hv as [Hv Hne]. apply in_seq in Hv.
  apply Bool.negb_true_iff, Nat.eqb_neq in Hne. split; [lia|]. rewrite (proj2 (Nat.ltb_lt v n)) by lia. apply filter_In. split; [apply in_seq; lia|]. apply Bool.negb_true_iff, Nat.eqb_neq. auto.
Qed.
Lemma complete_clique n : In (seq 0 n) (cliques n (complete n) n).
Proof.
  apply filter_In. split; [apply subsets_iff; [apply seq_inc|]; split; [apply seq_length|]; split; [apply seq_inc|apply incl_refl]|]. apply clique_iff. intros u v Hu Hv Hne.
  apply in_seq in Hu. unfold complete. rewrite (proj2 (Nat.ltb_lt u n)) by lia. apply filter_In. split; auto. apply Bool.negb_true_iff, Nat.eqb_neq. auto.
Qed.
Theorem C61_large_k_refuted : forall half K, 2 <= half -> half + 2 <= K ->
  (forall top bsz thresh base n outn rank filt label count cl,
     clique_returns half top bsz thresh base n outn K rank filt label (ByVertex 0) (Some (count, cl)) -> count = 0) /\
  exists n outn, sgraph n outn /\ cliques n outn K <> [].
Proof.
  intros half K Hh HK. split.
  - intros top bsz thresh base n outn rank filt label count cl H. unfold clique_returns in H. rewrite (proj2 (Nat.eqb_neq K 3)) in H by lia.
    destruct H as (split & _ & c & cl' & (ws & _ & E) & E'). injection E' as -> ->. set (dg := direct n outn K rank filt) in *.
    assert (HV : forall sp i, fst (snd (vertex_body half dg split label (K - 1) 0 sp i)) = 0).
    { intros sp i. unfold vertex_body. destruct (length (dg i) =? 0); auto. destruct (if label then _ else _) as [edges old'].
      pose proof (@hrec_zero edges half (fun j => nth j (dg i) 0) split (K - 1 - 1) 1 [i] (fst sp) (seq 0 (length (dg i))) ltac:(lia) ltac:(lia)) as X.
      destruct (hrec _ _ _ _ _ _ _ _ _ _) as [[x L'] cl0]. exact X. }
    assert (HW : forall w, fst (run_worker (vertex_body half dg split label (K - 1) 0) w) = 0).
    { intros w. unfold run_worker. assert (X : forall sp cl0, snd (fst (fold_left (fun acc x => let '(sp, tot, cl) := acc in let '(sp', (c, cl')) := vertex_body half dg split label (K - 1) 0 sp x in (sp', tot + c, cl ++ cl')) w (sp, 0, cl0))) = 0).
      { induction w as [|x w IH]; intros sp cl0; cbn [fold_left]; auto. pose proof (HV sp x) as HX. destruct (vertex_body _ _ _ _ _ _ sp x) as [sp' [c1 cl1]]. cbn [fst snd] in HX. subst c1. apply IH. }
      specialize (X (fun _ => 0, fun _ => 0) []). destruct (fold_left _ _ _) as [[sp t] c1]. exact X. }
    replace c with (fst (c, cl')) by reflexivity. rewrite E. unfold run_workers. cbn [fst]. rewrite map_map. rewrite (map_ext _ (fun _ => 0)) by auto. clear. induction ws; auto.
  - exists K, (complete K). split; [apply complete_graph|]. intros E. pose proof (complete_clique K) as X. rewrite E in X. destruct X.
Qed.
Print Assumptions C61_large_k_refuted.

(* Counting by edges with the intersecting setup (-saveSpace) does not end on any graph that has a clique
   with K vertices. *)
Theorem C61_edge_save_space_refuted : forall half top bsz thresh base n outn K rank filt res, sgraph n outn -> is_rank n rank -> 4 <= K ->
  cliques n outn K <> [] -> clique_returns half top bsz thresh base n outn K rank filt false ByEdge res -> res = None.
Proof.
  intros half top bsz thresh base n outn K rank filt res HG HR HK Hc H. unfold clique_returns in H. rewrite (proj2 (Nat.eqb_neq K 3)) in H by lia.
  destruct H as (split & _ & [[_ H]|[H _]]); auto. exfalso. pose proof (@dg_lt n outn HG rank HR K filt) as Hlt. pose proof (@dg_inc n outn HG rank HR K filt) as Hinc.
  set (dg := direct n outn K rank filt) in *. pose proof (@cs_cliques n outn HG rank HR K filt) as HP. fold dg in HP.
  destruct (chains dg K (seq 0 n)) as [|c cs] eqn:Ec; [apply Hc; now apply Permutation_nil|]. assert (Hin : In c (chains dg K (seq 0 n))) by (rewrite Ec; now left).
  apply chains_iff in Hin as (HL & HS & HF). destruct c as [|i [|l [|x c]]]; try (simpl in HL; lia). inversion HF as [|? ? A B]; subst. inversion B as [|? ? C D]; subst. rewrite Forall_forall in A, C.
  assert (Hi : i < n) by (assert (X : In i (seq 0 n)) by (apply HS; now left); apply in_seq in X; lia).
  assert (Hl : In l (dg i)) by (apply A; now left). assert (Hx : In x (dg i)) by (apply A; right; now left). assert (Hx' : In x (dg l)) by (apply C; now left).
  assert (He : In (i, l) (map (edge_of n dg) (seq 0 (sum_before (fun i => length (dg i)) n)))).
  { rewrite (@edges_all 2 n dg 2 (le_n 2) (le_n 2) n (le_n n)). apply in_flat_map. exists i. split; [apply in_seq; lia|]. now apply in_map. }
  apply in_map_iff in He as (j & Ej & Hj). apply in_seq in Hj. specialize (H j ltac:(lia)). rewrite Ej in H. apply H. unfold setup_intersect_edge.
  destruct (@common_ok (dg i) 0 (dg l) (Hinc i Hi) (Hinc l (Hlt i l Hi Hl))) as [E _]. destruct (common_from 0 (dg i) (dg l)); auto.
  exfalso. cbn [map] in E. assert (X : In x (filter (has (dg i)) (dg l))) by (apply filter_In; split; auto; now apply has_In). rewrite <- E in X. destruct X.
Qed.
Print Assumptions C61_edge_save_space_refuted.

(* Counting by blocks divides by 0 on a graph without edges. *)
Theorem C61_block_refuted : forall half top bsz thresh base n outn K rank filt label level res, K <> 3 -> (forall v, outn v = []) ->
  clique_returns half top bsz thresh base n outn K rank filt label (ByBlock level) res -> res = None.
Proof.
  intros half top bsz thresh base n outn K rank filt label level res HK Hn H. unfold clique_returns in H. rewrite (proj2 (Nat.eqb_neq K 3) HK) in H. destruct H as (split & _ & ->).
  assert (E : total_work n (direct n outn K rank filt) = 0).
  { unfold total_work, sum_before. assert (X : forall v, direct n outn K rank filt v = []).
    { intros v. unfold direct. destruct filt; [unfold filtered; now rewrite Hn|]. unfold relabelled. induction (seq 0 n) as [|i l IH]; auto. cbn [flat_map]. rewrite Hn. cbn. destruct (rank i =? v); auto. }
    induction (seq 0 n) as [|i l IH]; auto. cbn [map list_sum fold_right]. unfold work at 1. rewrite X. exact IH. }
  unfold by_block, split_blocks. rewrite E, (Nat.div_0_l (_ + 1)) by lia. reflexivity.
Qed.
Print Assumptions C61_block_refuted.

(* K5 has five cliques with four vertices, each vertex is in four of them *)
Example C61_ex : sgraph 5 (complete 5) /\ is_rank 5 (fun v => 4 - v) /\ cliques 5 (complete 5) 4 = [[0;1;2;3];[0;1;2;4];[0;1;3;4];[0;2;3;4];[1;2;3;4]] /\
  exists count cl, clique_returns 128 1000 7 100 4 5 (complete 5) 4 (fun v => 4 - v) false true ByEdge (Some (count, cl)) /\ count = 5 /\ per_vert (fun v => 4 - v) false cl 3 = 4.
Proof.
  assert (HG : sgraph 5 (complete 5)) by exact (@complete_graph 5). assert (HR : is_rank 5 (fun v => 4 - v)) by (split; intros; lia). split; auto. split; auto. split; [reflexivity|].
  destruct (@C61_returns 128 1000 7 100 4 5 (complete 5) 4 (fun v => 4 - v) false true ByEdge HG HR) as (count & cl & H); try lia; [right; left; auto|].
  exists count, cl. split; auto. destruct (@C61_count 1000 7 100 4 5 (complete 5) HG ltac:(lia) ltac:(lia) 128 4 (fun v => 4 - v) false true ByEdge count cl HR ltac:(lia) H ltac:(auto)) as [A B].
  split; [rewrite A; reflexivity|]. rewrite B by lia. reflexivity.
Qed.
