(* Theorems for C17 and C18. *)
From Verif Require Import Base ListUtil VSModel VSSpec VSProofs EMModel EMSpec EMProofs EMPar EMModes PDModel.

Lemma plain_prefix B d k : list_sum (map (plain_bdeg B d) (seq 0 k)) = Nat.min (k * B) d.
Proof.
  induction k as [|k IH]; [simpl; lia|]. rewrite seq_S, map_app, list_sum_app, IH. simpl. unfold plain_bdeg. lia.
Qed.
Lemma list_sum_flat_map {A} (f : A -> list nat) l : list_sum (flat_map f l) = list_sum (map (fun x => list_sum (f x)) l).
Proof. induction l as [|x l IH]; simpl; auto. rewrite list_sum_app. lia. Qed.
Lemma all_edges_length {X} (nghs : list (list X)) : length (all_edges nghs) = list_sum (map (@length X) nghs).
Proof.
  assert (E : map (@length X) nghs = map (fun i => length (nth i nghs [])) (seq 0 (length nghs))).
  { rewrite <- (map_map (fun i => nth i nghs []) (@length X)). f_equal. symmetry. apply map_nth_seq. }
  rewrite E. unfold all_edges. clear E.
  induction (seq 0 (length nghs)) as [|i S IH]; simpl; auto.
  rewrite app_length, combine_length, map_length, seq_length, IH. lia.
Qed.
Lemma plain_total {X} B W M (nghs : list (list X)) : 1 <= B -> B <= W -> W <= M ->
  outEdgeCount B (plain_bdeg B) nghs = length (all_edges nghs).
Proof.
  intros HB HW HM. rewrite (total_sum (plain_bdeg B) nghs HB HW HM), all_edges_length.
  assert (E : map (@length X) nghs = map (fun i => length (nth i nghs [])) (seq 0 (length nghs))).
  { rewrite <- (map_map (fun i => nth i nghs []) (@length X)). f_equal. symmetry. apply map_nth_seq. }
  rewrite E. unfold blocks.
  rewrite !flat_map_concat_map, concat_map, map_map, <- flat_map_concat_map, list_sum_flat_map.
  f_equal. apply map_ext. intros i. rewrite map_map. simpl. fold (deg nghs i).
  rewrite (plain_prefix B (deg nghs i)). pose proof (num_blocks_cover HB (deg nghs i)). lia.
Qed.

(* C18: whatever the block degrees reported by the representation and the group size
   (as long as the reported total is positive), every frontier edge is given to f exactly
   once, and the output holds exactly the successful ones, in order: nothing is lost,
   duplicated or written out of bounds. *)
Theorem C18_chunked : forall X Y B W M bdeg ebs (nghs : list (list X)) (ans : nat -> nat -> X -> option Y),
  1 <= B -> B <= W -> W <= M -> 0 < outEdgeCount B bdeg nghs ->
  processed B bdeg ebs nghs = all_edges nghs /\
  edgeMapChunked B W M bdeg ebs nghs ans = Some (successes ans (all_edges nghs)).
Proof.
  intros X Y B W M bdeg ebs nghs ans HB HW HM H.
  pose proof (processed_all bdeg ebs nghs HB (ng_pos bdeg ebs nghs HB HW HM H)) as E. split; auto.
  rewrite <- E. now apply chunked_run.
Qed.
Print Assumptions C18_chunked.

(* with the block degrees of uncompressed graphs, no condition on the frontier *)
Theorem C18_chunked_uncompressed : forall X Y B W M ebs (nghs : list (list X)) (ans : nat -> nat -> X -> option Y),
  1 <= B -> B <= W -> W <= M ->
  processed B (plain_bdeg B) ebs nghs = all_edges nghs /\
  edgeMapChunked B W M (plain_bdeg B) ebs nghs ans = Some (successes ans (all_edges nghs)).
Proof.
  intros X Y B W M ebs nghs ans HB HW HM.
  destruct (Nat.eq_dec (outEdgeCount B (plain_bdeg B) nghs) 0) as [E|E]; [|apply C18_chunked; auto; lia].
  assert (E2 : all_edges nghs = []).
  { rewrite (plain_total nghs HB HW HM) in E. now apply length_zero_iff_nil. }
  assert (E1 : processed B (plain_bdeg B) ebs nghs = []).
  { unfold processed. now rewrite (@ng_zero X B (plain_bdeg B) ebs nghs E). }
  split; [congruence|]. rewrite chunked_run by auto. congruence.
Qed.
Print Assumptions C18_chunked_uncompressed.

(* What all_edges lists, independently of its definition: (i, j, x) with x the j-th
   neighbour of the i-th frontier vertex, each index pair once. *)
Theorem C18_edges_listed : forall X (nghs : list (list X)) i j x,
  (In (i, j, x) (all_edges nghs) <-> i < length nghs /\ nth_error (nth i nghs []) j = Some x) /\
  NoDup (map fst (all_edges nghs)) /\ length (all_edges nghs) = list_sum (map (@length X) nghs).
Proof. intros. split; [apply all_edges_In|]. split; [apply all_edges_tags|apply all_edges_length]. Qed.
Print Assumptions C18_edges_listed.

(* With the block degrees reported by the block-parallel byte format, a frontier all of
   whose vertices have exactly one full block is not traversed at all. *)
Theorem C18_bytepd_full_block_refuted : forall X Y B W M ebs (nghs : list (list X)) (ans : nat -> nat -> X -> option Y),
  1 <= B -> B <= W -> W <= M -> (forall l, In l nghs -> length l = B) ->
  processed B (pd_get_block_degree B) ebs nghs = [] /\
  edgeMapChunked B W M (pd_get_block_degree B) ebs nghs ans = Some [].
Proof.
  intros X Y B W M ebs nghs ans HB HW HM H.
  assert (Ht : outEdgeCount B (pd_get_block_degree B) nghs = 0).
  { rewrite (total_sum _ nghs HB HW HM). apply list_sum_map_0. intros [i b] Hin.
    unfold blocks in Hin. apply in_flat_map in Hin as (i' & Hi & Hin). apply in_map_iff in Hin as (b' & E & Hb).
    injection E as -> ->. apply in_seq in Hi. simpl.
    assert (Hd : deg nghs i = B) by (apply H, nth_In; lia). rewrite Hd in *. unfold pd_get_block_degree, pd_get_num_blocks.
    apply in_seq in Hb. unfold num_blocks in Hb. destruct B as [|B']; [lia|].
    replace ((S B' - 1) / S B') with 0 in Hb by (symmetry; apply Nat.div_small; lia).
    assert (b = 0) by lia. subst b.
    destruct (0 <? _) eqn:E; [|apply Nat.mod_same; lia].
    exfalso. apply Nat.ltb_lt in E. revert E. unfold nblocks.
    rewrite Nat.div_small by lia. lia. }
  assert (E1 : processed B (pd_get_block_degree B) ebs nghs = []).
  { unfold processed. now rewrite (@ng_zero X B (pd_get_block_degree B) ebs nghs Ht). }
  split; auto. rewrite chunked_run, E1 by auto. reflexivity.
Qed.
Print Assumptions C18_bytepd_full_block_refuted.

(* If an output buffer is smaller than a work block (which happens when an output element
   is larger than 16 bytes), the output buffer is overrun. *)
Theorem C18_large_elements_refuted : exists B W M ebs (nghs : list (list nat)) (ans : nat -> nat -> nat -> option nat),
  1 <= B /\ B <= W /\ M < W /\ edgeMapChunked B W M (plain_bdeg B) ebs nghs ans = None.
Proof.
  exists 3, 4, 2, (fun _ => 10), [[7; 8; 9]], (fun _ _ x => Some x). repeat split; lia.
Qed.
Print Assumptions C18_large_elements_refuted.

Example C18_example : (* blocks of 2, groups of 3 edges, buffers of 4; a degree-0 vertex in between *)
  edgeMapChunked 2 4 4 (plain_bdeg 2) (fun _ => 3) [[10; 11; 12; 13; 14]; []; [15]; [16; 17; 18]]
     (fun i j x => if Nat.even x then Some (i, j, x) else None)
  = Some [(0, 0, 10); (0, 2, 12); (0, 4, 14); (3, 0, 16); (3, 2, 18)]
  /\ n_groups 2 (plain_bdeg 2) (fun _ => 3) [[10; 11; 12; 13; 14]; []; [15]; [16; 17; 18]] = 3.
Proof. vm_compute. repeat split. Qed.

(* ----------------------------------------------------------------------------------- *)
Lemma choice_ok n outn F U numEdges threshold fl : Inv n U (plain F) ->
  exists c U', edgeMap_choice numEdges threshold outn fl U = Some (c, U') /\ Inv n U' (plain F) /\
    match c with
    | Nothing => forall s d, In s F -> ~ In d (outn s)
    | Pull | Forward => isDense U' = true
    | Sparse => isDense U' = false /\ exists s d, In s F /\ In d (outn s)
    end.
Proof.
  intros HU. unfold edgeMap_choice. destruct (Nat.eqb_spec (vm U) 0) as [E0|E0].
  - exists Nothing, U. split; auto. split; auto. rewrite (i_m HU) in E0. unfold plain in E0. rewrite map_length in E0.
    intros s d Hs. destruct F; [destruct Hs|discriminate].
  - assert (Hdense : forall U, Inv n U (plain F) -> exists c U', Some (dense_choice fl, toDense tt U) = Some (c, U') /\ Inv n U' (plain F) /\
      match c with
      | Nothing => forall s d, In s F -> ~ In d (outn s)
      | Pull | Forward => isDense U' = true
      | Sparse => isDense U' = false /\ exists s d, In s F /\ In d (outn s)
      end).
    { intros U1 HU1. exists (dense_choice fl), (toDense tt U1). split; auto. split; [now apply toDense_inv|].
      unfold dense_choice. destruct (f_dense_forward fl); reflexivity. }
    destruct (f_dense_only fl || (isDense U && (vn U / 10 <? vm U))); auto.
    destruct (toSparse_inv HU) as (U1 & E1 & HU1 & Hs1). rewrite E1.
    set (od := list_sum _).
    assert (Hod : od = 0 <-> forall s d, In s F -> ~ In d (outn s)).
    { unfold od. split.
      - intros E s d Hs Hd. destruct (F_vtx F HU1 Hs1 s Hs) as (i & Hi & Ei).
        assert (Hz : length (outn (fst (nth i (vs U1) (0, tt)))) = 0).
        { clear -E Hi. assert (Hin : In i (seq 0 (vm U1))) by (apply in_seq; lia). revert E Hin.
          induction (seq 0 (vm U1)) as [|j S IH]; simpl; [easy|]. intros E [->|H]; [lia|]. apply IH; auto. lia. }
        rewrite Ei in Hz. destruct (outn s); [destruct Hd|discriminate].
      - intros H. apply list_sum_map_0. intros i Hi. apply in_seq in Hi.
        pose proof (@vtx_F n F U1 HU1 Hs1 i ltac:(lia)) as Hf.
        destruct (outn _) as [|d ds] eqn:Eo; auto. exfalso. apply (H _ d Hf). rewrite Eo. now left. }
    destruct (Nat.eqb_spec od 0) as [E|E].
    + exists Nothing, U1. split; auto. split; auto. now apply Hod.
    + destruct (_ && _); auto. exists Sparse, U1. split; auto. split; auto. split; auto.
      (* some frontier vertex has a neighbour *)
      destruct (list_sum_map_pos (fun i => length (outn (fst (nth i (vs U1) (0, tt))))) (seq 0 (vm U1))) as (i & Hi & Hp); [unfold od in E; lia|].
      apply in_seq in Hi. pose proof (@vtx_F n F U1 HU1 Hs1 i ltac:(lia)) as Hf.
      destruct (outn (fst (nth i (vs U1) (0, tt)))) as [|d ds] eqn:Eo; [simpl in Hp; lia|].
      eexists _, d. split; [exact Hf|]. rewrite Eo. now left.
Qed.

(* C17: a frontier F (in any representation, after any conversions) of a consistent
   graph, any flags, any threshold.  The call picks one of the traversals without
   aborting; whichever it picks, and under every interleaving of its tasks that runs to
   the end, the result is the same: the output holds exactly the unvisited out-neighbours
   of F, once each, every one of them with a parent in F; nothing else changes. *)
Theorem C17_edgeMap : forall n outn inn F U0 h U par numEdges threshold fl,
  graph_ok n outn inn -> built n U0 (plain F) -> converts tt h U0 = Some U ->
  exists c U', edgeMap_choice numEdges threshold outn fl U = Some (c, U') /\
  match c with
  | Nothing => advanced n outn par F par (vs_empty n)
  | Pull => forall big K sched, 1 <= K ->
      let s := eexec sched (estart par (pull_threads n inn U' big K)) in
      finished s -> advanced n outn par F (pull_par n inn U' big par s) (pull_output n inn U' big par s)
  | Forward => forall sched,
      let s := eexec sched (estart par (forward_threads n outn U')) in
      finished s -> advanced n outn par F (epar s) (forward_output n s)
  | Sparse => forall B W M ebs sched, 1 <= B -> B <= W -> W <= M ->
      let s := eexec sched (estart par (chunk_threads outn U' B (plain_bdeg B) ebs)) in
      finished s -> exists out, chunk_output n outn U' B W M (plain_bdeg B) ebs (elog s) = Some out /\
                                advanced n outn par F (epar s) out
  end.
Proof.
  intros n outn inn F U0 h U par numEdges threshold fl G Hb Hh.
  apply (built_inv tt) in Hb. destruct (converts_inv tt h Hb) as (U1 & E & HU).
  assert (U1 = U) by congruence. subst U1.
  destruct (choice_ok outn F numEdges threshold fl HU) as (c & U' & Ec & HU' & Hc). exists c, U'. split; auto.
  destruct c.
  - eapply nothing_ok; eauto. intros d (_ & s & H1 & H2). eapply Hc; eauto.
  - intros. now apply pull_ok.
  - intros. now apply forward_ok with inn.
  - destruct Hc as [Hs (u & d & Hu & Hd)]. intros. eapply chunk_ok; eauto.
    rewrite (plain_total _ H H0 H1).
    destruct (F_vtx F HU' Hs u Hu) as (i & Hi & Ei). apply In_nth_error in Hd as [j Hj].
    assert (Hin : In (i, j, d) (all_edges (sparse_nghs outn U'))).
    { apply all_edges_In. rewrite (nghs_len outn U'), (nghs_nth outn U'), Ei; auto. }
    destruct (all_edges (sparse_nghs outn U')); [destruct Hin|simpl; lia].
Qed.
Print Assumptions C17_edgeMap.

(* The three traversals agree on every frontier, not only when edgeMap would pick them. *)
Theorem C17_modes : forall n outn inn F U0 par,
  graph_ok n outn inn -> built n U0 (plain F) ->
  (forall big K sched, 1 <= K ->
      let s := eexec sched (estart par (pull_threads n inn (toDense tt U0) big K)) in
      finished s -> advanced n outn par F (pull_par n inn (toDense tt U0) big par s) (pull_output n inn (toDense tt U0) big par s)) /\
  (forall sched,
      let s := eexec sched (estart par (forward_threads n outn (toDense tt U0))) in
      finished s -> advanced n outn par F (epar s) (forward_output n s)) /\
  (exists U', toSparse U0 = Some U' /\
   forall B W M bdeg ebs sched, 1 <= B -> B <= W -> W <= M -> 0 < outEdgeCount B bdeg (sparse_nghs outn U') ->
      let s := eexec sched (estart par (chunk_threads outn U' B bdeg ebs)) in
      finished s -> exists out, chunk_output n outn U' B W M bdeg ebs (elog s) = Some out /\
                                advanced n outn par F (epar s) out).
Proof.
  intros n outn inn F U0 par G Hb. apply (built_inv tt) in Hb.
  assert (Hd : Inv n (toDense tt U0) (plain F)) by now apply toDense_inv.
  split; [|split].
  - intros. now apply pull_ok.
  - intros. now apply forward_ok with inn.
  - destruct (toSparse_inv Hb) as (U' & E & HU' & Hs). exists U'. split; auto.
    intros. now apply chunk_ok with inn.
Qed.
Print Assumptions C17_modes.

(* Every interleaving that keeps scheduling the tasks gets to the end: a task needs at
   most two steps per edge. *)
Theorem C17_terminates : forall par ts sched,
  (forall th, In th ts -> pcs th = Test) ->
  (forall t th, nth_error ts t = Some th -> 2 * length (todo th) <= count_occ Nat.eq_dec sched t) ->
  finished (eexec sched (estart par ts)).
Proof.
  intros par ts sched H0 H. unfold finished. apply Forall_forall. intros th Hth. apply In_nth_error in Hth as [t Ht].
  assert (Hlen : length (ethr (eexec sched (estart par ts))) = length ts).
  { unfold eexec. change (length ts) with (length (ethr (estart par ts))). generalize (estart par ts). clear.
    induction sched as [|u sched IH]; intros s; simpl; auto.
    rewrite IH. unfold estep. destruct (nth_error (ethr s) u); auto. destruct (tstep _ _ _) as [[? ?] ?]. simpl. apply length_lset. }
  destruct (nth_error ts t) as [th0|] eqn:E0.
  - destruct (thread_finishes sched (estart par ts) t (th := th0) E0) as (th' & E' & Hf).
    rewrite Ht in E'. injection E' as <-. apply fuel_zero. pose proof (H _ _ E0) as Hc.
    assert (Hfu : fuel th0 <= 2 * length (todo th0)).
    { unfold fuel. rewrite (H0 th0) by (eapply nth_error_In; eauto). destruct (todo th0); simpl; lia. }
    lia.
  - apply nth_error_None in E0. assert (t < length (ethr (eexec sched (estart par ts)))) by (apply nth_error_Some; congruence). lia.
Qed.
Print Assumptions C17_terminates.

(* a diamond with a tail, frontier {1, 2}, 0 visited, in all modes *)
Definition em_out (v : nat) : list nat := nth v [[1; 2]; [0; 3]; [0; 3; 4]; [1; 2]; [2]] [].
Definition em_par : nat -> option nat := fun v => nth v [Some 0; Some 0; Some 0; None; None] None.
Definition em_U : vset unit := vs_sparse 5 (plain [2; 1]).
Example C17_graph_example : graph_ok 5 em_out em_out /\ built 5 em_U (plain [2; 1]).
Proof.
  split.
  - assert (Hin : forall s d, In d (em_out s) -> In (s, d) [(0,1);(0,2);(1,0);(1,3);(2,0);(2,3);(2,4);(3,1);(3,2);(4,2)]).
    { intros s d. unfold em_out. do 6 (destruct s as [|s]; [simpl; intros H; repeat (destruct H as [<-|H]; [tauto|]); destruct H|]). intros []. }
    split.
    + intros s d Hs Hd. split; intros H; apply Hin in H; simpl in H;
        repeat (destruct H as [H|H]; [injection H as <- <-; simpl; tauto|]); destruct H.
    + intros s d _ H. apply Hin in H. simpl in H. repeat (destruct H as [H|H]; [injection H as <- <-; lia|]). destruct H.
    + intros s d _ H. apply Hin in H. simpl in H. repeat (destruct H as [H|H]; [injection H as <- <-; lia|]). destruct H.
  - split; [|right; left; reflexivity]. split; [repeat constructor; simpl; intuition lia|repeat constructor; simpl; lia].
Qed.
Example C17_run_example : (* chunked, two racing tasks: vertex 1's attempt on 3 wins *)
  let ts := chunk_threads em_out em_U 2 (plain_bdeg 2) (fun _ => 3) in
  let s := eexec [0;0;1;1;1;1;1;0;0;0;0;0;1;1;1;1;1;0;0;0] (estart em_par ts) in
  length ts = 2 /\ forallb (fun th => match todo th with [] => true | _ => false end) (ethr s) = true /\
  option_map (vertexMap_calls tt) (chunk_output 5 em_out em_U 2 4 4 (plain_bdeg 2) (fun _ => 3) (elog s)) = Some [(4, tt); (3, tt)] /\
  map (epar s) [3; 4] = [Some 1; Some 2].
Proof. vm_compute. repeat split. Qed.
