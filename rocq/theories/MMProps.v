(* C42: maximal matching. *)
From Coq Require Import Permutation.
From Verif Require Import Base ListUtil MIModel MMModel MMSpec MMProofs MMGet MMOuter MMDet.

(* Whatever the schedule and the samples, what MaximalMatching returns is a maximal matching. *)
Theorem C42_maximal_matching : forall W (w0 : W) n outw bs k res,
  undirected n outw -> 0 < k -> mm_returns w0 n outw bs k res -> maximal_matching n outw res.
Proof. intros W w0 n outw bs k res Hu Hk H. eapply returns_maximal; eauto. Qed.

(* The speculative loop chooses from a batch of edges what the sequential greedy algorithm would. *)
Theorem C42_batch_greedy : forall W (w0 : W) E M0 maxTries st,
  eff_returns (mm_round w0 E) 0 (length E) 50 maxTries (mm_init (fun _ => None) M0) st ->
  greedy_choice E M0 (fun i => mmark st i = true) /\
  forall x, mM st x = true <-> M0 x = true \/ exists i e, nth_error E i = Some e /\ mmark st i = true /\ (eu e = x \/ ev e = x).
Proof.
  intros W w0 E M0 mt st H. destruct (batch_greedy (fun _ => eq_refl) H) as (A & B & C & D & _).
  assert (Hn : forall i e, nth_error E i = Some e -> enth w0 E i = e /\ i < length E).
  { intros i e He. split; [now apply nth_error_nth|]. apply nth_error_Some. congruence. }
  split.
  - intros i e He. destruct (Hn i e He) as [E1 Hi]. rewrite (A i Hi), live_spec, E1. split.
    + intros [(L1 & L2 & L3) Hj]. repeat split; auto; intros X; destruct (Hn _ _ H1) as [E2 _]; apply (Hj j H0 H2); unfold share, touches; rewrite E1, E2; eauto.
    + intros (L1 & L2 & L3 & Hj). split; auto. intros j Hlt Hm (x & Hx & Hx'). unfold touches in *. rewrite E1 in Hx'. assert (Hjl : j < length E) by lia.
      destruct (nth_error E j) as [e'|] eqn:Ej; [|apply nth_error_None in Ej; lia]. destruct (Hn _ _ Ej) as [E2 _]. rewrite E2 in Hx.
      destruct (Hj j e' Hlt Ej Hm) as (X1 & X2 & X3 & X4). destruct Hx as [<-|<-]; destruct Hx' as [X|X]; congruence.
  - intros x. rewrite D. split; intros [H0|H0]; auto; right.
    + destruct H0 as (i & Hi & Hx). destruct (B i Hi) as [Hl _]. destruct (nth_error E i) as [e|] eqn:Ei; [|apply nth_error_None in Ei; lia]. exists i, e. split; auto. split; auto.
      destruct (Hn _ _ Ei) as [E1 _]. unfold touches in Hx. now rewrite E1 in Hx.
    + destruct H0 as (i & e & Ei & Hi & Hx). exists i. split; auto. destruct (Hn _ _ Ei) as [E1 _]. unfold touches. now rewrite E1.
Qed.

(* It finishes (for at least 98 vertices), unless in some iteration the live edge number n-1
   is preceded by a vertex without live edges. *)
Theorem C42_terminates : forall W (w0 : W) n outw bs k, undirected n outw -> 0 < bs -> 0 < k ->
  (forall r M R res, mm_loop w0 n outw bs k r M R res -> boundary_ok n outw M (r =? 0)) ->
  ~ mm_hangs w0 n outw bs k /\ ~ mm_undefined w0 n outw bs k /\
  (forall r M R res, mm_loop w0 n outw bs k r M R res -> r <= length res /\ 2 * length res <= n) /\
  (98 <= n -> ~ mm_aborts w0 n outw bs k /\ exists res, mm_returns w0 n outw bs k res).
Proof.
  intros W w0 n outw bs k Hu Hb Hk HB. split; [now apply no_hangs|]. split; [eapply no_undefined; eauto|]. split.
  - intros r M R res HL. split; [exact (rounds_bound Hu Hb Hk HB HL)|exact (res_bound Hu HL)].
  - intros Hn. split; [now apply no_abort|]. eapply terminates; eauto.
Qed.
(* in particular on graphs with fewer edges than vertices *)
Theorem C42_terminates_sparse : forall W (w0 : W) n outw bs k, undirected n outw -> 0 < bs -> 0 < k -> 98 <= n ->
  edge_count n outw < n ->
  ~ mm_hangs w0 n outw bs k /\ ~ mm_undefined w0 n outw bs k /\ ~ mm_aborts w0 n outw bs k /\ exists res, mm_returns w0 n outw bs k res.
Proof.
  intros W w0 n outw bs k Hu Hb Hk Hn He. destruct (@C42_terminates W w0 n outw bs k Hu Hb Hk) as (A & B & _ & C); [intros; now apply few_edges_ok|].
  destruct (C Hn) as [D E]. auto.
Qed.

(* On a graph with fewer than k = max(3n/2, 2^20) edges nothing is sampled: the result is the same under
   every schedule. *)
Theorem C42_deterministic : forall W (w0 : W) n outw bs k res res', undirected n outw -> 0 < bs -> edge_count n outw < k ->
  (forall r M R res, mm_loop w0 n outw bs k r M R res -> boundary_ok n outw M (r =? 0)) ->
  mm_returns w0 n outw bs k res -> mm_returns w0 n outw bs k res' -> res = res'.
Proof. intros W w0 n outw bs k res res' Hu Hb Hf HB H H'. eapply returns_same; eauto. Qed.

(* Finishing is not guaranteed.  A graph with at least n+2 but fewer than 50 edges
   makes eff_for abort: it tries one edge per round and gives up after n+1 rounds. *)
Theorem C42_small_dense_aborts : forall W (w0 : W) n outw bs k, undirected n outw -> 0 < bs ->
  n + 2 <= edge_count n outw < 50 -> edge_count n outw < k -> boundary_ok n outw (fun _ => false) true ->
  mm_aborts w0 n outw bs k /\ forall res, ~ mm_returns w0 n outw bs k res.
Proof. intros W w0 n outw bs k Hu Hb Hm Hk HB. now apply dense_aborts. Qed.
(* the complete graph on four vertices *)
Definition k4 (u : nat) : list (nat * unit) := map (fun v => (v, tt)) (filter (fun v => negb (v =? u)) (seq 0 4)).
Theorem C42_abort_refuted : exists (n : nat) (outw : nat -> list (nat * unit)), undirected n outw /\
  forall bs k, 0 < bs -> 6 < k -> mm_aborts tt n outw bs k /\ forall res, ~ mm_returns tt n outw bs k res.
Proof.
  exists 4, k4.
  assert (Hu : undirected 4 k4).
  { intros u v w Hu Hv. unfold k4 in *. apply in_map_iff in Hv as (x & Ex & Hx). injection Ex as -> <-. apply filter_In in Hx as [Hx Hn]. apply in_seq in Hx.
    split; [lia|]. exists tt. apply in_map_iff. exists u. split; auto. apply filter_In. split; [apply in_seq; lia|]. now rewrite Nat.eqb_sym. }
  split; auto. intros bs k Hb Hk. apply C42_small_dense_aborts; auto.
  - vm_compute. lia.
  - intros _ c Hc. destruct c as [|[|[|[|c]]]]; vm_compute; try lia.
Qed.
(* vertex 0 is joined to all others, and 2 to 3: live edge number 5 = n-1 belongs to vertex 2, but is
   looked for at vertex 1, for ever *)
Definition fan (u : nat) : list (nat * unit) :=
  map (fun v => (v, tt)) (nth u [[1; 2; 3; 4; 5]; [0]; [0; 3]; [0; 2]; [0]; [0]] []).
Theorem C42_hang_refuted : exists (n : nat) (outw : nat -> list (nat * unit)), undirected n outw /\
  forall bs k, 6 <= bs -> 6 < k -> mm_hangs tt n outw bs k /\ forall res, ~ mm_returns tt n outw bs k res.
Proof.
  exists 6, fan. assert (Hu : undirected 6 fan).
  { intros u v w Hu Hv. unfold fan in *. do 6 (destruct u as [|u]; [simpl in Hv; repeat destruct Hv as [Hv|Hv]; try injection Hv as <- <-; try contradiction; (split; [lia|exists tt; simpl; auto 10])|]). lia. }
  split; auto. intros bs k Hb Hk.
  assert (Ht : tot 6 fan (fun _ => false) true = 6) by reflexivity.
  assert (Hnb : num_blocks (seq 0 6) bs = 1).
  { unfold num_blocks. rewrite seq_length. symmetry. apply Nat.div_unique with (r := 5); lia. }
  assert (HB : forall fuel, block 6 fan (fun _ => false) true (seq 0 6) bs fuel 0 = None).
  { intros fuel. unfold block. rewrite seq_length. replace (Nat.min 6 ((0 + 1) * bs)) with 6 by lia. replace (0 * bs) with 0 by lia.
    assert (X : forall f ws, block_loop 6 fan (fun _ => false) true (seq 0 6) f 6 5 1 ws = None).
    { induction f as [|f IH]; intros ws; [reflexivity|]. cbn [block_loop]. replace (block_iter 6 fan (fun _ => false) true (seq 0 6) 5 1) with (Some (5, 1, @nil (write unit))) by (vm_compute; reflexivity). apply IH. }
    replace (search 6 fan (fun _ => false) true 0 (nth 0 (seq 0 6) 0)) with 0 by (vm_compute; reflexivity).
    destruct fuel as [|fuel]; [reflexivity|]. cbn [block_loop]. set (bi := block_iter 6 fan (fun _ => false) true (seq 0 6) 0 0). vm_compute in bi. unfold bi. cbn iota.
    destruct fuel as [|fuel]; [reflexivity|]. cbn [block_loop]. replace (block_iter 6 fan (fun _ => false) true (seq 0 6) 5 0) with (Some (5, 1, @nil (write unit))) by (vm_compute; reflexivity). apply X. }
  assert (Hix : forall idxs, indices_ok 6 fan (fun _ => false) true k idxs <-> idxs = seq 0 6).
  { intros idxs. unfold indices_ok. rewrite Ht, (proj2 (Nat.ltb_lt 6 k) Hk). tauto. }
  split.
  - exists 0, (fun _ => false), (fun _ => None), [], (seq 0 6). split; [constructor|]. split; [now apply Hix|]. exists 0. split; [lia|exact HB].
  - assert (HG : forall E, ~ get_edges tt 6 fan bs k (fun _ => false) true E).
    { intros E (idxs & Hi & (wss & order & _ & Hbl & _)). apply Hix in Hi. subst idxs. rewrite Hnb in Hbl. destruct (Hbl 0 Nat.lt_0_1) as [f F]. rewrite HB in F. discriminate. }
    assert (HS : forall r M R res, mm_loop tt 6 fan bs k r M R res -> r = 0 /\ M = (fun _ => false)).
    { induction 1 as [|r M R res E st HL IH HE Hne Hr]; auto. destruct IH as [-> ->]. now apply HG in HE. }
    intros res (r & M & R & HL & HE). destruct (HS _ _ _ _ HL) as [-> ->]. now apply HG in HE.
Qed.

(* a path of 100 vertices meets the hypotheses of the theorems above *)
Definition path100 (u : nat) : list (nat * unit) :=
  filter (fun vw => fst vw <? 100) (map (fun v => (v, tt)) (if u =? 0 then [1] else [u - 1; S u])).
Lemma path100_undirected : undirected 100 path100.
Proof.
  intros u v w Hu Hv. unfold path100 in *. apply filter_In in Hv as [Hv Hlt]. cbn [fst] in Hlt. apply Nat.ltb_lt in Hlt. split; auto. exists tt. apply filter_In. split; [|apply Nat.ltb_lt; auto].
  apply in_map_iff in Hv as (x & Ex & Hx). injection Ex as -> <-. apply in_map_iff. exists u. split; auto.
  destruct (Nat.eqb_spec u 0) as [->|]; destruct (Nat.eqb_spec v 0) as [->|]; simpl in *; lia.
Qed.
Example C42_example : exists res, mm_returns tt 100 path100 16 200 res /\ maximal_matching 100 path100 res /\ res <> [] /\
  forall res', mm_returns tt 100 path100 16 200 res' -> res' = res.
Proof.
  assert (He : edge_count 100 path100 = 99) by (vm_compute; reflexivity).
  destruct (@C42_terminates_sparse unit tt 100 path100 16 200 path100_undirected) as (_ & _ & _ & res & Hr); try lia.
  assert (HM : maximal_matching 100 path100 res) by (eapply C42_maximal_matching; [apply path100_undirected| |exact Hr]; lia).
  exists res. split; auto. split; auto. split.
  - intros ->. destruct HM as (_ & _ & HM). destruct (HM 0 1 tt) as [H|H]; try exact H; try lia. simpl. auto.
  - intros res' Hr'. apply C42_deterministic with (w0 := tt) (n := 100) (outw := path100) (bs := 16) (k := 200); auto; try lia; [apply path100_undirected|].
    intros r M R rs _. apply few_edges_ok. lia.
Qed.

Print Assumptions C42_maximal_matching.
Print Assumptions C42_batch_greedy.
Print Assumptions C42_terminates.
Print Assumptions C42_terminates_sparse.
Print Assumptions C42_deterministic.
Print Assumptions C42_small_dense_aborts.
Print Assumptions C42_abort_refuted.
Print Assumptions C42_hang_refuted.
