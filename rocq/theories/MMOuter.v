(* Proofs for C42: the outer loop. *)
From Coq Require Import Permutation.
From Verif Require Import Base ListUtil MIModel MIProofs MMModel MMSpec MMProofs MMGet.

Lemma NoDup_pairs (f g : nat -> nat) l : NoDup l -> (forall i, In i l -> f i <> g i) ->
  (forall i j, In i l -> In j l -> i <> j -> ~ exists x, (f i = x \/ g i = x) /\ (f j = x \/ g j = x)) ->
  NoDup (flat_map (fun i => [f i; g i]) l).
Proof.
  induction l as [|i l IH]; intros Hnd Hne Hd; simpl; [constructor|]. inversion Hnd; subst.
  assert (X : forall x, f i = x \/ g i = x -> ~ In x (flat_map (fun i => [f i; g i]) l)).
  { intros x Hx Hin. apply in_flat_map in Hin as (j & Hj & [Hx'|[Hx'|[]]]); apply (Hd i j); simpl; auto; try (intros ->; contradiction); exists x; auto. }
  constructor; [intros [E|E]; [apply (Hne i); simpl; auto|revert E; apply X; auto]|]. constructor; [apply X; auto|]. apply IH; auto.
  - intros j Hj. apply Hne. now right.
  - intros j j' Hj Hj'. apply Hd; now right.
Qed.
Lemma flat_map_map {A B C} (f : A -> B) (g : B -> list C) l : flat_map g (map f l) = flat_map (fun x => g (f x)) l.
Proof. induction l as [|x l IH]; simpl; auto. now rewrite IH. Qed.

Section Outer.
  Variable W : Type.
  Variable w0 : W.
  Variable n : nat.
  Variable outw : nat -> list (nat * W).
  Hypothesis Hund : undirected n outw.
  Variables bs k : nat.
  Notation mm_loop := (mm_loop w0 n outw bs k).
  Notation get_edges := (get_edges w0 n outw bs k).
  Lemma Hnb u v w : u < n -> In (v, w) (outw u) -> v < n.
  Proof. intros Hu Hv. now apply (@Hund _ _ _ Hu Hv). Qed.

  (* the entries of a batch that are not loops are edges of the graph *)
  Lemma batch_sound M first E i : get_edges M first E -> i < length E -> eu (enth w0 E i) <> ev (enth w0 E i) ->
    eu (enth w0 E i) < n /\ ev (enth w0 E i) < n /\ In (ev (enth w0 E i), snd (enth w0 E i)) (outw (eu (enth w0 E i))) /\ eu (enth w0 E i) < ev (enth w0 E i).
  Proof.
    intros (idxs & _ & Hx) Hi Hne. destruct (extracted_sound Hx) as [Hl HA]. rewrite Hl in Hi. unfold enth in *. destruct (HA i Hi) as [E0|(_ & A & B & C & _)].
    - rewrite E0 in Hne. now destruct Hne.
    - simpl in *. pose proof (@Hnb _ _ _ A B). auto.
  Qed.

  Section Batch.
    Variables (M0 : nat -> bool) (R0 : nat -> option nat) (first : bool) (E : list (medge W)).
    Hypothesis HR0 : forall x, R0 x = None.
    Hypothesis HE : get_edges M0 first E.
    Notation init := (mm_init R0 M0).
    Lemma marked_endpoints mk : endpoints (marked_edges w0 E mk) = flat_map (fun i => [eu (enth w0 E i); ev (enth w0 E i)]) (filter mk (seq 0 (length E))).
    Proof. unfold endpoints, marked_edges. apply flat_map_map. Qed.
    Lemma marked_nodup mk : (forall i, mk i = true -> is_live w0 E M0 i = true) -> (forall i j, mk i = true -> mk j = true -> i <> j -> ~ share w0 E i j) ->
      NoDup (endpoints (marked_edges w0 E mk)).
    Proof.
      intros Hl Hd. rewrite marked_endpoints. apply NoDup_pairs.
      - apply NoDup_filter', seq_NoDup.
      - intros i Hi. apply filter_In in Hi as [_ Hi]. apply Hl, live_spec in Hi. tauto.
      - intros i j Hi Hj Hne. apply filter_In in Hi as [_ Hi]. apply filter_In in Hj as [_ Hj]. now apply (Hd i j).
    Qed.
    Lemma marked_lt mk x : (forall i, mk i = true -> is_live w0 E M0 i = true) -> In x (endpoints (marked_edges w0 E mk)) -> x < n.
    Proof.
      intros Hl Hx. rewrite marked_endpoints in Hx. apply in_flat_map in Hx as (i & Hi & Hx). apply filter_In in Hi as [Hi Hm]. apply in_seq in Hi.
      apply Hl, live_spec in Hm as (Hm & _). destruct (@batch_sound M0 first E i HE) as (A & B & _); auto; [lia|]. simpl in Hx. destruct Hx as [<-|[<-|[]]]; auto.
    Qed.
    Lemma marks_bound mt r done K st : eff_loop (mm_round w0 E) 0 (length E) 50 mt init r done K st -> 2 * marks E st <= n.
    Proof.
      intros HL. pose proof (mmi_loop HR0 HL) as HI. set (L := endpoints (marked_edges w0 E (mmark st))).
      assert (Hlv : forall i, mmark st i = true -> is_live w0 E M0 i = true) by (intros i Hi; apply (mi_mark HI i Hi)).
      assert (HN : NoDup L) by (apply marked_nodup; [auto|apply HI]).
      assert (HL' : length L = 2 * marks E st).
      { unfold L. rewrite marked_endpoints. unfold marks. induction (filter (mmark st) (seq 0 (length E))) as [|i l IH]; simpl in *; auto. rewrite IH. lia. }
      rewrite <- HL'. rewrite <- (seq_length n 0). apply NoDup_incl_length; auto. intros x Hx. apply in_seq. split; [lia|]. apply (marked_lt (mmark st)) in Hx; auto.
    Qed.
    Lemma batch_no_abort : 98 <= n -> ~ eff_aborts (mm_round w0 E) 0 (length E) 50 (Some n) init.
    Proof.
      intros Hn (r & done & K & st & HL & Hd & Ht). pose proof (eff_rounds HR0 HL Hd). pose proof (marks_bound HL). simpl in Ht. apply Nat.ltb_lt in Ht. lia.
    Qed.
    Lemma batch_returns : 98 <= n -> exists st, eff_returns (mm_round w0 E) 0 (length E) 50 (Some n) init st.
    Proof.
      intros Hn. destruct (@eff_from W w0 E (Some n) M0 R0 HR0 (length E) 0 0 [] init) as [H|H]; auto; [constructor|]. now apply batch_no_abort in H.
    Qed.
  End Batch.

  Record OL (r : nat) (M : nat -> bool) (R : nat -> option nat) (res : list (medge W)) : Prop := {
    ol_R : forall x, R x = None;
    ol_M : forall x, M x = true <-> In x (endpoints res);
    ol_edge : forall u v w, In (u, v, w) res -> u < n /\ In (v, w) (outw u) /\ u < v;
    ol_nodup : NoDup (endpoints res);
    ol_0 : (r =? 0) = true -> forall x, M x = false }.
  Lemma endpoints_app (a b : list (medge W)) : endpoints (a ++ b) = endpoints a ++ endpoints b.
  Proof. unfold endpoints. apply flat_map_app. Qed.
  Lemma loop_ol r M R res : mm_loop r M R res -> OL r M R res.
  Proof.
    induction 1 as [|r M R res E st HL IH HE Hne Hr].
    - constructor; simpl; auto; [intros x; split; [discriminate|intros []]|intros u v w []|constructor].
    - destruct (batch_greedy (ol_R IH) Hr) as (A & B & C & D & F).
      assert (HX : forall x, In x (endpoints (marked_edges w0 E (mmark st))) <-> exists i, mmark st i = true /\ touches w0 E i x).
      { intros x. rewrite marked_endpoints. rewrite in_flat_map. split.
        - intros (i & Hi & Hx). apply filter_In in Hi as [_ Hi]. exists i. split; auto. simpl in Hx. unfold touches. tauto.
        - intros (i & Hi & Hx). exists i. split; [apply filter_In; split; auto; apply in_seq; pose proof (B i Hi); lia|]. unfold touches in Hx. simpl. tauto. }
      constructor; auto.
      + intros x. rewrite D, endpoints_app, in_app_iff, HX, (ol_M IH). reflexivity.
      + intros u v w Hin. apply in_app_iff in Hin as [Hin|Hin]; [now apply (ol_edge IH)|].
        unfold marked_edges in Hin. apply in_map_iff in Hin as (i & Ei & Hi). apply filter_In in Hi as [Hi Hm]. apply in_seq in Hi. destruct (B i Hm) as [_ Hl]. apply live_spec in Hl as (Hl & _).
        destruct (@batch_sound M (r =? 0) E i HE) as (X1 & X2 & X3 & X4); auto; [lia|]. rewrite Ei in *. unfold eu, ev in *. simpl in *. auto.
      + rewrite endpoints_app. apply NoDup_app_iff. split; [apply IH|]. split; [apply marked_nodup with (M0 := M); auto; intros i Hi; apply (B i Hi)|].
        intros x Hx Hx'. apply (ol_M IH) in Hx. apply HX in Hx' as (i & Hi & Ht). destruct (B i Hi) as [_ Hl]. apply live_spec in Hl as (_ & L1 & L2). destruct Ht as [<-|<-]; congruence.
      + discriminate.
  Qed.
  Lemma tot_zero M first : tot n outw M first = 0 -> forall u v w, u < n -> In (v, w) (outw u) -> u < v -> M u = true \/ (first = false /\ M v = true).
  Proof.
    intros Ht u v w Hu Hv Hlt. destruct (M u) eqn:EM; auto. right.
    assert (Hd : live_degree outw M first u = 0).
    { destruct (live_degree outw M first u) eqn:El; auto. exfalso. pose proof (live_S outw M first u) as X. assert (live outw M first (S u) <= tot n outw M first) by (apply live_mono; lia). lia. }
    unfold live_degree in Hd. rewrite EM in Hd. apply length_zero_iff_nil in Hd.
    destruct ((first || negb (M v)) && (u <? v)) eqn:Ex.
    - assert (In (v, w) []) as []. rewrite <- Hd. apply filter_In. auto.
    - rewrite (proj2 (Nat.ltb_lt u v) Hlt), andb_true_r in Ex. apply orb_false_iff in Ex as [-> Ex]. apply negb_false_iff in Ex. auto.
  Qed.
  Lemma get_none M first : 0 < k -> get_edges M first [] -> tot n outw M first = 0.
  Proof.
    intros Hk (idxs & Hi & Hx). destruct (extracted_sound Hx) as [Hl _]. simpl in Hl. unfold indices_ok in Hi. destruct (Nat.ltb_spec (tot n outw M first) k) as [Hlt|Hge].
    - subst idxs. rewrite seq_length in Hl. auto.
    - destruct Hi as [Hi _]. lia.
  Qed.
  Lemma returns_maximal res : 0 < k -> mm_returns w0 n outw bs k res -> maximal_matching n outw res.
  Proof.
    intros Hk (r & M & R & HL & HE). pose proof (loop_ol HL) as HO. split; [|split; [apply HO|]].
    - intros u v w H. destruct (ol_edge HO u v w H) as (A & B & C). split; auto. split; auto. lia.
    - intros u v w Hu Hv Hne. pose proof (get_none Hk HE) as Ht. assert (X : forall a b c, a < n -> In (b, c) (outw a) -> a < b -> In a (endpoints res) \/ In b (endpoints res)).
      { intros a b c Ha Hb Hlt. destruct (@tot_zero M (r =? 0) Ht a b c Ha Hb Hlt) as [H|[_ H]]; [left|right]; now apply (ol_M HO). }
      destruct (Nat.lt_ge_cases u v) as [Hlt|Hge]; [eauto|]. destruct (@Hund _ _ _ Hu Hv) as (Hvn & w' & Hw'). destruct (X v u w'); auto. lia.
  Qed.
  Lemma no_abort : 98 <= n -> ~ mm_aborts w0 n outw bs k.
  Proof. intros Hn (r & M & R & res & E & HL & HE & HA). pose proof (loop_ol HL) as HO. revert HA. eapply batch_no_abort; eauto. apply HO. Qed.
  Lemma res_bound r M R res : mm_loop r M R res -> 2 * length res <= n.
  Proof.
    intros HL. pose proof (loop_ol HL) as HO. assert (El : length (endpoints res) = 2 * length res) by (unfold endpoints; clear; induction res as [|e l IH]; simpl in *; auto; rewrite IH; lia).
    rewrite <- El, <- (seq_length n 0). apply NoDup_incl_length; [apply HO|]. intros x Hx. apply in_seq. split; [lia|]. unfold endpoints in Hx. apply in_flat_map in Hx as ([[u v] w] & He & Hx).
    destruct (ol_edge HO u v w He) as (A & B & C). pose proof (@Hnb _ _ _ A B). unfold eu, ev in Hx. simpl in Hx. lia.
  Qed.

  (* -- termination, when live edge number n-1 is not found at a vertex without live edges --------- *)
  Notation bok M first := (boundary_ok n outw M first).
    Lemma indices_facts M first idxs : indices_ok n outw M first k idxs ->
      (forall i j, i <= j < length idxs -> nth i idxs 0 <= nth j idxs 0) /\ (forall i, i < length idxs -> nth i idxs 0 < tot n outw M first).
    Proof.
      unfold indices_ok. destruct (Nat.ltb_spec (tot n outw M first) k) as [Hlt|Hge].
      - intros ->. rewrite seq_length. split; intros; rewrite !seq_nth by lia; lia.
      - intros (Hl & A & B). rewrite Hl. auto.
    Qed.
    Lemma indices_exist M first : exists idxs, indices_ok n outw M first k idxs.
    Proof.
      unfold indices_ok. destruct (Nat.ltb_spec (tot n outw M first) k) as [Hlt|Hge]; [eauto|]. exists (repeat 0 k). rewrite repeat_length. split; auto.
      split; intros; rewrite ?nth_repeat; lia.
    Qed.
  Section Bound.
    Hypothesis Hbs : 0 < bs.
    Hypothesis Hk : 0 < k.
    Hypothesis Hbound : forall r M R res, mm_loop r M R res -> bok M (r =? 0).
    Lemma no_hangs : ~ mm_hangs w0 n outw bs k.
    Proof.
      intros (r & M & R & res & idxs & HL & Hi & HH). destruct (indices_facts _ _ _ Hi) as [A B]. revert HH. apply no_hang; auto; [exact Hnb|apply (ol_0 (loop_ol HL))|eapply Hbound; eauto].
    Qed.
    Lemma no_undefined : ~ mm_undefined w0 n outw bs k.
    Proof.
      intros (r & M & R & res & idxs & b & fuel & HL & Hi & Hb & HH). destruct (indices_facts _ _ _ Hi) as [A B].
      destruct (@block_ok W w0 n outw M (r =? 0) idxs Hnb (ol_0 (loop_ol HL)) (Hbound HL) A B bs b Hbs (nblocks_lt _ Hbs Hb)) as (ws & E & _).
      unfold block in *. pose proof (@loop_det _ _ _ _ _ _ _ _ _ _ _ _ _ _ HH E). discriminate.
    Qed.
    Lemma get_exists r M R res : mm_loop r M R res -> exists E, get_edges M (r =? 0) E.
    Proof.
      intros HL. destruct (indices_exist M (r =? 0)) as [idxs Hi]. destruct (indices_facts _ _ _ Hi) as [A B].
      destruct (@extracted_runs W w0 n outw M (r =? 0) idxs Hnb (ol_0 (loop_ol HL)) (Hbound HL) A B bs Hbs) as [E HE]. exists E, idxs. auto.
    Qed.
    Lemma batch_progress r M R res E st : mm_loop r M R res -> get_edges M (r =? 0) E -> E <> [] ->
      eff_returns (mm_round w0 E) 0 (length E) 50 (Some n) (mm_init R M) st -> 0 < length (marked_edges w0 E (mmark st)).
    Proof.
      intros HL (idxs & Hi & HE) Hne Hr. pose proof (loop_ol HL) as HO. destruct (indices_facts _ _ _ Hi) as [A B]. destruct (extracted_sound HE) as [Hl _].
      assert (Hk0 : 0 < length idxs) by (rewrite <- Hl; destruct E; simpl; [congruence|lia]).
      pose proof (extracted_first Hnb (ol_0 HO) (Hbound HL) A B Hbs Hk0 HE) as H0.
      pose proof (right_sound (ol_0 HO) B H0) as (_ & _ & _ & S4 & S5). destruct H0 as (_ & c & Hc & _ & Hm & Ec). cbn [fst snd] in *.
      fold (enth w0 E 0) in *. assert (Hu : M (eu (enth w0 E 0)) = false) by (rewrite Ec; exact Hm).
      destruct (batch_greedy (ol_R HO) Hr) as (G & _). assert (Hm0 : mmark st 0 = true).
      { apply G; [lia|]. split; [apply live_spec; split; [lia|auto]|]. intros; lia. }
      unfold marked_edges. rewrite map_length. destruct (length E) as [|q] eqn:El; [lia|]. simpl. rewrite Hm0. simpl. lia.
    Qed.
    Lemma rounds_bound r M R res : mm_loop r M R res -> r <= length res.
    Proof.
      induction 1 as [|r M R res E st HL IH HE Hne Hr]; [simpl; lia|]. rewrite app_length. pose proof (batch_progress HL HE Hne Hr). lia.
    Qed.
    Lemma terminates : 98 <= n -> exists res, mm_returns w0 n outw bs k res.
    Proof.
      intros Hn. assert (X : forall q r M R res, n < 2 * (r + q) -> mm_loop r M R res -> exists res, mm_returns w0 n outw bs k res).
      { induction q as [|q IH]; intros r M R res Hq HL; [pose proof (rounds_bound HL); pose proof (res_bound HL); lia|].
        destruct (get_exists HL) as [E HE]. destruct E as [|e0 E0] eqn:EE; [exists res, r, M, R; auto|]. rewrite <- EE in *.
        destruct (batch_returns R (ol_R (loop_ol HL)) HE Hn) as [st Hst]. eapply IH; [|eapply mm_next; [exact HL|exact HE|congruence|exact Hst]]. lia. }
      apply (X (S n) 0 (fun _ => false) (fun _ => None) []); [lia|constructor].
    Qed.
  End Bound.

  (* -- batches of fewer than 50 edges are tried one edge at a time ------------------------------- *)
  Lemma small_batch E M R mt r done K st : (forall x, R x = None) -> length E < 50 ->
    eff_loop (mm_round w0 E) 0 (length E) 50 mt (mm_init R M) r done K st -> done = r /\ K = [].
  Proof.
    intros HR Hlt HL. assert (Hmx : max_round 0 (length E) 50 = 1) by (unfold max_round; rewrite Nat.div_small; lia).
    induction HL as [|r done K st st' keep HL [IH1 IH2] Hd Ht sz I Hr Hl]; auto. pose proof (mmi_loop HR HL) as HI.
    destruct (mmi_round HI Hd Hr) as (A & B & _). fold sz in A, B. fold I in B. assert (sz = 1) as Es by (unfold sz; rewrite Hmx; lia). rewrite Es in *.
    split; [|destruct (kept I keep); auto; simpl in B; lia]. destruct (kept I keep); simpl in *; lia.
  Qed.
  Lemma small_steps E M R r : (forall x, R x = None) -> length E < 50 -> r <= length E -> r <= S n ->
    exists done K st, eff_loop (mm_round w0 E) 0 (length E) 50 (Some n) (mm_init R M) r done K st.
  Proof.
    intros HR Hlt. induction r as [|r IH]; intros H1 H2; [eexists _, _, _; constructor|]. destruct IH as (d & K & st & HL); try lia.
    destruct (small_batch HR Hlt HL) as [-> _]. destruct (eff_step HR HL) as (d' & K' & st' & _ & HL'); [lia|simpl; apply Nat.ltb_ge; lia|]. eauto.
  Qed.
  Lemma small_aborts E M R : (forall x, R x = None) -> n + 2 <= length E < 50 ->
    eff_aborts (mm_round w0 E) 0 (length E) 50 (Some n) (mm_init R M) /\ forall st, ~ eff_returns (mm_round w0 E) 0 (length E) 50 (Some n) (mm_init R M) st.
  Proof.
    intros HR [Hn Hlt]. split.
    - destruct (@small_steps E M R (S n) HR Hlt) as (d & K & st & HL); try lia. exists (S n), d, K, st. destruct (small_batch HR Hlt HL) as [-> _]. split; auto. split; [lia|]. simpl. apply Nat.ltb_lt. lia.
    - intros st (r & d & K & HL & Hd). destruct (small_batch HR Hlt HL) as [-> _]. inversion HL; subst; [lia|]. match goal with H : too_many _ _ = false |- _ => simpl in H; apply Nat.ltb_ge in H end. lia.
  Qed.
  Lemma tot_edge_count : tot n outw (fun _ => false) true = edge_count n outw.
  Proof.
    unfold tot, live, edge_count. induction (seq 0 n) as [|u l IH]; simpl; auto. rewrite app_length, IH. unfold live_degree at 1. simpl. reflexivity.
  Qed.
  Lemma get_all M first E : tot n outw M first < k -> get_edges M first E -> length E = tot n outw M first.
  Proof.
    intros Hlt (idxs & Hi & HE). destruct (extracted_sound HE) as [Hl _]. unfold indices_ok in Hi. rewrite (proj2 (Nat.ltb_lt _ _) Hlt) in Hi. subst idxs. now rewrite seq_length in Hl.
  Qed.
  Lemma dense_aborts : 0 < bs -> bok (fun _ => false) true -> n + 2 <= edge_count n outw < 50 -> edge_count n outw < k ->
    mm_aborts w0 n outw bs k /\ forall res, ~ mm_returns w0 n outw bs k res.
  Proof.
    intros Hbs Hb Hm Hk. rewrite <- tot_edge_count in *.
    assert (HS : forall r M R res, mm_loop r M R res -> r = 0 /\ M = (fun _ => false) /\ R = (fun _ => None)).
    { induction 1 as [|r M R res E st HL IH HE Hne Hr]; auto. exfalso. destruct IH as (-> & -> & ->). pose proof (get_all Hk HE) as Hl. simpl in Hl.
      apply (@small_aborts E (fun _ => false) (fun _ => None)) in Hr; auto. lia. }
    split.
    - destruct (indices_exist (fun _ => false) true) as [idxs Hi]. destruct (indices_facts _ _ _ Hi) as [A B].
      destruct (@extracted_runs W w0 n outw (fun _ => false) true idxs Hnb (fun _ _ => eq_refl) Hb A B bs Hbs) as [E HE].
      assert (HE' : get_edges (fun _ => false) true E) by (exists idxs; auto). pose proof (get_all Hk HE') as Hl.
      exists 0, (fun _ => false), (fun _ => None), [], E. split; [constructor|]. split; auto. apply small_aborts; auto. lia.
    - intros res (r & M & R & HL & HE). destruct (HS _ _ _ _ HL) as (-> & -> & ->). pose proof (get_all Hk HE). simpl in *. lia.
  Qed.
  Lemma tot_le M first : tot n outw M first <= edge_count n outw.
  Proof.
    rewrite <- tot_edge_count. unfold tot, live. induction (seq 0 n) as [|u l IH]; simpl; auto. apply Nat.add_le_mono; auto.
    unfold live_degree. simpl. destruct (M u); [lia|]. clear. induction (outw u) as [|vw l IH]; simpl; auto. destruct (first || negb (M (fst vw))); simpl; [|destruct (u <? fst vw); simpl; lia]. destruct (u <? fst vw); simpl; lia.
  Qed.
  Lemma few_edges_ok M first : edge_count n outw < n -> bok M first.
  Proof. intros H Ht c Hc. pose proof (tot_le M first). lia. Qed.
End Outer.
