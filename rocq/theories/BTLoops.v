(* Proofs for C79: one round of the deterministic search, and the searches. *)
From Coq Require Import Permutation.
From Verif Require Import Base ListUtil VSModel VSSpec VSProofs EMModel EMSpec EMProofs EMPar EMModes EMProps EMPush
  FAModel FASpec FAProofs BTModel BTProofs.
Unset Strict Implicit.

Lemma dtasks_todo x ts : flat_map dtodo (dtasks x ts) = flat_map todo ts.
Proof. unfold dtasks. induction ts as [|th ts IH]; simpl; auto. now rewrite IH. Qed.

Section Modes.
  Variable n : nat.
  Variable outn : nat -> list nat.
  Hypothesis G : graph_ok n outn outn.
  Hypothesis Hsimple : forall u, NoDup (outn u).

  (* the active attempts are the edges out of F *)
  Definition covers (F : list nat) (atts : list attempt) : Prop :=
    (forall a, In a atts -> active a = true -> In (src a) F /\ In (dst a) (outn (src a)) /\ dst a < n) /\
    (forall u d, In u F -> In d (outn u) -> exists a, In a atts /\ active a = true /\ src a = u /\ dst a = d).

  Section Frontier.
    Variable F : list nat.
    Variable U : vset unit.
    Hypothesis HU : Inv n U (plain F).

    Section Pull.
      Variable big : nat -> bool.
      Variable K : nat.
      Hypothesis HK : 1 <= K.
      Hypothesis Hd : isDense U = true.
      Notation ts := (pull_threads n outn U big K).
      Notation us := (small_threads n outn U big).

      Lemma small_in th : In th us -> exists v, v < n /\ big v = false /\ breaks th = true /\
        todo th = map (fun js => {| tag := (v, fst js); src := snd js; dst := v; active := isIn tt U (snd js) |})
                      (combine (seq 0 (length (outn v))) (outn v)).
      Proof.
        unfold small_threads. intros H. apply in_map_iff in H as (v & <- & Hv). apply filter_In in Hv as [Hv Hb].
        apply in_seq in Hv. exists v. split; [lia|]. split; [now destruct (big v)|]. auto.
      Qed.
      Lemma small_atts a : In a (flat_map todo us) ->
        big (dst a) = false /\ dst a < n /\ In (src a) (outn (dst a)) /\ active a = isIn tt U (src a).
      Proof.
        rewrite in_flat_map. intros (th & Hth & Ha). apply small_in in Hth as (v & Hv & Hb & _ & E). rewrite E in Ha.
        apply in_map_iff in Ha as ([j s] & <- & Hjs). simpl. repeat split; auto.
        apply combine_seq_In in Hjs as [_ Hin]. eapply nth_error_In; eauto.
      Qed.
      Lemma pull_cover v s : v < n -> In s (outn v) -> isIn tt U s = true ->
        exists a, In a (flat_map todo ts ++ flat_map todo us) /\ active a = true /\ src a = s /\ dst a = v.
      Proof.
        intros Hv Hs Hi. apply In_nth_error in Hs as [j Hj].
        assert (Hin : In (j, s) (combine (seq 0 (length (outn v))) (outn v))).
        { apply combine_seq_In. rewrite Nat.sub_0_r. split; auto. lia. }
        exists {| tag := (v, j); src := s; dst := v; active := isIn tt U s |}. split; [|auto].
        apply in_app_iff. destruct (big v) eqn:Hb.
        - left. destruct (@chunk_cover _ _ K _ HK Hin) as (b & Hbb & Hin').
          apply in_flat_map. eexists. split.
          + unfold pull_threads. apply in_flat_map. exists v. split; [apply in_seq; lia|]. rewrite Hb.
            apply in_map_iff. exists b. split; [reflexivity|]. apply in_seq.
            rewrite combine_length, seq_length, Nat.min_id in Hbb. lia.
          + simpl. apply in_map_iff. exists (j, s). split; auto.
        - right. apply in_flat_map. eexists. split.
          + unfold small_threads. apply in_map_iff. exists v. split; [reflexivity|]. apply filter_In.
            split; [apply in_seq; lia|]. now rewrite Hb.
          + simpl. apply in_map_iff. exists (j, s). split; auto.
      Qed.
      Lemma pull_covers : covers F (flat_map todo ts ++ flat_map todo us).
      Proof.
        split.
        - intros a Ha Hact.
          assert (X : dst a < n /\ In (src a) (outn (dst a)) /\ active a = isIn tt U (src a)).
          { apply in_app_iff in Ha as [Ha|Ha]; [|now apply small_atts in Ha].
            pose proof (@pull_atts n outn U big K HK a Ha) as (_ & Y). exact Y. }
          destruct X as (X1 & X2 & X3). assert (src a < n) by (eapply g_out; eauto).
          split; [|split; auto].
          + apply (@isIn_F' n F U HU Hd); auto. congruence.
          + now apply (g_dual G).
        - intros u d Hu Hdu. assert (Hun : u < n) by (eapply F_lt'; eauto).
          assert (Hdn : d < n) by (eapply g_out; eauto). apply pull_cover; auto.
          + now apply (g_dual G).
          + now apply (@isIn_F' n F U HU Hd).
      Qed.

      Lemma pull_tasks x y : x <> NLoad -> tasks_ok (flat_map todo ts ++ flat_map todo us) (dtasks x ts ++ dtasks y us).
      Proof.
        intros Hx.
        assert (Hsub : forall th a, In th (dtasks x ts ++ dtasks y us) -> In a (dtodo th) -> In a (flat_map todo ts ++ flat_map todo us)).
        { intros th a Hth Ha. rewrite <- (dtasks_todo x ts), <- (dtasks_todo y us), <- flat_map_app. apply in_flat_map. eauto. }
        split; auto.
        - intros th a b Hth Hb Ha Hb'. apply in_app_iff in Hth as [Hth|Hth]; apply in_map_iff in Hth as (q & <- & Hq); simpl in *.
          + pose proof (@pull_fresh n outn U big K q Hq) as [_ X]. auto.
          + apply small_in in Hq as (v & _ & _ & _ & E). rewrite E in Ha, Hb'.
            apply in_map_iff in Ha as (? & <- & _). apply in_map_iff in Hb' as (? & <- & _). auto.
        - intros t t' th th' a b Ht Ht' Hne Haf Ha Hb.
          assert (Hlt : length (dtasks x ts) <= t).
          { destruct (Nat.le_gt_cases (length (dtasks x ts)) t) as [H|H]; auto. exfalso.
            rewrite nth_error_app1 in Ht by auto. apply nth_error_In in Ht. apply in_map_iff in Ht as (q & <- & _). simpl in Haf. congruence. }
          rewrite nth_error_app2 in Ht by auto.
          assert (Hq : forall p r, nth_error (dtasks y us) p = Some r -> exists v, nth_error (filter (fun v => negb (big v)) (seq 0 n)) p = Some v /\
             big v = false /\ forall c, In c (dtodo r) -> dst c = v).
          { intros p r Hp. unfold dtasks, small_threads in Hp. rewrite map_map, nth_error_map in Hp.
            destruct (nth_error (filter (fun v => negb (big v)) (seq 0 n)) p) as [v|] eqn:Ev; [|discriminate].
            injection Hp as <-. exists v. split; auto. split.
            - apply nth_error_In in Ev. apply filter_In in Ev as [_ Ev]. now destruct (big v).
            - intros c Hc. simpl in Hc. apply in_map_iff in Hc as (? & <- & _). auto. }
          destruct (Hq _ _ Ht) as (v & Ev & Hbv & Hdv). rewrite (Hdv a Ha).
          destruct (Nat.lt_ge_cases t' (length (dtasks x ts))) as [H|H].
          + rewrite nth_error_app1 in Ht' by auto. apply nth_error_In in Ht'. intros E.
            assert (X : In b (flat_map todo ts)). { rewrite <- (dtasks_todo x ts). apply in_flat_map. eauto. }
            pose proof (@pull_atts n outn U big K HK b X) as (Y & _). congruence.
          + rewrite nth_error_app2 in Ht' by auto. destruct (Hq _ _ Ht') as (w & Ew & _ & Hdw). rewrite (Hdw b Hb).
            intros ->. assert (Hnd : NoDup (filter (fun v => negb (big v)) (seq 0 n))) by apply NoDup_filter, seq_NoDup.
            rewrite NoDup_nth_error in Hnd.
            assert (t - length (dtasks x ts) = t' - length (dtasks x ts)); [|lia].
            apply Hnd; [apply nth_error_Some; congruence|congruence].
      Qed.
    End Pull.

    Section Chunk.
      Variable B W M : nat.
      Variable ebs : nat -> nat.
      Hypothesis HB : 1 <= B.
      Hypothesis HW : B <= W.
      Hypothesis HM : W <= M.
      Hypothesis Hd : isDense U = false.
      Hypothesis Hne : exists s d, In s F /\ In d (outn s).
      Notation ts := (chunk_threads outn U B (plain_bdeg B) ebs).

      Lemma chunk_eq : flat_map todo ts = map (to_att U) (all_edges (sparse_nghs outn U)).
      Proof. exact (@chunk_atts outn U B W M (plain_bdeg B) ebs HB HW HM (@chunk_tot n outn F U HU B W M HB HW HM Hd Hne)). Qed.
      Lemma chunk_covers : covers F (flat_map todo ts).
      Proof.
        assert (Hout : forall s d, s < n -> In d (outn s) -> d < n) by (intros; eapply g_out; eauto).
        destruct (@chunk_edges n outn F U HU B W M ebs HB HW HM Hd Hne) as (H1 & H2 & _). split.
        - intros a Ha _. destruct (H1 a Ha) as [A1 A2]. apply nth_error_In in A2. split; auto. split; auto.
          apply (Hout (src a)); auto. eapply F_lt'; eauto.
        - intros u d Hu Hdu. apply In_nth_error in Hdu as [j Hj]. destruct (H2 u j d Hu Hj) as (a & A1 & A2 & A3 & A4).
          exists a. split; auto. split; auto. rewrite chunk_eq in A1. apply in_map_iff in A1 as (e & <- & _). reflexivity.
      Qed.
      Lemma chunk_tasks x : x <> NLoad -> tasks_ok (flat_map todo ts) (dtasks x ts).
      Proof.
        intros Hx. split.
        - intros th a Hth Ha. rewrite <- (dtasks_todo x ts). apply in_flat_map. eauto.
        - intros th a b Hth Hb. exfalso. apply in_map_iff in Hth as (q & <- & Hq). simpl in Hb.
          unfold chunk_threads in Hq. apply in_map_iff in Hq as (g & <- & _). discriminate.
        - intros t t' th th' a b Ht _ _ Haf. exfalso. apply nth_error_In in Ht. apply in_map_iff in Ht as (q & <- & _). simpl in Haf. congruence.
      Qed.
      Lemma chunk_pairs : NoDup (map (fun a => (src a, dst a)) (flat_map todo ts)).
      Proof.
        rewrite chunk_eq, map_map. simpl.
        assert (Ht : NoDup (all_edges (sparse_nghs outn U))).
        { apply (NoDup_map_inv fst). apply all_edges_tags. }
        assert (Hi : forall e e', In e (all_edges (sparse_nghs outn U)) -> In e' (all_edges (sparse_nghs outn U)) ->
           (fst (nth (fst (fst e)) (vs U) (0, tt)), snd e) = (fst (nth (fst (fst e')) (vs U) (0, tt)), snd e') -> e = e').
        { intros [[i j] x] [[i' j'] x'] He He' E. simpl in E. injection E as E1 E2. subst x'.
          apply all_edges_In in He as [Hi He]. apply all_edges_In in He' as [Hi' He'].
          rewrite (nghs_len outn U) in Hi, Hi'. rewrite (nghs_nth outn U) in He, He' by auto.
          assert (Hlen : length (vs U) = vm U) by (eapply vs_len; eauto).
          assert (Hnd : NoDup (map fst (vs U))).
          { apply (Permutation_NoDup (l := F)); [|].
            - replace F with (map fst (plain F)) by (unfold plain; now rewrite map_map, map_id).
              apply Permutation_map, Permutation_sym. now apply (vs_perm (n := n)).
            - destruct (i_sub HU) as [X _]. unfold plain in X. now rewrite map_map, map_id in X. }
          assert (i = i').
          { rewrite NoDup_nth_error in Hnd. apply Hnd; [rewrite map_length; lia|].
            rewrite !nth_error_map, !(nth_error_nth' (vs U) (0, tt)) by lia. simpl. now rewrite E1. }
          subst i'. assert (j = j').
          { pose proof (Hsimple (fst (nth i (vs U) (0, tt)))) as X. rewrite NoDup_nth_error in X. apply X; [|congruence].
            apply nth_error_Some. congruence. }
          now subst. }
        revert Ht Hi. generalize (all_edges (sparse_nghs outn U)). intros es Ht Hi.
        induction es as [|e es IH]; simpl; [constructor|]. inversion Ht; subst. constructor.
        - intros Hin. apply in_map_iff in Hin as (e' & E & He'). apply H1. rewrite (Hi e e'); simpl; auto.
        - apply IH; auto. intros e1 e2 A1 A2. apply Hi; simpl; auto.
      Qed.
    End Chunk.
  End Frontier.

  Lemma start_d1 par vis atts thr : tasks_ok atts thr -> atts = flat_map dtodo thr ->
    (forall th, In th thr -> dpcs th = VTest /\ (dafter th = VLoad \/ dafter th = NLoad)) -> D1 par vis atts (dstart par vis thr).
  Proof.
    intros Ht Ea Hth. split; simpl; auto.
    - intros th H. now apply Hth.
    - intros th H. unfold pc1. now rewrite (proj1 (Hth th H)).
    - intros a Ha _ _. right. rewrite Ea in Ha. now apply in_flat_map in Ha.
  Qed.
  Lemma start_d2 par vis atts thr : tasks_ok atts thr -> atts = flat_map dtodo thr ->
    (forall th, In th thr -> dpcs th = VTest /\ dafter th = VRead) -> D2 par vis atts (dstart par vis thr).
  Proof.
    intros Ht Ea Hth. split; simpl; auto.
    - intros th H. now apply Hth.
    - intros th H. unfold pc2. now rewrite (proj1 (Hth th H)).
    - intros d. split; auto. intros [H|(a & [] & _)]; auto.
    - tauto.
    - intros a Ha _ _ _. right. rewrite Ea in Ha. now apply in_flat_map in Ha.
    - now rewrite <- Ea.
  Qed.
  Lemma dtasks_in x ts th : In th (dtasks x ts) -> dpcs th = VTest /\ dafter th = x.
  Proof. intros H. apply in_map_iff in H as (q & <- & _). auto. Qed.

  (* the first edgeMap: every unvisited neighbour of F gets the least neighbour in F *)
  Definition lowest (F : list nat) (d s : nat) : Prop := In s F /\ In d (outn s) /\ forall s', In s' F -> In d (outn s') -> s <= s'.
  Lemma first_ok m F U par vis U1 par1 vis1 out1 : Inv n U (plain F) -> (forall v, vis v = true <-> par v <> None) ->
    edgeMap_det n outn m Det_F U par vis U1 par1 vis1 out1 ->
    Inv n U1 (plain F) /\ vis1 = vis /\
    (forall d, next_vertex outn par F d -> exists s, lowest F d s /\ par1 d = Some s) /\
    (forall d, ~ next_vertex outn par F d -> par1 d = par d).
  Proof.
    intros HU Hvp H. destruct (choice_ok outn F m None bfs_flags HU) as (c & U' & Ec & HU' & Hc).
    assert (Hend : forall s atts, covers F atts -> D1 par vis atts s -> dfinished s ->
       dvis s = vis /\ (forall d, next_vertex outn par F d -> exists x, lowest F d x /\ dpar s d = Some x) /\
       (forall d, ~ next_vertex outn par F d -> dpar s d = par d)).
    { intros s atts [C1 C2] HD Hf. destruct (d1_end HD Hf) as (E1 & _ & E3 & E4). split; auto. split.
      - intros d (Hp & u & Hu & Hdu). destruct (C2 u d Hu Hdu) as (a & A1 & A2 & A3 & A4).
        assert (Hv : vis d = false). { destruct (vis d) eqn:E; auto. apply Hvp in E. congruence. }
        destruct (E4 d Hv Hp) as (x & X1 & X2 & X3 & X4 & X5); [eauto|]. exists (src x). split; auto.
        destruct (C1 x X1 X2) as (Y1 & Y2 & _). rewrite X3 in Y2. split; auto. split; auto.
        intros s' Hs' Hd'. destruct (C2 s' d Hs' Hd') as (y & Z1 & Z2 & <- & Z4). now apply X5.
      - intros d Hn. apply E3. destruct (vis d) eqn:Ev; auto. right. intros a Ha Hact E. apply Hn. subst d.
        destruct (C1 a Ha Hact) as (Y1 & Y2 & _). split; [|eauto]. destruct (par (dst a)) eqn:Ep; auto. exfalso.
        assert (X : vis (dst a) = true) by (apply Hvp; congruence). congruence. }
    inversion H as [U0 Ec' |U0 big K sched Ec' HK s Hf|U0 B W M ebs sched out Ec' HB HW HM s Hf Ho]; subst;
      rewrite Ec in Ec'; injection Ec' as -> ->.
    - split; auto. split; auto. split; auto. intros d (_ & u & Hu & Hd). exfalso. exact (Hc u d Hu Hd).
    - split; auto. apply (Hend s (flat_map todo (pull_threads n outn U1 big K) ++ flat_map todo (small_threads n outn U1 big))); auto.
      + now apply pull_covers.
      + apply d1_exec. apply start_d1.
        * now apply pull_tasks.
        * now rewrite flat_map_app, !dtasks_todo.
        * intros th Hth. apply in_app_iff in Hth as [Hth|Hth]; apply dtasks_in in Hth as [-> ->]; simpl; auto.
    - split; auto. destruct Hc as [Hd Hne]. apply (Hend s (flat_map todo (chunk_threads outn U1 B (plain_bdeg B) ebs))); auto.
      + eapply chunk_covers; eauto.
      + apply d1_exec. apply start_d1.
        * now apply chunk_tasks.
        * now rewrite dtasks_todo.
        * intros th Hth. apply dtasks_in in Hth as [-> ->]; simpl; auto.
  Qed.

  (* the second edgeMap *)
  Lemma second_ok m F U par vis U2 par2 vis2 out2 : Inv n U (plain F) ->
    edgeMap_det n outn m Det_F_2 U par vis U2 par2 vis2 out2 ->
    par2 = par /\
    exists l, NoDup l /\ (forall d, In d l <-> vis d = false /\ exists s, In s F /\ In d (outn s) /\ par d = Some s) /\
      built n out2 (plain l) /\ shows tt n out2 (plain l) /\ forall d, vis2 d = true <-> vis d = true \/ In d l.
  Proof.
    intros HU H. destruct (choice_ok outn F m None bfs_flags HU) as (c & U' & Ec & HU' & Hc).
    assert (Hend : forall s atts, covers F atts -> D2 par vis atts s -> dfinished s ->
       dpar s = par /\ (forall d, (exists a, In a (dlog s) /\ dst a = d) <-> vis d = false /\ exists s, In s F /\ In d (outn s) /\ par d = Some s) /\
       (forall d, (exists a, In a (dlog s) /\ dst a = d) -> d < n)).
    { intros s atts [C1 C2] HD Hf. destruct (d2_end HD Hf) as (E1 & E2 & _). split; auto.
      assert (X : forall d, (exists a, In a (dlog s) /\ dst a = d) <-> vis d = false /\ exists s, In s F /\ In d (outn s) /\ par d = Some s).
      { intros d. rewrite E2. split.
        - intros (Hv & a & A1 & A2 & A3 & A4). split; auto. exists (src a). destruct (C1 a A1 A2) as (Y1 & Y2 & _). subst d. auto.
        - intros (Hv & u & U1 & U3 & U4). split; auto. destruct (C2 u d U1 U3) as (a & A1 & A2 & A3 & A4). exists a. subst u. auto. }
      split; auto. intros d Hd. apply X in Hd as (_ & u & Hu & Hdu & _). eapply g_out; eauto. eapply F_lt'; eauto. }
    inversion H as [U0 Ec' |U0 big K sched Ec' HK s Hf|U0 B W M ebs sched out Ec' HB HW HM s Hf Ho]; subst;
      rewrite Ec in Ec'; injection Ec' as -> ->.
    - split; auto. exists []. split; [constructor|]. split.
      + intros d. split; [easy|]. intros (_ & u & Hu & Hd & _). exact (Hc u d Hu Hd).
      + split; [split; [split; constructor|now left]|]. split; [apply shows_inv, empty_inv|]. intros d. split; auto. intros [X|[]]; auto.
    - assert (HD : D2 par vis (flat_map todo (pull_threads n outn U2 big K) ++ flat_map todo (small_threads n outn U2 big)) s).
      { apply d2_exec. apply start_d2.
        * now apply pull_tasks.
        * now rewrite flat_map_app, !dtasks_todo.
        * intros th Hth. apply in_app_iff in Hth as [Hth|Hth]; apply dtasks_in in Hth as [-> ->]; simpl; auto. }
      destruct (Hend s _ (@pull_covers F U2 HU' big K HK Hc) HD Hf) as (E1 & E2 & E3). destruct (d2_end HD Hf) as (_ & _ & E4 & _).
      split; auto. destruct (@dense_shows n (fun v => existsb (fun a => dst a =? v) (dlog s)) (fun d => exists a, In a (dlog s) /\ dst a = d)) as (l & A & A1 & A2 & A3).
      + intros v Hv. rewrite existsb_exists. split; intros (a & Ha & E); exists a; split; auto; now apply Nat.eqb_eq.
      + exact E3.
      + exists l. split; auto. split; [intros d; rewrite A1; apply E2|]. split; auto. split; auto. intros d. rewrite E4, A1. tauto.
    - destruct Hc as [Hd Hne].
      assert (HD : D2 par vis (flat_map todo (chunk_threads outn U2 B (plain_bdeg B) ebs)) s).
      { apply d2_exec. apply start_d2.
        * now apply chunk_tasks.
        * now rewrite dtasks_todo.
        * intros th Hth. apply dtasks_in in Hth as [-> ->]; simpl; auto. }
      destruct (Hend s _ (@chunk_covers F U2 HU' B W M ebs HB HW HM Hd Hne) HD Hf) as (E1 & E2 & E3). destruct (d2_end HD Hf) as (_ & _ & E4 & E5).
      assert (Hout : forall s d, s < n -> In d (outn s) -> d < n) by (intros; eapply g_out; eauto).
      destruct (@chunk_log n outn F U2 HU' Hout B W M ebs HB HW HM Hd Hne (dlog s)) as (l & A & A1 & A2 & A3).
      + intros a Ha. now apply (e_log HD).
      + apply E5. eapply chunk_pairs; eauto.
      + rewrite A2 in Ho. injection Ho as <-. split; auto. exists l. split; auto. split; [intros d; rewrite A1; apply E2|].
        split; auto. split; [apply shows_inv; now apply (built_inv tt)|]. intros d. rewrite E4, A1. tauto.
  Qed.

  (* both can be run *)
  Lemma det_progress m f F U par vis : Inv n U (plain F) ->
    exists U' par' vis' out, edgeMap_det n outn m f U par vis U' par' vis' out.
  Proof.
    intros HU. destruct (choice_ok outn F m None bfs_flags HU) as (c & U' & Ec & HU' & Hc).
    assert (Haft : forall ts, (forall th, In th ts -> exists q, In q ts /\ dafter th <> VTest) -> True) by auto.
    destruct c.
    - do 4 eexists. eapply det_nothing; eauto.
    - destruct (@dfinish_exists _ (dstart par vis (dtasks (atomic_of f) (pull_threads n outn U' (fun _ => false) 1) ++
                                          dtasks (plain_of f) (small_threads n outn U' (fun _ => false)))) (le_n _)) as [sched Hf].
      { simpl. intros th Hth. apply in_app_iff in Hth as [Hth|Hth]; apply dtasks_in in Hth as [_ ->]; destruct f; discriminate. }
      do 4 eexists. eapply det_pull with (sched := sched); eauto.
    - exfalso. unfold edgeMap_choice in Ec. simpl in Ec. destruct (vm U =? 0); [discriminate|].
      destruct (isDense U && _); [discriminate|]. destruct (toSparse U); [|discriminate].
      destruct (_ =? 0); [discriminate|]. destruct (_ && _); discriminate.
    - destruct Hc as [Hd Hne].
      destruct (@dfinish_exists _ (dstart par vis (dtasks (atomic_of f) (chunk_threads outn U' 1 (plain_bdeg 1) (fun _ => 1)))) (le_n _)) as [sched Hf].
      { simpl. intros th Hth. apply dtasks_in in Hth as [_ ->]; destruct f; discriminate. }
      assert (Hout : forall s d, s < n -> In d (outn s) -> d < n) by (intros; eapply g_out; eauto).
      set (s := dexec sched _) in Hf.
      assert (Hlog : exists out, chunk_output n outn U' 1 1 1 (plain_bdeg 1) (fun _ => 1) (dlog s) = Some out).
      { destruct f.
        - assert (HD : D1 par vis (flat_map todo (chunk_threads outn U' 1 (plain_bdeg 1) (fun _ => 1))) s).
          { apply d1_exec. apply start_d1; [now apply chunk_tasks|now rewrite dtasks_todo|].
            intros th Hth. apply dtasks_in in Hth as [-> ->]; simpl; auto. }
          rewrite (d_log HD). destruct (@chunk_log n outn F U' HU' Hout 1 1 1 (fun _ => 1) (le_n _) (le_n _) (le_n _) Hd Hne []) as (l & _ & _ & E & _).
          + easy.
          + constructor.
          + eauto.
        - assert (HD : D2 par vis (flat_map todo (chunk_threads outn U' 1 (plain_bdeg 1) (fun _ => 1))) s).
          { apply d2_exec. apply start_d2; [now apply chunk_tasks|now rewrite dtasks_todo|].
            intros th Hth. apply dtasks_in in Hth as [-> ->]; simpl; auto. }
          destruct (@chunk_log n outn F U' HU' Hout 1 1 1 (fun _ => 1) (le_n _) (le_n _) (le_n _) Hd Hne (dlog s)) as (l & _ & _ & E & _).
          + intros a Ha. now apply (e_log HD).
          + apply (d2_end HD Hf). exact (@chunk_pairs F U' HU' 1 1 1 (fun _ => 1) (le_n _) (le_n _) (le_n _) Hd Hne).
          + eauto. }
      destruct Hlog as [out Ho]. do 4 eexists. eapply det_sparse with (B := 1) (W := 1) (M := 1) (ebs := fun _ => 1) (sched := sched); eauto.
  Qed.

  (* -- the loop ------------------------------------------------------------------------- *)
  Section Loop.
    Variable m source : nat.
    Hypothesis Hsrc : source < n.
    Variable par0 : pstate.
    Variable vis0 : nat -> bool.
    Hypothesis H0 : forall v, reachable outn source v -> par0 v = None.
    Hypothesis Hvis0 : forall v, vis0 v = true <-> par0 v <> None.

    Record DInv (k : nat) (par : pstate) (vis : nat -> bool) (U : vset unit) (F : list nat) : Prop := {
      i_b : BInv n outn source par0 k par U F;
      i_v : forall v, vis v = true <-> par v <> None;
      i_low : forall v p j q, par0 v = None -> v <> source -> par v = Some p -> dist outn source p j ->
         In v (outn q) -> dist outn source q j -> p <= q }.
    Lemma start_dinv : DInv 0 (fset par0 source (Some source)) (fset vis0 source true) (vs_sparse n [(source, tt)]) [source].
    Proof.
      split.
      - now apply start_binv.
      - intros v. destruct (Nat.eq_dec v source) as [->|Hv]; [rewrite !fset_same|rewrite !fset_other by auto; auto].
        split; auto. discriminate.
      - intros v p j q Hv Hne E. rewrite fset_other in E by auto. congruence.
    Qed.
    Lemma det_advanced k par vis U F U1 par1 vis1 out1 U2 par2 vis2 out2 : DInv k par vis U F ->
      edgeMap_det n outn m Det_F U par vis U1 par1 vis1 out1 ->
      edgeMap_det n outn m Det_F_2 U1 par1 vis1 U2 par2 vis2 out2 ->
      exists F', DInv (S k) par2 vis2 out2 F'.
    Proof.
      intros HI E1 E2. pose proof (built_inv tt (b_built (i_b HI))) as HU.
      destruct (first_ok HU (i_v HI) E1) as (HU1 & -> & N1 & N2).
      destruct (second_ok HU1 E2) as (-> & l & Hnd & Hl & Hb & Hs & Hv).
      assert (Hnext : forall d, In d l <-> next_vertex outn par F d).
      { intros d. rewrite Hl. split.
        - intros (Hvd & s & S1 & S2 & _). split; [|eauto]. destruct (par d) eqn:Ep; auto. exfalso.
          assert (X : vis d = true) by (apply (i_v HI); congruence). congruence.
        - intros Hn. split.
          + destruct Hn as [Hp _]. destruct (vis d) eqn:Ev; auto. apply (i_v HI) in Ev. congruence.
          + destruct (N1 d Hn) as (s & (S1 & S2 & _) & S4). eauto. }
      assert (HA : advanced n outn par F par1 out2).
      { split; [exists l; auto|]. split; auto. intros d Hn. destruct (N1 d Hn) as (s & (S1 & S2 & _) & S4). eauto. }
      destruct (advance_binv Hsrc H0 (i_b HI) HA) as [F' HB]. exists F'. split; auto.
      - intros v. rewrite Hv, (i_v HI). destruct (in_dec Nat.eq_dec v l) as [Hin|Hin].
        + split; auto. intros _. destruct (N1 v) as (s & _ & E); [now apply Hnext|]. congruence.
        + rewrite N2 by (rewrite <- Hnext; exact Hin). tauto.
      - intros v p j q Hv0 Hne Ep Hp Hq Hdq. destruct (in_dec Nat.eq_dec v l) as [Hin|Hin].
        + apply Hnext in Hin. destruct (N1 v Hin) as (s & (S1 & S2 & S3) & E). assert (p = s) by congruence. subst s.
          assert (Hpk : dist outn source p k) by (now apply (b_F (i_b HI))). assert (j = k) by (exact (dist_inj Hp Hpk)). subst j.
          apply S3; auto. now apply (b_F (i_b HI)).
        + rewrite N2 in Ep by (rewrite <- Hnext; exact Hin). exact (i_low HI Hv0 Hne Ep Hp Hq Hdq).
    Qed.
    Lemma det_inv k par vis U : det_loop n outn m source par0 vis0 k par vis U ->
      (exists F, DInv k par vis U F) /\
      exists l, NoDup l /\ length l = k /\ forall v, In v l -> v < n /\ exists j, j < k /\ dist outn source v j.
    Proof.
      intros H. induction H as [|k par vis U U1 par1 vis1 out1 U2 par2 vis2 out2 H [[F HI] (l & Hnd & Hlen & Hl)] Hsz E1 E2].
      - split; [exists [source]; apply start_dinv|]. exists []. split; [constructor|]. split; auto. easy.
      - split; [eapply det_advanced; eauto|].
        rewrite (built_size F (b_built (i_b HI))) in Hsz. destruct F as [|f F]; [now contradiction Hsz|].
        assert (Hf : dist outn source f k) by (apply (b_F (i_b HI)); now left).
        exists (f :: l). split; [|split; simpl; auto].
        + constructor; auto. intros Hin. apply Hl in Hin as (_ & j & Hj & Hd). pose proof (dist_inj Hf Hd). lia.
        + intros v [<-|Hin].
          * split; [eapply walk_lt; eauto; apply Hf|]. exists k. split; auto.
          * apply Hl in Hin as (A & j & B & C). split; auto. exists j. split; auto.
    Qed.
    Lemma det_bound k par vis U : det_loop n outn m source par0 vis0 k par vis U -> k <= n.
    Proof.
      intros H. apply det_inv in H as [_ (l & Hnd & <- & Hl)]. rewrite <- (seq_length n 0).
      apply NoDup_incl_length; auto. intros v Hv. apply in_seq. apply Hl in Hv. lia.
    Qed.
    Lemma det_round k par vis U : det_loop n outn m source par0 vis0 k par vis U ->
      exists U1 par1 vis1 out1 U2 par2 vis2 out2, edgeMap_det n outn m Det_F U par vis U1 par1 vis1 out1 /\
        edgeMap_det n outn m Det_F_2 U1 par1 vis1 U2 par2 vis2 out2.
    Proof.
      intros H. apply det_inv in H as [[F HI] _]. pose proof (built_inv tt (b_built (i_b HI))) as HU.
      destruct (det_progress m Det_F par vis HU) as (U1 & par1 & vis1 & out1 & E1).
      destruct (first_ok HU (i_v HI) E1) as (HU1 & _).
      destruct (det_progress m Det_F_2 par1 vis1 HU1) as (U2 & par2 & vis2 & out2 & E2). do 8 eexists. eauto.
    Qed.
    Lemma det_ends : exists k par vis U, det_loop n outn m source par0 vis0 k par vis U /\ size U = 0.
    Proof.
      assert (H : forall j, j <= S n -> (exists k par vis U, det_loop n outn m source par0 vis0 k par vis U /\ size U = 0)
                \/ exists par vis U, det_loop n outn m source par0 vis0 j par vis U).
      { induction j as [|j IH]; intros Hj; [right; do 3 eexists; apply loop_start|].
        destruct IH as [H|(par & vis & U & H)]; [lia|auto|].
        destruct (Nat.eq_dec (size U) 0) as [E|E]; [left; eauto 6|].
        destruct (det_round H) as (U1 & par1 & vis1 & out1 & U2 & par2 & vis2 & out2 & E1 & E2). right. do 3 eexists. eapply loop_round; eauto. }
      destruct (H (S n) (le_n _)) as [X|(par & vis & U & X)]; auto. apply det_bound in X. lia.
    Qed.
  End Loop.
End Modes.
