(* Each traversal mode advances the frontier as specified. *)
From Verif Require Import Base ListUtil VSModel VSSpec VSProofs EMModel EMSpec EMProofs EMPar.

Lemma dense_shows n (next : nat -> bool) (P : nat -> Prop) :
  (forall v, v < n -> (next v = true <-> P v)) -> (forall v, P v -> v < n) ->
  exists l, NoDup l /\ (forall d, In d l <-> P d) /\
    built n (vs_dense n (map (fun v => (next v, tt)) (seq 0 n))) (plain l) /\
    shows tt n (vs_dense n (map (fun v => (next v, tt)) (seq 0 n))) (plain l).
Proof.
  intros H1 H2. exists (filter next (seq 0 n)).
  assert (Hin : forall d, In d (filter next (seq 0 n)) <-> P d).
  { intros d. rewrite filter_In, in_seq. split.
    - intros [Hd Hn]. apply H1; auto. lia.
    - intros Hd. pose proof (H2 d Hd). split; [lia|]. now apply H1. }
  assert (Hnd : NoDup (filter next (seq 0 n))) by apply NoDup_filter, seq_NoDup.
  split; auto. split; auto.
  assert (Hb : built n (vs_dense n (map (fun v => (next v, tt)) (seq 0 n))) (plain (filter next (seq 0 n)))).
  2:{ split; auto. apply shows_inv. now apply (built_inv tt). }
  split.
  - split.
    + unfold plain. now rewrite map_map, map_id.
    + unfold plain. apply Forall_map. apply Forall_forall. intros d Hd. simpl. now apply H2, Hin.
  - right. right. eexists. split; [|split; [|left; reflexivity]].
    + now rewrite map_length, seq_length.
    + intros v []. rewrite (stored_nth tt), map_length, seq_length. unfold plain. rewrite in_map_iff. split.
      * intros [Hv E]. rewrite nth_map_seq in E by auto. exists v. split; auto. apply Hin, H1; auto. congruence.
      * intros (d & E & Hd). injection E as ->. apply Hin in Hd. pose proof (H2 _ Hd). split; auto.
        rewrite nth_map_seq by auto. f_equal. now apply H1.
Qed.

Lemma in_plain l v : In v (map fst (plain l)) <-> In v l.
Proof. unfold plain. now rewrite map_map, map_id. Qed.

Section Modes.
  Variable n : nat.
  Variable outn inn : nat -> list nat.
  Hypothesis G : graph_ok n outn inn.
  Variable F : list nat.
  Variable U : vset unit.
  Hypothesis HU : Inv n U (plain F).
  Variable par : pstate.

  Lemma F_lt s : In s F -> s < n.
  Proof.
    intros H. destruct (i_sub HU) as [_ Hf]. rewrite Forall_forall in Hf. apply (Hf (s, tt)).
    unfold plain. apply in_map_iff. eauto.
  Qed.
  Lemma next_lt d : next_vertex outn par F d -> d < n.
  Proof. intros (_ & s & H1 & H2). eapply g_out; eauto using F_lt. Qed.

  Lemma isIn_F : isDense U = true -> forall s, s < n -> isIn tt U s = true <-> In s F.
  Proof.
    intros Hd s Hs. rewrite <- (in_plain F s). apply (@isIn_stored unit tt n U (plain F) s); auto. now apply (i_dd HU).
  Qed.

  (* -- nothing to do ------------------------------------------------------------- *)
  Lemma nothing_ok : (forall d, ~ next_vertex outn par F d) -> advanced n outn par F par (vs_empty n).
  Proof.
    intros H. split; [|split]; auto.
    - exists []. split; [constructor|]. split.
      + intros d. simpl. split; [easy|]. apply H.
      + split; [|apply shows_inv; apply empty_inv]. split; [split; constructor|]. now left.
    - intros d Hd. now apply H in Hd.
  Qed.

  (* -- pull ------------------------------------------------------------------------ *)
  Lemma pull_loop_find l : pull_loop U l None false
    = match find (fun s => isIn tt U s) l with Some s => (Some s, true) | None => (None, false) end.
  Proof. induction l as [|s l IH]; simpl; auto. destruct (isIn tt U s); auto. Qed.

  Lemma combine_seq_In {A} (l : list A) i j x : In (j, x) (combine (seq i (length l)) l) <-> (i <= j /\ nth_error l (j - i) = Some x).
  Proof.
    revert i; induction l as [|y l IH]; intros i; simpl.
    - split; [easy|]. intros [_ H]. destruct (j - i); discriminate.
    - rewrite IH. split.
      + intros [E|[H1 H2]].
        * injection E as -> ->. rewrite Nat.sub_diag. auto.
        * split; [lia|]. replace (j - i) with (S (j - S i)) by lia. exact H2.
      + intros [H1 H2]. destruct (Nat.eq_dec i j) as [->|Hn].
        * rewrite Nat.sub_diag in H2. injection H2 as ->. auto.
        * right. split; [lia|]. replace (j - i) with (S (j - S i)) in H2 by lia. exact H2.
  Qed.

  Lemma chunk_cover {A} (l : list A) K x : 1 <= K -> In x l ->
    exists b, b < length l / K + 1 /\ In x (firstn K (skipn (b * K) l)).
  Proof.
    intros HK Hx. apply In_nth_error in Hx as [j Hj].
    assert (Hlt : j < length l) by (apply nth_error_Some; congruence).
    exists (j / K). split.
    - pose proof (Nat.div_le_mono j (length l) K ltac:(lia) ltac:(lia)). lia.
    - pose proof (Nat.div_mod j K ltac:(lia)) as E. pose proof (Nat.mod_upper_bound j K ltac:(lia)) as Hm.
      apply nth_error_In with (n := j mod K).
      assert (E1 : nth_error (skipn (j / K * K) l) (j mod K) = Some x).
      { rewrite <- Hj. rewrite nth_error_skipn'. f_equal. lia. }
      rewrite <- E1. apply nth_error_firstn'. auto.
  Qed.

  Section Pull.
    Variable big : nat -> bool.
    Variable K : nat.
    Hypothesis HK : 1 <= K.
    Hypothesis Hd : isDense U = true.
    Notation ts := (pull_threads n inn U big K).

    Lemma pull_atts a : In a (flat_map todo ts) ->
      big (dst a) = true /\ dst a < n /\ In (src a) (inn (dst a)) /\ active a = isIn tt U (src a).
    Proof.
      rewrite in_flat_map. intros (th & Hth & Ha). unfold pull_threads in Hth.
      apply in_flat_map in Hth as (v & Hv & Hth). apply in_seq in Hv. destruct (big v) eqn:Eb; [|easy].
      apply in_map_iff in Hth as (b & <- & Hb). simpl in Ha. apply in_map_iff in Ha as ([j s] & <- & Hjs). simpl.
      repeat split; auto; [lia|].
      assert (Hin : In (j, s) (combine (seq 0 (length (inn v))) (inn v))).
      { rewrite <- (firstn_skipn (b * K) (combine _ _)). apply in_app_iff. right.
        rewrite <- (firstn_skipn K (skipn _ _)). apply in_app_iff. auto. }
      apply combine_seq_In in Hin as [_ Hin]. eapply nth_error_In; eauto.
    Qed.
    Lemma pull_atts_cover v s : v < n -> big v = true -> In s (inn v) -> isIn tt U s = true ->
      exists a, In a (flat_map todo ts) /\ active a = true /\ dst a = v.
    Proof.
      intros Hv Hb Hs Hi. apply In_nth_error in Hs as [j Hj].
      assert (Hin : In (j, s) (combine (seq 0 (length (inn v))) (inn v))).
      { apply combine_seq_In. rewrite Nat.sub_0_r. split; auto. lia. }
      destruct (@chunk_cover _ _ K _ HK Hin) as (b & Hbb & Hin').
      exists {| tag := (v, j); src := s; dst := v; active := isIn tt U s |}. split; [|auto].
      apply in_flat_map. eexists. split.
      - unfold pull_threads. apply in_flat_map. exists v. split; [apply in_seq; lia|]. rewrite Hb.
        apply in_map_iff. exists b. split; [reflexivity|]. apply in_seq.
        rewrite combine_length, seq_length, Nat.min_id in Hbb. lia.
      - simpl. apply in_map_iff. exists (j, s). split; auto.
    Qed.
    Lemma pull_fresh : fresh_threads ts.
    Proof.
      intros th Hth. unfold pull_threads in Hth. apply in_flat_map in Hth as (v & Hv & Hth).
      destruct (big v); [|easy]. apply in_map_iff in Hth as (b & <- & Hb). simpl. split; auto.
      intros _ x y Hx Hy. apply in_map_iff in Hx as (? & <- & _). apply in_map_iff in Hy as (? & <- & _). auto.
    Qed.

    Lemma pull_ok sched : let s := eexec sched (estart par ts) in finished s ->
      advanced n outn par F (pull_par n inn U big par s) (pull_output n inn U big par s).
    Proof.
      intros s Hfin. pose proof (fin_inv par pull_fresh sched) as HE. fold s in HE.
      assert (Hin : forall v, v < n -> next_vertex outn par F v <-> par v = None /\ exists u, In u (inn v) /\ isIn tt U u = true).
      { intros v Hv. unfold next_vertex. split; intros [H0 (u & H1 & H2)]; split; auto; exists u.
        - assert (u < n) by now apply F_lt. split; [now apply (@g_dual n outn inn G u v)|]. now apply isIn_F.
        - assert (u < n) by (eapply g_in; eauto). split; [now apply isIn_F in H2|]. now apply (@g_dual n outn inn G u v). }
      assert (Hbig : forall v, v < n -> big v = true ->
         ((exists a, In a (elog s) /\ dst a = v) <-> next_vertex outn par F v)).
      { intros v Hv Hb. unfold s. rewrite (fin_logged par pull_fresh sched Hfin). rewrite Hin by auto. split.
        - intros (H0 & a & Ha & Hact & <-). split; auto. apply pull_atts in Ha as (_ & _ & A3 & A4).
          exists (src a). split; auto. congruence.
        - intros (H0 & u & Hu1 & Hu2). split; auto. eapply pull_atts_cover; eauto. }
      assert (Hsmall : forall v, v < n ->
         (snd (pull_vertex inn U par v) = true <-> next_vertex outn par F v) /\
         (next_vertex outn par F v -> exists u, In u F /\ In v (outn u) /\ fst (pull_vertex inn U par v) = Some u) /\
         (~ next_vertex outn par F v -> fst (pull_vertex inn U par v) = par v)).
      { intros v Hv. rewrite Hin by auto. unfold pull_vertex. destruct (par v) as [p|] eqn:Ep; simpl.
        - split; [split; [discriminate|intros [? _]; discriminate]|]. split; auto. intros [? _]; discriminate.
        - rewrite pull_loop_find. destruct (find (fun s0 => isIn tt U s0) (inn v)) as [u|] eqn:Ef; simpl.
          + apply find_some in Ef as [Ef1 Ef2]. split; [split; eauto|]. split.
            * intros _. exists u. assert (u < n) by (eapply g_in; eauto).
              split; [now apply isIn_F|]. split; auto. now apply (@g_dual n outn inn G u v).
            * intros H. exfalso. apply H. eauto.
          + assert (Hno : ~ exists u, In u (inn v) /\ isIn tt U u = true).
            { intros (u & H1 & H2). pose proof (find_none _ _ Ef u H1) as H3. simpl in H3. congruence. }
            split; [split; [discriminate|intros [_ H]; contradiction]|]. split; auto. intros [_ H]; contradiction. }
      assert (Hpar : forall v, v < n -> pull_par n inn U big par s v
          = if big v then epar s v else fst (pull_vertex inn U par v)).
      { intros v Hv. unfold pull_par. now rewrite (proj2 (Nat.ltb_lt _ _) Hv). }
      split; [|split].
      - apply dense_shows; [|intros; now apply next_lt].
        intros v Hv. destruct (big v) eqn:Eb; [|now apply Hsmall].
        rewrite <- Hbig by auto. rewrite existsb_exists. split; intros (a & Ha & E); exists a; split; auto.
        * now apply Nat.eqb_eq.
        * now apply Nat.eqb_eq.
      - intros v Hn. assert (Hv : v < n) by now apply next_lt. rewrite Hpar by auto.
        destruct (big v) eqn:Eb; [|now apply Hsmall].
        apply Hbig in Hn as (a & Ha & <-); auto. destruct (e_log HE a Ha) as (A1 & A2 & A3 & A4).
        apply pull_atts in A1 as (_ & _ & B3 & B4). assert (src a < n) by (eapply g_in; eauto).
        exists (src a). rewrite A2 in B4. split; [now apply isIn_F|]. split; auto. now apply (g_dual G).
      - intros v Hn. unfold pull_par. destruct (Nat.ltb_spec v n) as [Hv|Hv]; auto.
        destruct (big v) eqn:Eb; [|now apply Hsmall].
        unfold s. apply fin_par; auto using pull_fresh. intros a Ha E. apply Hn. apply Hbig; eauto.
    Qed.
  End Pull.

  (* a helper for the two push modes: the attempts are exactly the frontier edges *)
  Lemma push_par ts sched : fresh_threads ts ->
    (forall a, In a (flat_map todo ts) -> In (src a) F /\ In (dst a) (outn (src a)) /\ active a = true) ->
    (forall u d, In u F -> In d (outn u) -> exists a, In a (flat_map todo ts) /\ dst a = d) ->
    let s := eexec sched (estart par ts) in finished s ->
    (forall d, (exists a, In a (elog s) /\ dst a = d) <-> next_vertex outn par F d) /\
    (forall d, next_vertex outn par F d -> exists u, In u F /\ In d (outn u) /\ epar s d = Some u) /\
    (forall d, ~ next_vertex outn par F d -> epar s d = par d).
  Proof.
    intros Hf H1 H2 s Hfin. pose proof (fin_inv par Hf sched) as HE. fold s in HE.
    assert (Hlog : forall d, (exists a, In a (elog s) /\ dst a = d) <-> next_vertex outn par F d).
    { intros d. unfold s. rewrite (fin_logged par Hf sched Hfin). unfold next_vertex. split.
      - intros (H0 & a & Ha & _ & <-). split; auto. apply H1 in Ha as (A1 & A2 & _). eauto.
      - intros (H0 & u & Hu1 & Hu2). split; auto. destruct (H2 u d Hu1 Hu2) as (a & Ha & E).
        exists a. repeat split; auto. now apply H1. }
    split; [exact Hlog|]. split.
    - intros d Hd. apply Hlog in Hd as (a & Ha & <-). destruct (e_log HE a Ha) as (A1 & A2 & A3 & A4).
      apply H1 in A1 as (B1 & B2 & _). eauto.
    - intros d Hd. unfold s. apply fin_par; auto. intros a Ha E. apply Hd. apply Hlog. eauto.
  Qed.

  (* -- dense forward ----------------------------------------------------------------- *)
  Lemma forward_ok sched : isDense U = true ->
    let s := eexec sched (estart par (forward_threads n outn U)) in finished s ->
    advanced n outn par F (epar s) (forward_output n s).
  Proof.
    intros Hd s Hfin.
    assert (Hthr : forall th, In th (forward_threads n outn U) -> exists u j d, In u F /\ nth_error (outn u) j = Some d /\
       th = {| breaks := false; todo := [{| tag := (u, j); src := u; dst := d; active := true |}]; pcs := Test |}).
    { intros th H. unfold forward_threads in H. apply in_flat_map in H as (u & Hu & H). apply in_seq in Hu.
      destruct (isIn tt U u) eqn:Eu; [|easy]. apply in_map_iff in H as ([j d] & <- & Hj).
      apply combine_seq_In in Hj as [_ Hj]. rewrite Nat.sub_0_r in Hj. exists u, j, d.
      split; [apply isIn_F; auto; lia|]. split; auto. }
    destruct (@push_par (forward_threads n outn U) sched) as (P1 & P2 & P3); auto.
    - intros th H. apply Hthr in H as (u & j & d & _ & _ & ->). split; auto. discriminate.
    - intros a Ha. apply in_flat_map in Ha as (th & Hth & Ha). apply Hthr in Hth as (u & j & d & H1 & H2 & ->).
      simpl in Ha. destruct Ha as [<-|[]]. simpl. split; auto. split; auto. eapply nth_error_In; eauto.
    - intros u d Hu Hdn. apply In_nth_error in Hdn as [j Hj].
      exists {| tag := (u, j); src := u; dst := d; active := true |}. split; auto.
      apply in_flat_map. eexists. split.
      + unfold forward_threads. apply in_flat_map. exists u. pose proof (F_lt _ Hu). split; [apply in_seq; lia|].
        rewrite (proj2 (isIn_F Hd H) Hu). apply in_map_iff. exists (j, d). split; [reflexivity|].
        apply combine_seq_In. rewrite Nat.sub_0_r. split; auto. lia.
      + simpl. auto.
    - split; [|split; auto]. apply dense_shows; [|intros; now apply next_lt].
      intros v Hv. rewrite <- P1, existsb_exists. fold s. split; intros (a & Ha & E); exists a; split; auto.
      + now apply Nat.eqb_eq.
      + now apply Nat.eqb_eq.
  Qed.

  (* -- chunked sparse --------------------------------------------------------------- *)
  Lemma all_edges_In {X} (nghs : list (list X)) i j x :
    In (i, j, x) (all_edges nghs) <-> i < length nghs /\ nth_error (nth i nghs []) j = Some x.
  Proof.
    unfold all_edges. rewrite in_flat_map.
    assert (Hc : forall i' (L : list X), In (i, j, x) (combine (map (fun j => (i', j)) (seq 0 (length L))) L) <-> i' = i /\ nth_error L j = Some x).
    { intros i' L.
      assert (E : combine (map (fun j => (i', j)) (seq 0 (length L))) L
                = map (fun p => (i', fst p, snd p)) (combine (seq 0 (length L)) L)).
      { generalize (seq 0 (length L)). intros S0. revert L. induction S0 as [|q S0 IH]; intros [|y L]; simpl; auto. now rewrite IH. }
      rewrite E, in_map_iff. split.
      - intros ([j' x'] & E' & H). simpl in E'. injection E' as -> -> ->. apply combine_seq_In in H as [_ H].
        rewrite Nat.sub_0_r in H. auto.
      - intros [-> H]. exists (j, x). split; auto. apply combine_seq_In. rewrite Nat.sub_0_r. split; auto. lia. }
    split.
    - intros (i' & Hi & H). apply in_seq in Hi. apply Hc in H as [-> H]. split; auto. lia.
    - intros [Hi H]. exists i. split; [apply in_seq; lia|]. now apply Hc.
  Qed.

  Lemma all_edges_tags {X} (nghs : list (list X)) : NoDup (map fst (all_edges nghs)).
  Proof.
    unfold all_edges. assert (H : NoDup (seq 0 (length nghs))) by apply seq_NoDup. revert H.
    generalize (seq 0 (length nghs)). intros S0. induction S0 as [|i S0 IH]; intros Hs; simpl; [constructor|].
    inversion Hs; subst. rewrite map_app. apply NoDup_app_iff.
    assert (E0 : forall (Q : list (nat * nat)) (L : list X), length Q = length L -> map fst (combine Q L) = Q).
    { induction Q as [|q Q IHQ]; intros [|x L] H; simpl in *; try discriminate; auto. f_equal. apply IHQ. lia. }
    assert (E : forall (i' : nat) (L : list X), map fst (combine (map (fun j => (i', j)) (seq 0 (length L))) L) = map (fun j => (i', j)) (seq 0 (length L))).
    { intros i' L. apply E0. now rewrite map_length, seq_length. }
    rewrite E. split; [|split].
    - apply FinFun.Injective_map_NoDup; [|apply seq_NoDup]. intros a b Hab. congruence.
    - now apply IH.
    - intros [i1 j1] Ha Hb. apply in_map_iff in Ha as (? & E1 & _). injection E1 as <- <-.
      apply in_map_iff in Hb as (e & E2 & He). apply in_flat_map in He as (i2 & Hi2 & He).
      apply (in_map fst) in He. rewrite E in He. apply in_map_iff in He as (? & E3 & _). congruence.
  Qed.

  Section Sparse.
    Variable B W M : nat.
    Variable bdeg : nat -> nat -> nat.
    Variable ebs : nat -> nat.
    Hypothesis HB : 1 <= B.
    Hypothesis HW : B <= W.
    Hypothesis HM : W <= M.
    Hypothesis Hd : isDense U = false.
    Notation nghs := (sparse_nghs outn U).
    Hypothesis Htot : 0 < outEdgeCount B bdeg nghs.
    Notation ts := (chunk_threads outn U B bdeg ebs).
    Definition to_att (e : nat * nat * nat) : attempt :=
      {| tag := fst e; src := fst (nth (fst (fst e)) (vs U) (0, tt)); dst := snd e; active := true |}.

    Lemma chunk_atts : flat_map todo ts = map to_att (all_edges nghs).
    Proof.
      rewrite <- (processed_all bdeg ebs nghs HB (ng_pos bdeg ebs nghs HB HW HM Htot)). unfold chunk_threads, processed.
      generalize (seq 0 (n_groups B bdeg ebs nghs)). intros L. induction L as [|g L IH]; simpl; auto.
      now rewrite IH, map_app.
    Qed.
    Lemma vs_perm : Permutation (vs U) (plain F).
    Proof. now apply (i_ss HU). Qed.
    Lemma nghs_len : length nghs = vm U.
    Proof. unfold sparse_nghs. now rewrite map_length, seq_length. Qed.
    Lemma nghs_nth i : i < vm U -> nth i nghs [] = outn (fst (nth i (vs U) (0, tt))).
    Proof. intros H. unfold sparse_nghs. now rewrite nth_map_seq. Qed.
    Lemma vs_len : length (vs U) = vm U.
    Proof. rewrite (i_m HU). apply Permutation_length, vs_perm. Qed.
    Lemma vtx_F i : i < vm U -> In (fst (nth i (vs U) (0, tt))) F.
    Proof.
      intros H. apply in_plain. apply in_map. apply Permutation_in with (vs U); [apply vs_perm|].
      apply nth_In. now rewrite vs_len.
    Qed.
    Lemma F_vtx u : In u F -> exists i, i < vm U /\ fst (nth i (vs U) (0, tt)) = u.
    Proof.
      intros H. assert (Hp : In (u, tt) (vs U)).
      { apply Permutation_in with (plain F); [apply Permutation_sym, vs_perm|]. apply in_map_iff. eauto. }
      apply In_nth with (d := (0, tt)) in Hp as (i & Hi & E). exists i. rewrite vs_len in Hi. split; auto. now rewrite E.
    Qed.

    Lemma chunk_ok sched : let s := eexec sched (estart par ts) in finished s ->
      exists out, chunk_output n outn U B W M bdeg ebs (elog s) = Some out /\ advanced n outn par F (epar s) out.
    Proof.
      intros s Hfin.
      assert (Hfr : fresh_threads ts).
      { intros th H. unfold chunk_threads in H. apply in_map_iff in H as (g & <- & _). simpl. split; auto. discriminate. }
      pose proof (fin_inv par Hfr sched) as HE. fold s in HE.
      destruct (push_par sched Hfr) as (P1 & P2 & P3); auto.
      - intros a Ha. rewrite chunk_atts in Ha. apply in_map_iff in Ha as ([[i j] x] & <- & He). simpl.
        apply all_edges_In in He as [Hi He]. rewrite nghs_len in Hi. rewrite nghs_nth in He by auto.
        split; [now apply vtx_F|]. split; auto. eapply nth_error_In; eauto.
      - intros u d Hu Hdd. destruct (F_vtx u Hu) as (i & Hi & E). apply In_nth_error in Hdd as [j Hj].
        exists (to_att (i, j, d)). split; auto. rewrite chunk_atts. apply in_map. apply all_edges_In.
        rewrite nghs_len, nghs_nth, E; auto.
      - fold s in P1, P2, P3. unfold chunk_output. rewrite chunked_run by auto.
        rewrite (processed_all bdeg ebs nghs HB (ng_pos bdeg ebs nghs HB HW HM Htot)). simpl. eexists. split; [reflexivity|].
        set (L := filter (fun e => logged (elog s) (fst (fst e)) (snd (fst e))) (all_edges nghs)).
        assert (EL : successes (chunk_answer (elog s)) (all_edges nghs) = plain (map snd L)).
        { unfold L, successes, chunk_answer, plain. generalize (all_edges nghs). intros es.
          induction es as [|[[i j] x] es IH]; simpl; auto. destruct (logged (elog s) i j); simpl; now rewrite IH. }
        rewrite EL.
        (* edges of L and log entries *)
        assert (HLog : forall e, In e (all_edges nghs) -> logged (elog s) (fst (fst e)) (snd (fst e)) = true -> In (to_att e) (elog s)).
        { intros [[i j] x] He Hl. simpl in Hl. unfold logged in Hl. apply existsb_exists in Hl as (a & Ha & E).
          apply andb_true_iff in E as [E1 E2]. apply Nat.eqb_eq in E1, E2.
          destruct (e_log HE a Ha) as (A1 & _). rewrite chunk_atts in A1. apply in_map_iff in A1 as ([[i' j'] x'] & <- & He').
          simpl in E1, E2. subst i' j'. apply all_edges_In in He as [_ He]. apply all_edges_In in He' as [_ He'].
          assert (x' = x) by congruence. now subst. }
        assert (HLog' : forall a, In a (elog s) -> In (dst a) (map snd L)).
        { intros a Ha. destruct (e_log HE a Ha) as (A1 & _). rewrite chunk_atts in A1.
          apply in_map_iff in A1 as ([[i j] x] & <- & He). apply in_map_iff. exists (i, j, x). split; auto.
          apply filter_In. split; auto. simpl. unfold logged. apply existsb_exists. eexists. split; [exact Ha|].
          simpl. now rewrite !Nat.eqb_refl. }
        assert (HLin : forall d, In d (map snd L) <-> next_vertex outn par F d).
        { intros d. rewrite <- P1. rewrite in_map_iff. split.
          - intros (e & <- & He). apply filter_In in He as [He Hl]. exists (to_att e). split; auto.
          - intros (a & Ha & <-). apply HLog' in Ha. now apply in_map_iff in Ha. }
        assert (HLnd : NoDup (map snd L)).
        { assert (Ht : NoDup (map fst L)).
          { pose proof (all_edges_tags nghs) as Ht. unfold L. clear -Ht. induction (all_edges nghs) as [|e es IH]; simpl; [constructor|].
            inversion Ht; subst. destruct (logged _ _ _); simpl; auto. constructor; auto.
            rewrite in_map_iff. intros (e' & E & He'). apply filter_In in He'. apply H1. rewrite <- E. now apply in_map. }
          assert (Hall : forall e, In e L -> In (to_att e) (elog s)).
          { intros e He. apply filter_In in He as [He Hl]. auto. }
          pose proof (e_nd HE) as Hnd. clear -Ht Hall Hnd. induction L as [|e L IH]; simpl; [constructor|].
          simpl in Ht. inversion Ht; subst. constructor; [|apply IH; auto; intros; apply Hall; now right].
          rewrite in_map_iff. intros (e' & E & He').
          assert (Ha : In (to_att e) (elog s)) by (apply Hall; now left).
          assert (Hb : In (to_att e') (elog s)) by (apply Hall; now right).
          assert (Heq : to_att e = to_att e').
          { revert Ha Hb Hnd. generalize (elog s). intros lg. clear -E.
            assert (Hde : dst (to_att e) = dst (to_att e')) by (simpl; auto).
            revert Hde. generalize (to_att e), (to_att e'). intros a b Hde. clear -Hde. induction lg as [|c lg IH]; simpl; [easy|].
            intros H1 H2 H3. inversion H3; subst. destruct H1 as [->|H1], H2 as [->|H2]; auto.
            - exfalso. apply H4. rewrite Hde. now apply in_map.
            - exfalso. apply H4. rewrite <- Hde. now apply in_map. }
          apply H1. apply in_map_iff. exists e'. split; auto. unfold to_att in Heq. congruence. }
        split; [|split; auto]. exists (map snd L). split; auto. split; auto.
        assert (Hsub : subset_of n (plain (map snd L))).
        2:{ split; [split; auto|]. apply shows_inv. now apply sparse_inv. }
        split.
        + unfold plain. now rewrite map_map, map_id.
        + unfold plain. apply Forall_map. apply Forall_forall. intros d Hdd. simpl. now apply next_lt, HLin.
    Qed.
  End Sparse.
End Modes.
