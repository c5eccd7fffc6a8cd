(* Proofs about BFS and BFS-based connectivity. *)
From Verif Require Import Base ListUtil VSModel VSSpec VSProofs EMModel EMSpec EMPar EMModes EMProps EMPush FAModel FASpec.

(* -- one edgeMap ----------------------------------------------------------------- *)
Lemma visit_advanced n outn inn F U par par' U' m thr fl :
  graph_ok n outn inn -> built n U (plain F) -> edgeMap_visit n outn inn m thr fl U par par' U' ->
  advanced n outn par F par' U'.
Proof.
  intros G Hb Hv. destruct (@C17_edgeMap n outn inn F U [] U par m thr fl G Hb eq_refl) as (c & U1 & Ec & Hc).
  inversion Hv; subst.
  - rewrite Ec in H. injection H as -> ->. auto.
  - rewrite Ec in H. injection H as -> ->. now apply Hc.
  - rewrite Ec in H. injection H as -> ->. now apply Hc.
  - rewrite Ec in H. injection H as -> ->. edestruct Hc as (out' & E & Ha); eauto. fold s in E, Ha. congruence.
Qed.

(* a schedule that finishes *)
Definition full_schedule (ts : list tthread) : list nat :=
  flat_map (fun t => repeat t (2 * length (todo (nth t ts {| breaks := false; todo := []; pcs := Test |})))) (seq 0 (length ts)).
Lemma count_full {A} (f : nat -> nat) (l : list A) t : t < length l ->
  f t <= count_occ Nat.eq_dec (flat_map (fun t => repeat t (f t)) (seq 0 (length l))) t.
Proof.
  intros Ht. assert (Hin : In t (seq 0 (length l))) by (apply in_seq; lia). induction (seq 0 (length l)) as [|u L IH]; [destruct Hin|].
  simpl. rewrite count_occ_app. destruct Hin as [->|Hin]; [|apply IH in Hin; lia].
  enough (count_occ Nat.eq_dec (repeat t (f t)) t = f t) by lia.
  generalize (f t). intros q. induction q as [|q IHq]; simpl; auto. destruct (Nat.eq_dec t t); congruence.
Qed.
Lemma full_finishes par ts : (forall th, In th ts -> pcs th = Test) -> finished (eexec (full_schedule ts) (estart par ts)).
Proof.
  intros H. apply C17_terminates; auto. intros t th Ht.
  assert (Hlt : t < length ts) by (apply nth_error_Some; congruence).
  pose proof (count_full (fun t => 2 * length (todo (nth t ts {| breaks := false; todo := []; pcs := Test |}))) ts Hlt) as Hc.
  simpl in Hc. erewrite nth_error_nth in Hc by eauto. unfold full_schedule. exact Hc.
Qed.
Lemma forward_test n outn U th : In th (forward_threads n outn U) -> pcs th = Test.
Proof.
  unfold forward_threads. intros H. apply in_flat_map in H as (u & _ & H). destruct (isIn tt U u); [|easy].
  apply in_map_iff in H as (? & <- & _). auto.
Qed.
Lemma chunk_test outn U B bdeg ebs th : In th (chunk_threads outn U B bdeg ebs) -> pcs th = Test.
Proof. unfold chunk_threads. intros H. apply in_map_iff in H as (? & <- & _). auto. Qed.
Lemma pull_test n inn U big K th : In th (pull_threads n inn U big K) -> pcs th = Test.
Proof.
  unfold pull_threads. intros H. apply in_flat_map in H as (v & _ & H). destruct (big v); [|easy].
  apply in_map_iff in H as (? & <- & _). auto.
Qed.

Lemma visit_progress n outn inn F U par m thr fl :
  graph_ok n outn inn -> built n U (plain F) -> exists par' U', edgeMap_visit n outn inn m thr fl U par par' U'.
Proof.
  intros G Hb. destruct (@C17_edgeMap n outn inn F U [] U par m thr fl G Hb eq_refl) as (c & U1 & Ec & Hc). destruct c.
  - do 2 eexists. eapply visit_nothing; eauto.
  - do 2 eexists. eapply visit_pull with (big := fun _ => false) (K := 1); eauto. apply full_finishes. intros th. apply pull_test.
  - do 2 eexists. eapply visit_forward; eauto. apply full_finishes. intros th. apply forward_test.
  - pose proof (@full_finishes par (chunk_threads outn U1 1 (plain_bdeg 1) (fun _ => 1)) (@chunk_test _ _ _ _ _)) as Hf.
    destruct (Hc 1 1 1 (fun _ => 1) _ (le_n _) (le_n _) (le_n _) Hf) as (out & E & _).
    do 2 eexists. eapply visit_sparse; eauto.
Qed.

Lemma built_size n (U : vset unit) F : built n U (plain F) -> size U = length F.
Proof.
  intros Hb. apply (built_inv tt) in Hb. destruct (shows_inv tt Hb) as (_ & H & _).
  rewrite H. unfold plain. apply map_length.
Qed.
Lemma built_lt n (U : vset unit) F v : built n U (plain F) -> In v F -> v < n.
Proof.
  intros [[_ H] _] Hv. rewrite Forall_forall in H. apply (H (v, tt)). unfold plain. apply in_map_iff. eauto.
Qed.

(* -- walks -------------------------------------------------------------------------- *)
Section Walks.
  Variable n : nat.
  Variable outn inn : nat -> list nat.
  Hypothesis G : graph_ok n outn inn.
  Lemma walk_lt u k v : u < n -> walk outn u k v -> v < n.
  Proof. intros Hu H. induction H; auto. eapply g_out; eauto. Qed.
  Lemma walk_app u k v j w : walk outn u k v -> walk outn v j w -> walk outn u (k + j) w.
  Proof.
    intros H1 H2. induction H2; [now rewrite Nat.add_0_r|]. rewrite Nat.add_succ_r. econstructor; eauto.
  Qed.
  Lemma walk_1 u v : In v (outn u) -> walk outn u 1 v.
  Proof. intros H. econstructor; eauto. constructor. Qed.
  Lemma reach_trans u v w : reachable outn u v -> reachable outn v w -> reachable outn u w.
  Proof. intros [k H1] [j H2]. exists (k + j). eapply walk_app; eauto. Qed.
  Lemma reach_refl u : reachable outn u u.
  Proof. exists 0. constructor. Qed.
  Lemma dist_inj u v k j : dist outn u v k -> dist outn u v j -> k = j.
  Proof.
    intros [H1 H2] [H3 H4]. destruct (Nat.lt_trichotomy k j) as [H|[H|H]]; auto; exfalso; [now apply (H4 k)|now apply (H2 j)].
  Qed.
End Walks.

(* -- the loop ----------------------------------------------------------------------- *)
Section Bfs.
  Variable n : nat.
  Variable outn inn : nat -> list nat.
  Hypothesis G : graph_ok n outn inn.
  Variable m src : nat.
  Hypothesis Hsrc : src < n.
  Variable par0 : pstate.
  Hypothesis H0 : forall v, reachable outn src v -> par0 v = None.

  Record BInv (k : nat) (par : pstate) (U : vset unit) (F : list nat) : Prop := {
    b_built : built n U (plain F);
    b_F : forall v, In v F <-> dist outn src v k;
    b_vis : forall v, par v <> None <-> par0 v <> None \/ exists j, j <= k /\ walk outn src j v;
    b_par : forall v p, par0 v = None -> par v = Some p ->
        v = src /\ p = src \/ In v (outn p) /\ exists j, dist outn src p j /\ dist outn src v (S j);
    b_keep : forall v, par0 v <> None -> par v = par0 v;
    b_src : par src = Some src }.

  Lemma start_binv : BInv 0 (fset par0 src (Some src)) (vs_sparse n [(src, tt)]) [src].
  Proof.
    assert (Hs0 : par0 src = None) by apply H0, reach_refl.
    split.
    - split; [|now right; left]. split; simpl; repeat constructor; auto.
    - intros v. simpl. split.
      + intros [<-|[]]. split; [constructor|lia].
      + intros [H _]. inversion H. auto.
    - intros v. destruct (Nat.eq_dec v src) as [->|Hv].
      + rewrite fset_same. split; [|discriminate]. intros _. right. exists 0. split; auto. constructor.
      + rewrite fset_other by auto. split; auto. intros [H|(j & Hj & H)]; auto.
        assert (j = 0) by lia. subst. inversion H. congruence.
    - intros v p Hv. destruct (Nat.eq_dec v src) as [->|Hn]; [rewrite fset_same|rewrite fset_other by auto; congruence].
      intros E. injection E as <-. auto.
    - intros v Hv. rewrite fset_other; auto. congruence.
    - apply fset_same.
  Qed.

  Lemma advance_binv k par U F par' U' : BInv k par U F -> advanced n outn par F par' U' ->
    exists F', BInv (S k) par' U' F'.
  Proof.
    intros [Hb HF Hvis Hp Hk Hs] ((l & Hnd & Hl & Hb' & _) & HA & HN).
    assert (Hnext : forall d, next_vertex outn par F d <-> dist outn src d (S k)).
    { intros d. split.
      - intros (Hd & s & Hs1 & Hs2). apply HF in Hs1 as [Hs1 _]. split; [econstructor; eauto|].
        intros j Hj Hw. assert (X : par d <> None) by (apply Hvis; right; exists j; split; [lia|auto]). congruence.
      - intros [Hw Hmin]. inversion Hw as [|? s ? Hws Hin E]; subst. split.
        + destruct (par d) as [p|] eqn:Ep; auto. exfalso.
          assert (X : par d <> None) by congruence. apply Hvis in X as [X|(j & Hj & X)].
          * apply X, H0. exists (S k). auto.
          * apply (Hmin j); auto. lia.
        + exists s. split; auto. apply HF. split; auto. intros j Hj X. apply (Hmin (S j)); [lia|]. econstructor; eauto. }
    exists l. split; auto.
    - intros v. rewrite Hl. apply Hnext.
    - intros v. destruct (par v) as [p|] eqn:Ep.
      + assert (E : par' v = par v). { apply HN. intros [E _]. congruence. }
        rewrite E, Ep. split; [|discriminate]. intros _.
        destruct (proj1 (Hvis v)) as [X|(j & Hj & X)]; [congruence|auto|]. right. exists j. split; auto.
      + assert (Hno : ~ (par0 v <> None \/ exists j, j <= k /\ walk outn src j v)).
        { intros X. apply Hvis in X. congruence. }
        split.
        * intros X. right. exists (S k). split; auto. apply Hnext.
          (* v changed, so it is next *)
          destruct (in_dec Nat.eq_dec v l) as [Hin|Hin]; [now apply Hl|].
          exfalso. apply X. rewrite HN, Ep; auto. now rewrite <- Hl.
        * intros [X|(j & Hj & X)]; [exfalso; apply Hno; auto|].
          assert (Hjk : j = S k). { destruct (Nat.eq_dec j (S k)); auto. exfalso. apply Hno. right. exists j. split; auto. lia. }
          subst j. destruct (HA v) as (s & _ & _ & E); [|congruence]. apply Hnext. split; auto.
          intros j Hj' Y. apply Hno. right. exists j. split; auto. lia.
    - intros v p Hv0 E. destruct (in_dec Nat.eq_dec v l) as [Hin|Hin].
      + apply Hl in Hin. destruct (HA v Hin) as (s & Hs1 & Hs2 & E'). assert (p = s) by congruence. subst s.
        right. split; auto. exists k. split; [now apply HF|now apply Hnext].
      + apply Hp; auto. rewrite <- HN; auto. now rewrite <- Hl.
    - intros v Hv0. rewrite <- (Hk v Hv0). apply HN. intros [E _]. rewrite Hk in E; auto.
    - rewrite <- Hs. apply HN. intros [E _]. congruence.
  Qed.

  Lemma round_binv k par U F par' U' : BInv k par U F -> edgeMap_visit n outn inn m None bfs_flags U par par' U' ->
    exists F', BInv (S k) par' U' F'.
  Proof. intros HB Hv. apply (advance_binv HB). exact (visit_advanced F G (b_built HB) Hv). Qed.

  Lemma loop_binv k par U : bfs_loop n outn inn m src par0 k par U ->
    (exists F, BInv k par U F) /\
    exists l, NoDup l /\ length l = k /\ forall v, In v l -> v < n /\ exists j, j < k /\ dist outn src v j.
  Proof.
    intros H. induction H as [|k par U par' U' H [[F HI] (l & Hnd & Hlen & Hl)] Hsz Hv].
    - split; [exists [src]; apply start_binv|]. exists []. split; [constructor|]. split; auto. easy.
    - split; [eapply round_binv; eauto|].
      rewrite (built_size F (b_built HI)) in Hsz. destruct F as [|f F]; [now contradiction Hsz|].
      assert (Hf : dist outn src f k) by (apply (b_F HI); now left).
      exists (f :: l). split; [|split; simpl; auto].
      + constructor; auto. intros Hin. apply Hl in Hin as (_ & j & Hj & Hd). pose proof (dist_inj Hf Hd). lia.
      + intros v [<-|Hin].
        * split; [eapply walk_lt; eauto; apply Hf|]. exists k. split; auto.
        * apply Hl in Hin as (A & j & B & C). split; auto. exists j. split; auto.
  Qed.

  Lemma loop_bound k par U : bfs_loop n outn inn m src par0 k par U -> k <= n.
  Proof.
    intros H. apply loop_binv in H as [_ (l & Hnd & <- & Hl)]. rewrite <- (seq_length n 0).
    apply NoDup_incl_length; auto. intros v Hv. apply in_seq. apply Hl in Hv. lia.
  Qed.

  Lemma loop_progress k par U : bfs_loop n outn inn m src par0 k par U ->
    exists par' U', edgeMap_visit n outn inn m None bfs_flags U par par' U'.
  Proof. intros H. apply loop_binv in H as [[F HI] _]. eapply visit_progress; eauto. apply (b_built HI). Qed.

  Lemma loop_ends : exists k par U, bfs_loop n outn inn m src par0 k par U /\ size U = 0.
  Proof.
    assert (H : forall j, j <= S n -> (exists k par U, bfs_loop n outn inn m src par0 k par U /\ size U = 0)
              \/ exists par U, bfs_loop n outn inn m src par0 j par U).
    { induction j as [|j IH]; intros Hj; [right; do 2 eexists; apply bfs_start|].
      destruct IH as [H|(par & U & H)]; [lia|auto|].
      destruct (Nat.eq_dec (size U) 0) as [E|E]; [left; eauto|].
      destruct (loop_progress H) as (par' & U' & Hv). right. do 2 eexists. eapply bfs_round; eauto. }
    destruct (H (S n) (le_n _)) as [X|(par & U & X)]; auto. apply loop_bound in X. lia.
  Qed.

  Lemma end_visited k par U F : BInv k par U F -> size U = 0 -> forall v, par v <> None <-> par0 v <> None \/ reachable outn src v.
  Proof.
    intros HI Hsz v. rewrite (built_size F (b_built HI)) in Hsz. destruct F; [|discriminate].
    rewrite (b_vis HI). split.
    - intros [H|(j & _ & H)]; auto. right. now exists j.
    - intros [H|[j H]]; auto. apply (b_vis HI). induction H as [|j u w Hw IH Hin]; [rewrite (b_src HI); discriminate|].
      apply (b_vis HI) in IH as [IH|(i & Hi & IH)]; [exfalso; apply IH, H0; now exists j|].
      intros Ew.
      assert (Hno : forall q, q <= k -> ~ walk outn src q w).
      { intros q Hq Hq'. assert (X : par w <> None); [|congruence]. apply (b_vis HI). right. eauto. }
      destruct (Nat.eq_dec i k) as [->|Hik]; [|apply (Hno (S i)); [lia|econstructor; eauto]].
      assert (Hd : dist outn src u k).
      { split; auto. intros q Hq Hq'. apply (Hno (S q)); [lia|]. econstructor; eauto. }
      apply (b_F HI) in Hd. destruct Hd.
  Qed.
End Bfs.

(* -- BFSCC ----------------------------------------------------------------------------- *)
Section CC.
  Variable n : nat.
  Variable outn : nat -> list nat.
  Hypothesis G : graph_ok n outn outn.
  Variable m : nat.

  Lemma reach_sym u v : u < n -> reachable outn u v -> reachable outn v u.
  Proof.
    intros Hu [k H]. revert Hu. induction H as [|k v w Hw IH Hin]; intros Hu; [apply reach_refl|].
    pose proof (walk_lt G Hu Hw) as Hv. pose proof (@g_out _ _ _ G v w Hv Hin) as Hw'.
    eapply reach_trans; [|now apply IH]. exists 1. apply walk_1. now apply (g_dual G).
  Qed.
  Lemma reach_lt u v : u < n -> reachable outn u v -> v < n.
  Proof. intros Hu [k H]. eapply walk_lt; eauto. Qed.
  Lemma reach_edges u v : u < n -> reachable outn u v -> outn u <> [] -> outn v <> [].
  Proof.
    intros Hu [k H] Hn. induction H as [|k v w Hw IH Hin]; auto. intros E.
    pose proof (walk_lt G Hu Hw) as Hv. pose proof (@g_out _ _ _ G v w Hv Hin) as Hw'.
    apply (@g_dual _ _ _ G v w Hv Hw') in Hin. rewrite E in Hin. destruct Hin.
  Qed.

  (* after the first i vertices *)
  Record CInv (i : nat) (lab : pstate) : Prop := {
    c_lab : forall v l, lab v = Some l -> v < n /\ outn v <> [] /\ l < i /\ reachable outn v l /\ forall u, reachable outn v u -> l <= u;
    c_cov : forall v u, v < n -> outn v <> [] -> u < i -> reachable outn v u -> lab v <> None }.

  Lemma cc_inv i lab : i <= n -> cc_loop n outn outn m i lab -> CInv i lab.
  Proof.
    intros Hi H. induction H as [|i lab H IH Hl|i lab lab' H IH Hl Hc].
    - split; [discriminate|]. intros. lia.
    - destruct (IH ltac:(lia)) as [I1 I2]. split.
      + intros v l E. destruct (I1 v l E) as (A & A' & B & C & D). repeat split; auto.
      + intros v u Hv Hn Hu Hr. destruct (Nat.eq_dec u i) as [->|Hne]; [|apply (I2 v u); auto; lia].
        destruct (lab i) as [l|] eqn:El; [|congruence]. destruct (I1 i l El) as (A & A' & B & C & D).
        apply (I2 v l); auto. eapply reach_trans; eauto.
    - destruct (IH ltac:(lia)) as [I1 I2].
      assert (Hfresh : outn i <> [] -> forall v, reachable outn i v -> lab v = None).
      { intros Hni v Hr. destruct (lab v) as [l|] eqn:El; auto. exfalso. destruct (I1 v l El) as (A & A' & B & C & D).
        apply (I2 i l); auto. eapply reach_trans; eauto. }
      inversion Hc as [Hd|k par U Hd Hloop Hsz]; subst.
      + split.
        * intros v l E. destruct (I1 v l E) as (A & A' & B & C & D). repeat split; auto.
        * intros v u Hv Hn Hu Hr. destruct (Nat.eq_dec u i) as [->|Hne]; [|apply (I2 v u); auto; lia].
          exfalso. apply (reach_edges Hv Hr) in Hn. congruence.
      + destruct (loop_binv G Hi (Hfresh Hd) Hloop) as [[F HI] _].
        pose proof (end_visited Hi (Hfresh Hd) HI Hsz) as Hend. split.
        * intros v l E. unfold label_with in E. destruct (lab v) as [l0|] eqn:El.
          { injection E as <-. destruct (I1 v l0 El) as (A & A' & B & C & D). repeat split; auto. }
          destruct (par v) as [p|] eqn:Ep; [|discriminate]. injection E as <-.
          assert (Hr : reachable outn i v). { destruct (proj1 (Hend v)) as [X|X]; [congruence|congruence|auto]. }
          pose proof (reach_lt Hi Hr) as Hv. pose proof (reach_sym Hi Hr) as Hr'.
          split; auto. split; [now apply (reach_edges Hi Hr)|]. split; [lia|]. split; auto.
          intros u Hu. destruct (Nat.le_gt_cases i u) as [Hle|Hgt]; auto. exfalso.
          apply (I2 i u); auto. eapply reach_trans; eauto.
        * intros v u Hv Hn Hu Hr. unfold label_with. destruct (lab v) as [l0|] eqn:El; [discriminate|].
          destruct (Nat.eq_dec u i) as [->|Hne]; [|exfalso; apply (I2 v u); auto; lia].
          assert (X : par v <> None) by (apply Hend; right; now apply reach_sym). destruct (par v); congruence.
  Qed.

  Lemma cc_exists i : i <= n -> exists lab, cc_loop n outn outn m i lab.
  Proof.
    induction i as [|i IH]; intros Hi; [eexists; apply cc_start|].
    destruct IH as [lab H]; [lia|]. destruct (lab i) as [l|] eqn:El; [exists lab; apply cc_skip; auto; congruence|].
    destruct (outn i) as [|d ds] eqn:Ed.
    - exists lab. eapply cc_search; eauto. now apply label_isolated.
    - assert (Hd : outn i <> []) by congruence.
      pose proof (@cc_inv i lab ltac:(lia) H) as [I1 I2].
      assert (Hfresh : forall v, reachable outn i v -> lab v = None).
      { intros v Hr. destruct (lab v) as [l|] eqn:El'; auto. exfalso. destruct (I1 v l El') as (A & A' & B & C & D).
        apply (I2 i l); auto. eapply reach_trans; eauto. }
      destruct (@loop_ends n outn outn G m i Hi lab Hfresh) as (k & par & U & Hl & Hs).
      exists (label_with i lab par). eapply cc_search; eauto. eapply label_search; eauto.
  Qed.
End CC.
