(* Index::Cluster returns a SCAN clustering, for one epsilon and for several *)
From Verif Require Import Base ListUtil UFSpec UFRoots UFModel UFSys UFWait UFWaitProps SISpec SIModel SIUF SIProofs SICluster.
From Coq Require Import ZArith Permutation Sorted Relation_Operators.
Local Open Scope nat_scope.
Unset Strict Implicit.

Lemma enough_k k m : exists sched, forall t, t < m -> k <= count_occ Nat.eq_dec sched t.
Proof.
  exists (flat_map (fun t => repeat t k) (seq 0 m)). intros t Ht. assert (Hin : In t (seq 0 m)) by (apply in_seq; lia). induction (seq 0 m) as [|a l IH]; [destruct Hin|].
  simpl. rewrite count_occ_app. destruct Hin as [->|Hin]; [|specialize (IH Hin); lia]. rewrite count_occ_repeat_eq by auto. lia.
Qed.

Lemma exec_len n sched : forall s, length (snd (exec n sched s)) = length (snd s).
Proof.
  induction sched as [|t sched IH]; intros s; simpl; auto. rewrite IH. unfold sys_step. destruct (nth_error (snd s) t) as [th|]; auto. destruct (tstep n t (fst s) th). simpl. apply length_lset.
Qed.
Lemma init_len P ps : length (snd (init P ps)) = length ps.
Proof. simpl. apply map_length. Qed.

Lemma In_skipn' {A} k (l : list A) x : In x (skipn k l) -> In x l.
Proof. intros H. rewrite <- (firstn_skipn k l). apply in_or_app. auto. Qed.
Lemma firstn_In_min {A} a b (l : list A) x : In x (firstn (Nat.min a b) l) -> In x (firstn a l).
Proof. intros H. rewrite Nat.min_comm, <- firstn_firstn in H. rewrite <- (firstn_skipn b (firstn a l)). apply in_or_app. auto. Qed.

Section Final.
  Variables n mx : nat.
  Variable adj : nat -> list nat.
  Variable sim : nat -> nat -> Z.
  Variable no : list (list esim).
  Hypothesis Hadj : forall u v, u < n -> In v (adj u) -> v < n.
  Hypothesis Hsym : forall u v, u < n -> In v (adj u) -> In u (adj v) /\ sim u v = sim v u.
  Hypothesis Hmx : n <= mx.
  Hypothesis Hlen : length no = n.
  Hypothesis Hrow : forall u, u < n -> Permutation (map (edge_sim sim u) (adj u)) (nth u no []).
  Hypothesis Hsort : forall u, u < n -> StronglySorted sim_ge (nth u no []).

  Lemma near_eq eps u : u < n -> near no eps u = length (filter (fun v => (eps <=? sim u v)%Z) (adj u)).
  Proof.
    intros Hu. unfold near. rewrite <- (Permutation_length (@perm_filter _ (fun e => (eps <=? similarity e)%Z) _ _ (Hrow Hu))). clear. induction (adj u) as [|v l IH]; simpl; auto. destruct (eps <=? sim u v)%Z; simpl; auto.
  Qed.
  Lemma in_near eps u e : u < n -> In e (firstn (similar_count no eps u) (neighbors_of no u)) <-> exists v, In v (adj u) /\ e = edge_sim sim u v /\ (eps <= sim u v)%Z.
  Proof.
    intros Hu. rewrite similar_firstn by (auto; rewrite ?Hlen; auto; intros; apply Hsort; lia). rewrite filter_In, Z.leb_le. unfold neighbors_of. split.
    - intros [H1 H2]. apply (Permutation_in _ (Permutation_sym (Hrow Hu))) in H1. apply in_map_iff in H1 as (v & <- & Hv). exists v. auto.
    - intros (v & Hv & -> & He). split; auto. apply (Permutation_in _ (Hrow Hu)). apply in_map_iff. eauto.
  Qed.
  Lemma similar_sym eps u v : similar n adj sim eps u v -> similar n adj sim eps v u.
  Proof. intros (H1 & H2 & H3). destruct (Hsym H1 H2) as [H4 H5]. split; [eapply Hadj; eauto|]. split; auto. lia. Qed.

  Section One.
    Variables (mu : nat) (eps : Z).
    Let co := core n adj sim mu eps.
    Let sml := similar n adj sim eps.
    Let lk := linked n adj sim mu eps.
    Variable cores : list nat.
    Hypothesis Hcores : forall u, In u cores <-> co u.
    Lemma core_dec x : co x \/ ~ co x.
    Proof. destruct (in_dec Nat.eq_dec x cores) as [H|H]; [left|right]; rewrite <- Hcores; auto. Qed.
    Lemma core_lt x : co x -> x < n.
    Proof. now intros [H _]. Qed.

    Section Clusters.
      Variable calls : list (nat * nat).
      Variables P L : nat -> nat.
      Hypothesis Hcalls : forall u v, In (u, v) calls -> co u /\ co v /\ sml u v.
      Hypothesis HP : forall x, co x -> co (P x) /\ P x <= x /\ lk x (P x).
      Hypothesis Hall : forall u v, co u -> co v -> sml u v -> joined_by cores P calls u v.
      Lemma joined_linked x y : joined_by cores P calls x y <-> lk x y.
      Proof.
        split; induction 1 as [a b H|a|a b H IH|a b c H1 IH1 H2 IH2]; try (apply rst_refl); try (now apply rst_sym); try (eapply rst_trans; eauto; fail).
        - destruct H as [H|[H ->]]; [apply rst_step; now apply Hcalls|]. apply HP. now apply Hcores.
        - destruct H as (H1 & H2 & H3). now apply Hall.
      Qed.
      Lemma part_hyps : (forall x, In x cores -> x < n) /\ (forall x, In x cores -> In (P x) cores /\ P x <= x) /\ (forall u v, In (u, v) calls -> In u cores /\ In v cores).
      Proof.
        split; [|split].
        - intros x H. apply core_lt. now apply Hcores.
        - intros x H. apply Hcores in H. destruct (HP H) as (H1 & H2 & _). split; auto. now apply Hcores.
        - intros u v H. destruct (Hcalls H) as (H1 & H2 & _). split; now apply Hcores.
      Qed.
      Lemma clusters_ok : cluster_cores n mx cores calls P L -> (forall u, co u -> cluster_of n adj sim mu eps u (L u)) /\ (forall x, ~ co x -> L x = P x).
      Proof.
        intros (sched1 & sched2 & F1 & F2 & ->). destruct part_hyps as (A1 & A2 & A3).
        set (s1 := exec n sched1 (init P (unites mx calls))) in *. set (s2 := exec n sched2 (init (par (fst s1)) (labels cores))) in *.
        assert (L1 : length (snd s1) = length calls) by (unfold s1, unites; rewrite exec_len, init_len; apply map_length).
        assert (L2 : length (snd s2) = length cores) by (unfold s2, labels; rewrite exec_len, init_len; apply map_length).
        unfold finished in F1, F2. rewrite L1 in F1. rewrite L2 in F2.
        destruct (@part_components n mx cores P calls A1 A2 A3 sched1 sched2 F1 F2) as (B1 & B2 & B3). fold (unites mx calls) in B1, B2, B3. fold s1 in B1, B2, B3. fold (labels cores) in B1, B2, B3. fold s2 in B1, B2, B3. cbv zeta in B1, B2, B3. set (L' := par (fst s2)) in *.
        split; [|intros x Hx; apply B3; now rewrite Hcores]. intros u Hu. assert (Iu : In u cores) by now apply Hcores. destruct (B2 u Iu) as (C1 & C2 & C3). split; [|split].
        - now apply Hcores.
        - apply joined_linked. apply B1; auto.
        - intros w Hw Hlk. assert (Iw : In w cores) by now apply Hcores. assert (E : L' u = L' w) by (apply B1; auto; now apply joined_linked). rewrite E. now apply B2.
      Qed.
      Lemma clusters_run : exists L', cluster_cores n mx cores calls P L'.
      Proof.
        destruct part_hyps as (A1 & A2 & A3).
        destruct (enough_k (wait_free_steps n) (length calls)) as (sched1 & E1). destruct (enough_k (wait_free_steps n) (length cores)) as (sched2 & E2). eexists. exists sched1, sched2. cbv zeta. split; [|split; [|reflexivity]].
        - intros t Ht. unfold unites in Ht. rewrite exec_len, init_len, map_length in Ht. apply (@part_unites_return n mx cores P calls A1 A2 A3); auto.
        - intros t Ht. unfold labels in Ht. rewrite exec_len, init_len, map_length in Ht. apply (@part_labels_return n mx cores P calls A1 A2 A3); auto.
      Qed.
    End Clusters.

    Section Attach.
      Variable det : bool.
      Variable L : nat -> nat.
      Hypothesis HL : forall u, co u -> cluster_of n adj sim mu eps u (L u).
      Hypothesis HN : forall v, ~ co v -> L v = mx.
      Hypothesis Hpos : det = true -> forall u v, u < n -> In v (adj u) -> (0 < sim u v)%Z.
      Lemma L_core u : co u -> L u <> mx.
      Proof. intros Hu. destruct (HL Hu) as ([H _] & _). lia. Qed.
      Lemma in_pairs c v : In (c, v) (similar_pairs no cores eps) <-> co c /\ sml c v.
      Proof.
        unfold similar_pairs. rewrite in_flat_map. split.
        - intros (u & Hu & H). apply Hcores in Hu. apply in_map_iff in H as (e & E & H). injection E as -> <-. apply (@in_near eps c e (core_lt Hu)) in H as (w & Hw & -> & He). split; auto. split; [apply Hu|auto].
        - intros [Hc (H1 & H2 & H3)]. exists c. split; [now apply Hcores|]. apply in_map_iff. exists (edge_sim sim c v). split; auto. apply in_near; auto. eauto.
      Qed.
      Definition targets : list (nat * nat * Z) :=
        flat_map (fun u => map (fun e => (u, neighbor e, similarity e)) (filter (fun e => L (neighbor e) =? mx) (firstn (similar_count no eps u) (neighbors_of no u)))) cores.
      Lemma attachments_targets : attachments no mx cores eps L = map (fun x => (x, DRead)) targets.
      Proof.
        unfold attachments, targets. clear Hcores. induction cores as [|u l IH]; simpl; auto. rewrite map_app, map_map. f_equal. exact IH.
      Qed.
      Lemma in_targets c v z : In (c, v, z) targets <-> co c /\ sml c v /\ z = sim c v /\ ~ co v.
      Proof.
        unfold targets. rewrite in_flat_map. split.
        - intros (u & Hu & H). apply Hcores in Hu. apply in_map_iff in H as (e & E & H). injection E as -> <- <-. apply filter_In in H as [H Hm]. apply Nat.eqb_eq in Hm. apply (@in_near eps c e (core_lt Hu)) in H as (w & Hw & -> & He).
          cbn in *. split; auto. split; [split; [apply Hu|auto]|]. split; auto. intros Hc. now apply (L_core Hc).
        - intros (Hc & (H1 & H2 & H3) & -> & Hv). exists c. split; [now apply Hcores|]. apply in_map_iff. exists (edge_sim sim c v). split; auto. apply filter_In. split; [apply in_near; eauto|]. cbn. apply Nat.eqb_eq. auto.
      Qed.
      Lemma array_nth f v : v < n -> nth v (array n f) mx = f v.
      Proof. intros Hv. unfold array. now rewrite nth_map_seq. Qed.
      Lemma attach_ok out : attach_noncores n no mx det cores eps L out ->
        scan_clustering n adj sim mu eps (if det then attracts_most n adj sim mu eps else attracts n adj sim mu eps) mx (array n out).
      Proof.
        intros H.
        assert (X : (forall u, co u -> out u = L u) /\ (forall v, v < n -> ~ co v -> (exists c, (if det then attracts_most n adj sim mu eps else attracts n adj sim mu eps) c v /\ out v = L c) \/ ((forall c, ~ attracts n adj sim mu eps c v) /\ out v = mx))).
        { unfold attach_noncores in H. destruct det eqn:Ed.
          - destruct H as (sched & F & ->). assert (ES : (no_attachment mx, attachments no mx cores eps L) = start mx targets) by (unfold start; now rewrite attachments_targets). rewrite ES in *. clear ES.
            assert (Hp : forall c v z, In (c, v, z) targets -> (-1 < z)%Z).
            { intros c v z Hin. apply in_targets in Hin as (Hc & (H1 & H2 & H3) & -> & _). specialize (Hpos eq_refl H1 H2). lia. }
            pose proof (@best_ok mx targets Hp sched F) as B. set (T := fst (dexec sched (start mx targets))) in *. split.
            + intros u Hu. unfold take_attachment. destruct (B u) as [(c & z & Hin & _)|[_ E]]; [apply in_targets in Hin as (_ & _ & _ & Hn); contradiction|]. rewrite E. reflexivity.
            + intros v Hv Hn. unfold take_attachment. destruct (B v) as [(c & z & Hin & E & Hbest)|[Hno E]].
              * left. exists c. apply in_targets in Hin as (Hc & Hs & -> & _). rewrite E. cbn [fst snd]. pose proof Hs as (H1 & H2 & _). rewrite (proj2 (Z.ltb_lt _ _) (Hpos eq_refl H1 H2)). split; auto. split; [split; auto|].
                intros d [Hd Hds]. apply Hbest. apply in_targets. auto.
              * right. rewrite E. cbn. split; [|auto]. intros c [Hc Hs]. apply (Hno c (sim c v)). apply in_targets. auto.
          - destruct H as (sched & F & ->). destruct (@attach_any_ok n mx L (similar_pairs no cores eps) co) with (sched := sched) as [A1 A2]; auto.
            + intros c v Hin. apply in_pairs in Hin as [Hc (H1 & H2 & _)]. split; auto. split; auto. eapply Hadj; eauto.
            + intros c Hc. now apply L_core.
            + split; auto. intros v Hv Hn. destruct (A2 v Hn) as [(c & Hin & E)|[Hno E]].
              * left. exists c. apply in_pairs in Hin. auto.
              * right. split; auto. intros c [Hc Hs]. apply (Hno c). now apply in_pairs. }
        destruct X as [X1 X2].
        assert (Pc : forall c v, (if det then attracts_most n adj sim mu eps else attracts n adj sim mu eps) c v -> co c) by (intros c v Hp; destruct det; [destruct Hp as [[Hc _] _]|destruct Hp as [Hc _]]; exact Hc).
        split.
        - unfold array. now rewrite map_length, seq_length.
        - intros u Hu. rewrite array_nth by apply Hu. rewrite X1 by auto. now apply HL.
        - intros v Hv Hn (c & Hc). rewrite array_nth by auto. destruct (X2 v Hv Hn) as [(d & Hd & E)|[Hno _]]; [|exfalso; now apply (Hno c)]. exists d. split; auto. rewrite array_nth by (apply core_lt; eauto). rewrite E. symmetry. eauto.
        - intros v Hv Hn Hno. rewrite array_nth by auto. destruct (X2 v Hv Hn) as [(d & Hd & E)|[_ E]]; auto. exfalso. apply (Hno d). destruct det; [apply Hd|exact Hd].
      Qed.
      Lemma attach_run : exists out, attach_noncores n no mx det cores eps L out.
      Proof.
        clear Hpos. unfold attach_noncores. destruct det eqn:Ed.
        - destruct (enough_k (2 * length targets + 3) (length targets)) as (sched & E). eexists. exists sched. cbv zeta. split; [|reflexivity]. rewrite attachments_targets. now apply best_ends.
        - destruct (enough_k 3 (length (similar_pairs no cores eps))) as (sched & E). eexists. exists sched. cbv zeta. split; [|reflexivity]. apply (@attach_any_ends n mx L (similar_pairs no cores eps) co); auto.
          + intros c v Hin. apply in_pairs in Hin as [Hc (H1 & H2 & _)]. split; auto. split; auto. eapply Hadj; eauto.
          + intros c Hc. now apply L_core.
      Qed.
    End Attach.

    (* one epsilon *)
    Lemma own_in x P : co x -> own_cluster cores P x = x.
    Proof. intros Hx. unfold own_cluster. rewrite (proj2 (mem_In cores x)); auto. now apply Hcores. Qed.
    Lemma own_out x P : ~ co x -> own_cluster cores P x = P x.
    Proof. intros Hx. unfold own_cluster. destruct (SIModel.mem cores x) eqn:E; auto. exfalso. apply Hx. apply Hcores. now apply mem_In. Qed.
    Lemma in_single u v : In (u, v) (single_calls no cores eps) <-> co u /\ co v /\ sml u v /\ v < u.
    Proof.
      unfold single_calls. rewrite in_flat_map. split.
      - intros (x & Hx & H). apply Hcores in Hx. apply in_map_iff in H as (e & E & H). injection E as -> <-. apply filter_In in H as [H Hm]. apply andb_true_iff in Hm as [Hl Hm]. apply Nat.ltb_lt in Hl. apply mem_In, Hcores in Hm.
        apply (@in_near eps u e (core_lt Hx)) in H as (w & Hw & -> & He). cbn in *. split; auto. split; auto. split; auto. split; [apply Hx|auto].
      - intros (Hu & Hv & (H1 & H2 & H3) & Hl). exists u. split; [now apply Hcores|]. apply in_map_iff. exists (edge_sim sim u v). split; auto. apply filter_In. split; [apply in_near; eauto|]. cbn [edge_sim neighbor].
        rewrite (proj2 (Nat.ltb_lt _ _) Hl), (proj2 (mem_In cores v)); auto. now apply Hcores.
    Qed.
    Lemma single_hyps : (forall u v, In (u, v) (single_calls no cores eps) -> co u /\ co v /\ sml u v) /\
      (forall x, co x -> co (own_cluster cores (fun _ => mx) x) /\ own_cluster cores (fun _ => mx) x <= x /\ lk x (own_cluster cores (fun _ => mx) x)) /\
      (forall u v, co u -> co v -> sml u v -> joined_by cores (own_cluster cores (fun _ => mx)) (single_calls no cores eps) u v).
    Proof.
      split; [|split].
      - intros u v H. apply in_single in H. tauto.
      - intros x Hx. rewrite own_in by auto. split; auto. split; auto. apply rst_refl.
      - intros u v Hu Hv Hs. destruct (Nat.lt_trichotomy u v) as [Hl|[->|Hl]].
        + apply rst_sym, rst_step. left. apply in_single. split; auto. split; auto. split; auto. now apply similar_sym.
        + apply rst_refl.
        + apply rst_step. left. now apply in_single.
    Qed.
  End One.

  Lemma no_cores mu eps pick : (forall u, ~ core n adj sim mu eps u) -> scan_clustering n adj sim mu eps pick mx (repeat mx n).
  Proof.
    intros H. split.
    - apply repeat_length.
    - intros u Hu. now apply H in Hu.
    - intros v _ _ (c & Hc & _). now apply H in Hc.
    - intros v Hv _ _. apply nth_repeat.
  Qed.
  Variable co : list (list (nat * Z)).
  Hypothesis Hco : forall mu eps u, In u (get_cores n co mu eps) <-> core n adj sim mu eps u.
  Hypothesis Hpre : forall mu eps eps', (eps' <= eps)%Z -> exists k, get_cores n co mu eps = firstn k (get_cores n co mu eps').
  Definition positive (det : bool) : Prop := det = true -> forall u v, u < n -> In v (adj u) -> (0 < sim u v)%Z.
  Definition pick (det : bool) (mu : nat) (eps : Z) : nat -> nat -> Prop := if det then attracts_most n adj sim mu eps else attracts n adj sim mu eps.
  Lemma cluster_eq mu eps det result : cluster n no co mx mu eps det result <->
    (get_cores n co mu eps = [] /\ result = repeat mx n) \/
    (get_cores n co mu eps <> [] /\ exists L out, cluster_cores n mx (get_cores n co mu eps) (single_calls no (get_cores n co mu eps) eps) (own_cluster (get_cores n co mu eps) (fun _ => mx)) L /\
       attach_noncores n no mx det (get_cores n co mu eps) eps L out /\ result = array n out).
  Proof.
    unfold cluster. destruct (get_cores n co mu eps) as [|a l] eqn:E.
    - split; [auto|]. intros [[_ H]|[H _]]; [auto|congruence].
    - split; [intros H; right; split; [discriminate|exact H]|]. intros [[H _]|[_ H]]; [discriminate|exact H].
  Qed.
  Theorem cluster_ok mu eps det result : positive det -> cluster n no co mx mu eps det result -> scan_clustering n adj sim mu eps (pick det mu eps) mx result.
  Proof.
    intros Hp H. apply cluster_eq in H as [[E ->]|(Hne & L & out & H1 & H2 & ->)].
    - apply no_cores. intros u Hu. apply Hco in Hu. rewrite E in Hu. destruct Hu.
    - destruct (single_hyps (Hco mu eps)) as (S1 & S2 & S3). destruct (clusters_ok (Hco mu eps) S1 S2 S3 H1) as [A B].
      apply (@attach_ok mu eps _ (Hco mu eps) det L A); auto. intros v Hv. rewrite B by auto. now rewrite (own_out (Hco mu eps)).
  Qed.
  Theorem cluster_runs mu eps det : exists result, cluster n no co mx mu eps det result.
  Proof.
    destruct (list_eq_dec Nat.eq_dec (get_cores n co mu eps) []) as [E|E].
    - exists (repeat mx n). apply cluster_eq. auto.
    - destruct (single_hyps (Hco mu eps)) as (S1 & S2 & S3). destruct (clusters_run (Hco mu eps) S1 S2) as (L & H1). destruct (clusters_ok (Hco mu eps) S1 S2 S3 H1) as [A B].
      assert (N : forall v, ~ core n adj sim mu eps v -> L v = mx) by (intros v Hv; rewrite B by auto; now rewrite (own_out (Hco mu eps))).
      destruct (@attach_run mu eps _ (Hco mu eps) det L A N) as (out & H2).
      exists (array n out). apply cluster_eq. right. split; auto. eauto.
  Qed.

  (* several epsilons *)
  Lemma core_mono mu eps eps' u : (eps' <= eps)%Z -> core n adj sim mu eps u -> core n adj sim mu eps' u.
  Proof.
    intros He [H1 H2]. split; auto. apply (Nat.le_trans _ _ _ H2). apply le_n_S. clear -He. induction (adj u) as [|v l IH]; simpl; auto.
    destruct (Z.leb_spec eps (sim u v)), (Z.leb_spec eps' (sim u v)); simpl; lia.
  Qed.
  Lemma similar_mono eps eps' u v : (eps' <= eps)%Z -> similar n adj sim eps u v -> similar n adj sim eps' u v.
  Proof. intros He (H1 & H2 & H3). split; auto. split; auto. lia. Qed.
  Lemma linked_mono mu eps eps' u v : (eps' <= eps)%Z -> linked n adj sim mu eps u v -> linked n adj sim mu eps' u v.
  Proof.
    intros He. induction 1 as [a b (H1 & H2 & H3)|a|a b H IH|a b c H1 IH1 H2 IH2]; [apply rst_step|apply rst_refl|now apply rst_sym|eapply rst_trans; eauto].
    split; [|split]; eauto using core_mono, similar_mono.
  Qed.
  Lemma cluster_unique mu eps u v c d : linked n adj sim mu eps u v -> cluster_of n adj sim mu eps u c -> cluster_of n adj sim mu eps v d -> c = d.
  Proof.
    intros H (A1 & A2 & A3) (B1 & B2 & B3). apply Nat.le_antisymm; [apply A3; [exact B1|exact (rst_trans _ _ _ _ _ H B2)]|apply B3; [exact A1|exact (rst_trans _ _ _ _ _ (rst_sym _ _ _ _ H) A2)]].
  Qed.
  (* the state before an iteration with epsilon at most eps *)
  Definition ready (mu : nat) (eps : Z) (set prev counts : list nat) (P : nat -> nat) : Prop :=
    (set = [] /\ prev = [] /\ P = fun _ => mx) \/
    exists eps0, (eps <= eps0)%Z /\ prev = get_cores n co mu eps0 /\ set = prev /\ counts = map (similar_count no eps0) prev /\
      (forall u, core n adj sim mu eps0 u -> cluster_of n adj sim mu eps0 u (P u)) /\ (forall x, ~ core n adj sim mu eps0 x -> P x = mx).
  Section Step.
    Variables (mu : nat) (eps : Z) (set prev counts : list nat) (P : nat -> nat).
    Hypothesis R : ready mu eps set prev counts P.
    Let cores := get_cores n co mu eps.
    Let new := skipn (length prev) cores.
    Let calls := multi_calls no cores (set ++ new) eps (length prev) counts.
    Lemma cores_split : cores = prev ++ new /\ set ++ new = cores.
    Proof.
      assert (X : cores = prev ++ new /\ set = prev).
      { destruct R as [(-> & -> & _)|(e0 & He & Ep & -> & _)]; [auto|]. destruct (@Hpre mu e0 eps He) as (k & Ek). fold cores in Ek. rewrite <- Ep in Ek. split; auto.
        unfold new. rewrite Ek at 1 2. rewrite firstn_length. rewrite <- (firstn_skipn k cores) at 1. f_equal. destruct (Nat.le_ge_cases k (length cores)) as [Hk|Hk]; [now rewrite Nat.min_l|rewrite Nat.min_r by auto; rewrite !skipn_all2 by lia; auto]. }
      destruct X as [X1 X2]. split; auto. rewrite X2. auto.
    Qed.
    Lemma in_multi u v : In (u, v) calls <-> exists j, j < length cores /\ u = nth j cores 0 /\ core n adj sim mu eps v /\ (length prev <= j \/ v < u) /\
      In (edge_sim sim u v) (skipn (if j <? length prev then nth j counts 0 else 0) (firstn (similar_count no eps u) (neighbors_of no u))).
    Proof.
      unfold calls, multi_calls. rewrite (proj2 cores_split). rewrite in_flat_map. cbv zeta. split.
      - intros (j & Hj & H). apply in_seq in Hj. exists j. split; [lia|]. apply in_map_iff in H as (e & E & H). injection E as Eu Ev. subst u v. split; auto. apply filter_In in H as [H Hm]. rewrite <- skipn_firstn_comm in H. apply andb_true_iff in Hm as [Hl Hm]. apply orb_true_iff in Hl. rewrite Nat.leb_le, Nat.ltb_lt in Hl. apply mem_In in Hm. apply Hco in Hm.
        split; auto. split; auto. assert (Hu : nth j cores 0 < n) by (apply (@core_lt mu eps), Hco, nth_In; exact (proj2 Hj)).
        pose proof H as H'. apply In_skipn' in H'. apply (in_near _ _ Hu) in H' as (w & Hw & -> & He). exact H.
      - intros (j & Hj & -> & Hv & Hl & H). exists j. split; [apply in_seq; lia|]. apply in_map_iff. exists (edge_sim sim (nth j cores 0) v). split; auto. apply filter_In. rewrite <- skipn_firstn_comm. split; auto. cbn [edge_sim neighbor].
        apply andb_true_iff. rewrite orb_true_iff, Nat.leb_le, Nat.ltb_lt. split; auto. apply mem_In. now apply Hco.
    Qed.
    Lemma multi_sound u v : In (u, v) calls -> core n adj sim mu eps u /\ core n adj sim mu eps v /\ similar n adj sim eps u v.
    Proof.
      intros H. apply in_multi in H as (j & Hj & -> & Hv & _ & H). assert (Hu : core n adj sim mu eps (nth j cores 0)) by (apply Hco, nth_In; auto). split; auto. split; auto.
      apply In_skipn' in H. apply (in_near _ _ (core_lt Hu)) in H as (w & Hw & E & He). injection E as <- _. split; [apply Hu|auto].
    Qed.
    Lemma new_or_old x : core n adj sim mu eps x -> In x new \/ (In x prev /\ exists eps0, (eps <= eps0)%Z /\ core n adj sim mu eps0 x /\ cluster_of n adj sim mu eps0 x (P x)).
    Proof.
      intros Hx. apply Hco in Hx. fold cores in Hx. rewrite (proj1 cores_split) in Hx. apply in_app_or in Hx as [Hx|Hx]; auto. right. split; auto.
      destruct R as [(_ & Ep & _)|(e0 & He & Ep & _ & _ & H1 & _)]; [rewrite Ep in Hx; destruct Hx|]. exists e0. rewrite Ep in Hx. apply Hco in Hx. auto.
    Qed.
    Lemma own_new x : In x new -> own_cluster new P x = x.
    Proof. intros H. unfold own_cluster. now rewrite (proj2 (mem_In new x)). Qed.
    Lemma own_old x : ~ In x new -> own_cluster new P x = P x.
    Proof. intros H. unfold own_cluster. destruct (SIModel.mem new x) eqn:E; auto. apply mem_In in E. contradiction. Qed.
    Lemma multi_P x : core n adj sim mu eps x -> core n adj sim mu eps (own_cluster new P x) /\ own_cluster new P x <= x /\ linked n adj sim mu eps x (own_cluster new P x).
    Proof.
      intros Hx. destruct (in_dec Nat.eq_dec x new) as [H|H].
      - rewrite own_new by auto. split; auto. split; auto. apply rst_refl.
      - rewrite own_old by auto. destruct (new_or_old Hx) as [|(_ & e0 & He & Hc & (A1 & A2 & A3))]; [contradiction|]. split; [eapply core_mono; eauto|]. split; [apply A3; auto; apply rst_refl|eapply linked_mono; eauto].
    Qed.
    Lemma multi_all u v : core n adj sim mu eps u -> core n adj sim mu eps v -> similar n adj sim eps u v -> joined_by cores (own_cluster new P) calls u v.
    Proof.
      assert (Ix : forall x, core n adj sim mu eps x -> In x cores) by (intros x Hx; now apply Hco).
      assert (New : forall x y, In x new -> core n adj sim mu eps x -> core n adj sim mu eps y -> similar n adj sim eps x y -> In (x, y) calls).
      { intros x y Hn Hx Hy Hs. apply (In_nth _ _ 0) in Hn as (i & Hi & Ei). apply in_multi. exists (length prev + i).
        assert (Ln : length new = length cores - length prev) by (unfold new; apply skipn_length). split; [lia|]. split; [rewrite (proj1 cores_split), app_nth2 by lia; rewrite <- Ei; f_equal; lia|]. split; auto. split; [left; lia|].
        destruct (Nat.ltb_spec (length prev + i) (length prev)); [lia|]. cbn [skipn]. apply in_near; [apply Hx|]. exists y. destruct Hs as (_ & H2 & H3). auto. }
      assert (W : forall u v, v < u -> core n adj sim mu eps u -> core n adj sim mu eps v -> similar n adj sim eps u v -> joined_by cores (own_cluster new P) calls u v).
      { clear u v. intros u v Hl Hu Hv Hs. destruct (in_dec Nat.eq_dec u new) as [Nu|Nu]; [apply rst_step; left; auto|].
        destruct (in_dec Nat.eq_dec v new) as [Nv|Nv]; [apply rst_sym, rst_step; left; apply New; auto; now apply similar_sym|].
        assert (Pu : In u prev) by (destruct (new_or_old Hu) as [|[]]; auto; contradiction). assert (Pv : In v prev) by (destruct (new_or_old Hv) as [|[]]; auto; contradiction).
        destruct R as [(_ & Ep & _)|(e0 & He & Ep & _ & Ec & H1 & _)]; [rewrite Ep in Pu; destruct Pu|].
        assert (Cu : core n adj sim mu e0 u) by (apply Hco; now rewrite <- Ep). assert (Cv : core n adj sim mu e0 v) by (apply Hco; now rewrite <- Ep).
        destruct Hs as (S1 & S2 & S3). destruct (Z.le_gt_cases e0 (sim u v)) as [Ho|Ho].
        - assert (E : P u = P v) by (eapply cluster_unique; [|apply H1; auto|apply H1; auto]; apply rst_step; split; auto; split; auto; split; auto).
          eapply rst_trans; [apply rst_step; right; split; [apply Ix; auto|reflexivity]|]. apply rst_sym. eapply rst_trans; [apply rst_step; right; split; [apply Ix; auto|reflexivity]|]. rewrite !own_old by auto. rewrite E. apply rst_refl.
        - apply rst_step. left. apply in_multi. apply (In_nth _ _ 0) in Pu as (j & Hj & Ej). assert (Lc : length prev <= length cores) by (rewrite (proj1 cores_split), app_length; lia).
          exists j. split; [lia|]. split; [rewrite (proj1 cores_split), app_nth1 by auto; auto|]. split; auto. split; auto.
          destruct (Nat.ltb_spec j (length prev)); [|lia]. rewrite Ec. erewrite nth_indep by now rewrite map_length. rewrite (map_nth (similar_count no e0)). rewrite Ej.
          assert (I1 : In (edge_sim sim u v) (firstn (similar_count no eps u) (neighbors_of no u))) by (apply in_near; eauto).
          rewrite <- (firstn_skipn (similar_count no e0 u) (firstn (similar_count no eps u) (neighbors_of no u))) in I1. apply in_app_or in I1 as [I1|I1]; auto.
          exfalso. rewrite firstn_firstn in I1. apply firstn_In_min in I1. apply (in_near _ _ S1) in I1 as (w & _ & Ew & Hw). injection Ew as <- _. lia. }
      intros Hu Hv Hs. destruct (Nat.lt_trichotomy u v) as [Hl|[->|Hl]]; [|apply rst_refl|auto]. apply rst_sym. apply W; auto. now apply similar_sym.
    Qed.
    Lemma multi_out x : ~ core n adj sim mu eps x -> own_cluster new P x = mx.
    Proof.
      intros Hx. assert (Nx : ~ In x cores) by (intros H; apply Hx; now apply Hco). rewrite (proj1 cores_split) in Nx. rewrite own_old by (intros H; apply Nx; apply in_or_app; auto).
      destruct R as [(_ & _ & ->)|(e0 & He & Ep & _ & _ & _ & H2)]; auto. apply H2. intros H. apply Nx. apply in_or_app. left. rewrite Ep. now apply Hco.
    Qed.
    Theorem step_ok L : cluster_cores n mx cores calls (own_cluster new P) L ->
      (forall u, core n adj sim mu eps u -> cluster_of n adj sim mu eps u (L u)) /\ (forall x, ~ core n adj sim mu eps x -> L x = mx).
    Proof.
      intros H. destruct (clusters_ok (Hco mu eps) multi_sound multi_P multi_all H) as [A B]. split; auto. intros x Hx. rewrite B by auto. now apply multi_out.
    Qed.
    Theorem step_next L eps' : (eps' <= eps)%Z -> cluster_cores n mx cores calls (own_cluster new P) L -> ready mu eps' (set ++ new) cores (map (similar_count no eps) cores) L.
    Proof.
      intros He H. destruct (step_ok H) as [A B]. right. exists eps. split; auto. split; auto. split; [apply cores_split|]. auto.
    Qed.
    Theorem step_runs : exists L, cluster_cores n mx cores calls (own_cluster new P) L.
    Proof. exact (clusters_run (Hco mu eps) multi_sound multi_P). Qed.
  End Step.
  Lemma ready_mono mu eps eps' set prev counts P : (eps' <= eps)%Z -> ready mu eps set prev counts P -> ready mu eps' set prev counts P.
  Proof. intros He [H|(e0 & H1 & H)]; [now left|right]. exists e0. split; [lia|auto]. Qed.
  Theorem loop_ok mu epsilons det : positive det -> forall is set prev counts P calls, cluster_loop n no co mx mu epsilons det is set prev counts P calls -> StronglySorted (eps_ge epsilons) is ->
    (forall i, In i is -> ready mu (nth i epsilons 0%Z) set prev counts P) ->
    map snd calls = is /\ forall out i, In (out, i) calls -> scan_clustering n adj sim mu (nth i epsilons 0%Z) (pick det mu (nth i epsilons 0%Z)) mx out.
  Proof.
    intros Hp. induction 1 as [|i is set prev counts P L out calls eps cores new H1 H2 H3 IH]; intros Hs Hr; [split; auto; intros ? ? []|].
    inversion Hs as [|? ? Hs' Hf]. subst. rewrite Forall_forall in Hf. assert (Ri : ready mu eps set prev counts P) by (apply Hr; now left).
    destruct IH as [A B]; [auto| |].
    { intros j Hj. apply (step_next Ri); [apply Hf; auto|exact H1]. }
    split; [cbn; congruence|]. intros out' j [E|Hin]; [|auto]. injection E as <- <-. destruct (step_ok Ri H1) as [C D]. exact (attach_ok (Hco mu eps) C D Hp H2).
  Qed.
  Theorem many_ok mu epsilons det calls : positive det -> cluster_many n no co mx mu epsilons det calls ->
    Permutation (seq 0 (length epsilons)) (map snd calls) /\ forall out i, In (out, i) calls -> scan_clustering n adj sim mu (nth i epsilons 0%Z) (pick det mu (nth i epsilons 0%Z)) mx out.
  Proof.
    intros Hp (is & H1 & H2 & H3). destruct (loop_ok Hp H3 H2) as [A B]; [intros; left; auto|]. rewrite A. auto.
  Qed.
  Theorem loop_runs mu epsilons det : forall is set prev counts P, StronglySorted (eps_ge epsilons) is -> (forall i, In i is -> ready mu (nth i epsilons 0%Z) set prev counts P) ->
    exists calls, cluster_loop n no co mx mu epsilons det is set prev counts P calls.
  Proof.
    induction is as [|i is IH]; intros set prev counts P Hs Hr; [eexists; constructor|]. inversion Hs as [|? ? Hs' Hf]. subst. rewrite Forall_forall in Hf. assert (Ri : ready mu (nth i epsilons 0%Z) set prev counts P) by (apply Hr; now left).
    destruct (step_runs Ri) as (L & HL). destruct (step_ok Ri HL) as [C D]. destruct (attach_run (Hco mu (nth i epsilons 0%Z)) det C D) as (out & Ho).
    destruct (IH (set ++ skipn (length prev) (get_cores n co mu (nth i epsilons 0%Z))) (get_cores n co mu (nth i epsilons 0%Z)) (map (similar_count no (nth i epsilons 0%Z)) (get_cores n co mu (nth i epsilons 0%Z))) L Hs') as (calls & Hc).
    { intros j Hj. apply (step_next Ri); auto. now apply Hf. }
    exists ((array n out, i) :: calls). econstructor; eauto.
  Qed.
End Final.
