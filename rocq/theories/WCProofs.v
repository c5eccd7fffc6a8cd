(* Proofs about work-efficient connectivity. *)
From Coq Require Import Permutation Sorted.
From Verif Require Import Base ListUtil VSModel VSSpec EMModel EMSpec FAModel GBModel GBSpec GBProofs GBProps HTModel HTSpec HTProofs HTFull HTProps
  SFModel SFProofs LDModel LDSpec LDProofs LDProps UFSpec FRProofs CTModel CTSpec CTProofs.

Lemma undirected_ok n outn : undirected n outn -> graph_ok n outn outn.
Proof.
  intros G. split.
  - intros s d Hs Hd. split; intros H; now apply (@G _ _) in H.
  - intros s d Hs H. now apply (@G _ _) in H.
  - intros s d Hs H. now apply (@G _ _) in H.
Qed.

(* what one decomposition of an undirected graph gives *)
Record decomposed (n : nat) (outn : nat -> list nat) (clusters : list nat) (k : nat) (clu par : nat -> option nat) : Prop := {
  d_len : length clusters = n;
  d_lt : forall v, v < n -> cl clusters v < k;
  d_onto : forall c, c < k -> exists v, v < n /\ cl clusters v = c;
  d_le : k <= n;
  d_same : forall u v, u < n -> v < n -> (cl clusters u = cl clusters v <-> clu u = clu v);
  d_tree : forall v, v < n -> exists c q, c < n /\ in_cluster outn clu par c q v;
  d_conn : forall u v, u < n -> v < n -> cl clusters u = cl clusters v -> connected (pairs n outn) u v }.

Lemma in_cluster_clu outn clu par c k v : in_cluster outn clu par c k v -> clu v = Some c.
Proof. intros H. destruct H; auto. Qed.
Lemma in_cluster_conn n outn clu par c k v : undirected n outn -> c < n -> in_cluster outn clu par c k v -> connected (pairs n outn) c v /\ v < n.
Proof.
  intros G Hc H. induction H as [|q p v H [IH Hp] E Hne Hin E2]; [split; auto; apply rst_refl|].
  destruct (@G _ _ Hp Hin) as [Hv _]. split; auto. eapply rst_trans; [exact IH|]. apply rst_step, In_pairs. auto.
Qed.

Section Decompose.
  Variable incs : nat -> list nat.
  Hypothesis Hincs : forall n, covers n (incs n).
  Variable n : nat.
  Variable outn : nat -> list nat.
  Hypothesis G : undirected n outn.
  Variable m : nat.

  Lemma relabel_decomposed clu par : (forall v, v < n -> exists c q, c < n /\ in_cluster outn clu par c q v) ->
    exists clusters k, relabel_ids (map (fun v => match clu v with Some c => c | None => S n end) (seq 0 n)) = Some (clusters, k) /\
      decomposed n outn clusters k clu par /\
      ((exists v c, v < n /\ clu v = Some c /\ c <> v) -> k < n).
  Proof.
    intros Htree. set (idl := map (fun v => match clu v with Some c => c | None => S n end) (seq 0 n)).
    assert (Hlen : length idl = n) by (unfold idl; now rewrite map_length, seq_length).
    assert (Hn : forall v, v < n -> exists c, nth v idl 0 = c /\ clu v = Some c /\ c < n).
    { intros v Hv. unfold idl. rewrite nth_map_seq by auto. destruct (Htree v Hv) as (c & q & Hc & H). apply in_cluster_clu in H. rewrite H. eauto. }
    destruct (@relabel_ok idl) as (new & k & E & Hl & Hk & H1 & H2 & H3).
    { intros x Hx. apply (In_nth _ _ 0) in Hx as (v & Hv & <-). rewrite Hlen in *. destruct (Hn v Hv) as (c & -> & _ & Hc). auto. }
    rewrite Hlen in *. exists new, k. split; auto.
    assert (Hsame : forall u v, u < n -> v < n -> (cl new u = cl new v <-> clu u = clu v)).
    { intros u v Hu Hv. unfold cl. destruct (Hn u Hu) as (c & E1 & Ec & _), (Hn v Hv) as (d & E2 & Ed & _).
      pose proof (H3 u v Hu Hv) as A. pose proof (H3 v u Hv Hu) as B. rewrite E1, E2 in *. rewrite Ec, Ed. split.
      - intros X. f_equal. lia.
      - intros X. injection X as ->. lia. }
    assert (Hkn : k <= n).
    { rewrite Hk. rewrite <- Hlen. apply NoDup_incl_length; [apply NoDup_nodup|]. intros x. apply nodup_In. }
    split.
    - split; auto.
      + intros v Hv. apply H1, nth_In. lia.
      + intros c Hc. apply H2 in Hc. apply (In_nth _ _ 0) in Hc as (v & Hv & E'). exists v. split; [lia|auto].
      + intros u v Hu Hv E'. apply Hsame in E'; auto. destruct (Htree u Hu) as (c & q & Hc & A), (Htree v Hv) as (d & r & Hd & B).
        pose proof (in_cluster_clu A) as EA. pose proof (in_cluster_clu B) as EB. rewrite EA, EB in E'. injection E' as <-.
        apply (in_cluster_conn G Hc) in A as [A _]. apply (in_cluster_conn G Hd) in B as [B _].
        eapply rst_trans; [apply rst_sym, A|exact B].
    - intros (v & c & Hv & Ec & Hne). rewrite Hk.
      assert (Hnv : ~ In v idl).
      { intros X. apply (In_nth _ _ 0) in X as (u & Hu & E'). rewrite Hlen in Hu. destruct (Hn u Hu) as (d & E1 & Ed & _). assert (d = v) by congruence. subst d.
        destruct (Htree u Hu) as (c' & q & _ & A). pose proof (in_cluster_clu A) as EA. assert (c' = v) by congruence. subst c'.
        assert (B : clu v = Some v). { clear - A. induction A; auto. } congruence. }
      apply Nat.lt_le_trans with (length (v :: nodup Nat.eq_dec idl)); [simpl; lia|].
      rewrite <- (seq_length n 0). apply NoDup_incl_length.
      + constructor; [now rewrite nodup_In|apply NoDup_nodup].
      + intros x [<-|X]; [apply in_seq; lia|]. apply nodup_In in X. apply (In_nth _ _ 0) in X as (u & Hu & <-). rewrite Hlen in Hu.
        destruct (Hn u Hu) as (d & -> & _ & Hd). apply in_seq. lia.
  Qed.

  Lemma decomposes_ok permute clusters k par : decomposes incs permute n outn m clusters k par ->
    exists clu, decomposed n outn clusters k clu par /\
      (nth 0 (incs n) 0 = 1 -> 2 <= n -> (forall v, v < n -> exists u, In u (outn v) /\ u <> v) -> k < n).
  Proof.
    intros [perm clu par' cl' k' Hp _ HL E].
    assert (Htree : forall v, v < n -> exists c q, c < n /\ in_cluster outn clu par' c q v).
    { intros v Hv. destruct (C53_clusters (undirected_ok G) (Hincs n) Hp HL Hv) as (c & q & A & _ & B). eauto. }
    destruct (relabel_decomposed Htree) as (clusters' & k'' & E' & HD & Hk). rewrite E in E'. injection E' as <- <-.
    exists clu. split; auto. intros H1 H2 H3. apply Hk.
    eapply (ldd_shrinks (undirected_ok G) (Hincs n) Hp HL); auto.
  Qed.
  Lemma decomposes_exist permute : exists clusters k par, decomposes incs permute n outn m clusters k par.
  Proof.
    assert (Hp : Permutation (seq 0 n) (seq 0 n)) by apply Permutation_refl.
    destruct (C53_returns m (undirected_ok G) (Hincs n) Hp) as (clu & par & HL).
    assert (Htree : forall v, v < n -> exists c q, c < n /\ in_cluster outn clu par c q v).
    { intros v Hv. destruct (C53_clusters (undirected_ok G) (Hincs n) Hp HL Hv) as (c & q & A & _ & B). eauto. }
    destruct (relabel_decomposed Htree) as (clusters' & k' & E' & _). exists clusters', k', par. econstructor; eauto.
  Qed.
End Decompose.

(* a run in which every insertion returns *)
Lemma fetch_exists {V} (e0 : V) hash m calls : 0 < m -> distinct (map fst calls) <= m ->
  exists sched, finished (exec e0 (fun _ v => v) None calls sched (start hash (new_table e0 m) calls)).
Proof.
  intros Hm Hd. exists (flat_map (fun i => repeat i (3 * m + 2)) (seq 0 (length calls))).
  set (sched := flat_map _ _).
  destruct (@C28_insert V hash e0 m (new_table e0 m) calls sched Hm) as [H _].
  { constructor. } { now rewrite new_keys. }
  intros i p Hp. destruct (Nat.lt_ge_cases i (length calls)) as [Hi|Hi].
  - destruct (H i Hi) as [r Hr].
    + unfold sched, steps. exact (FAProofs.count_full (fun _ => 3 * m + 2) calls Hi).
    + unfold returned in Hr. rewrite Hp in Hr. injection Hr as ->. eauto.
  - exfalso. assert (Hl : length (pcs (exec e0 (fun _ v => v) None calls sched (start hash (new_table e0 m) calls))) = length calls).
    { destruct (@FI_exec V e0 (fun _ v => v) None m Hm calls sched _ (@FI_start V hash e0 m Hm calls (new_table e0 m) (repeat_length _ _))) as (_ & A & _). exact A. }
    assert (X : i < length (pcs (exec e0 (fun _ v => v) None calls sched (start hash (new_table e0 m) calls)))) by (apply nth_error_Some; congruence).
    lia.
Qed.

Section Contracting.
  Variable V : Type.
  Variable e0 : V.
  Variable hash : nat -> nat.
  Variable sort : list (edge unit) -> list (edge unit).
  Hypothesis Hsort : sorts sort.
  Variable n : nat.
  Variable outn : nat -> list nat.
  Hypothesis G : undirected n outn.
  Variable value : nat -> nat -> V.
  Variable clusters : list nat.
  Variable k : nat.
  Hypothesis Hlt : forall v, v < n -> cl clusters v < k.
  Notation calls := (edge_calls n outn value clusters k).

  Lemma table_for_ge c : c < table_for c.
  Proof. unfold table_for. pose proof (sparse_table_size_gt (11 * c / 10)). assert (c <= 11 * c / 10); [|lia]. apply Nat.div_le_lower_bound; lia. Qed.
  Lemma contracts_exist : small_cluster_size <= k \/ distinct (map fst calls) <= table_for small_cluster_size ->
    exists t es mapping GC, contracts e0 hash sort n outn value clusters k t es mapping GC.
  Proof.
    intros Hfit.
    assert (HT : exists t, fetched e0 hash n outn value clusters k t).
    { destruct (Nat.lt_ge_cases k small_cluster_size) as [Hk|Hk].
      - destruct (@fetch_exists V e0 hash (table_for small_cluster_size) calls) as [sched Hf].
        { pose proof (table_for_ge small_cluster_size). lia. } { destruct Hfit as [X|X]; [lia|auto]. }
        eexists. apply (@fetch V e0 hash n outn value clusters k (table_for small_cluster_size) sched); [now apply size_small|exact Hf].
      - destruct (@fetch_exists V e0 hash (table_for (length calls)) calls) as [sched Hf].
        { pose proof (table_for_ge (length calls)). lia. }
        { pose proof (table_for_ge (length calls)). assert (distinct (map fst calls) <= length calls); [|lia].
          unfold distinct. rewrite <- (map_length fst calls). apply NoDup_incl_length; [apply NoDup_nodup|]. intros x. apply nodup_In. }
        eexists. apply (@fetch V e0 hash n outn value clusters k (table_for (length calls)) sched); [now apply size_exact|exact Hf]. }
    destruct HT as [t Ht]. set (es := edges_of k t).
    destruct (@MMGet.run_stores_any nat (mapping_stores k es) (repeat 0 (flags es k))) as (mapping & E1 & _).
    { intros x c Hx. unfold mapping_stores in Hx. apply in_flat_map in Hx as (i & Hi & Hx). apply in_seq in Hi.
      destruct (Nat.eqb_spec (flags es i) (flags es (i + 1))) as [E|E]; [easy|]. destruct Hx as [X|[]]. injection X as <- <-.
      rewrite repeat_length. pose proof (@flags_mono V k t (i + 1) k ltac:(lia)) as A.
      pose proof (@flags_S V k t i) as B. fold es in A, B. rewrite Nat.add_1_r in *. lia. }
    destruct (@C23_symmetric unit sort (flags es k) (sym_edges es) (all_offset_stores (flags es k) (undirect_and_sort sort (sym_edges es))) Hsort) as (GC & E2 & _).
    { apply Forall_forall. intros [[x y] w] H. apply sym_In in H as (a & b & z & H & Hxy). eapply es_outside in H as [H1 H2]; eauto.
      unfold src, dst. simpl. destruct Hxy as [[-> ->]|[-> ->]]; split; eapply flags_top; eauto. }
    { apply Permutation_refl. }
    exists t, es, mapping, GC. econstructor; eauto; apply Permutation_refl.
  Qed.
  Lemma contracts_fit t es mapping GC : contracts e0 hash sort n outn value clusters k t es mapping GC ->
    small_cluster_size <= k \/ distinct (map fst calls) <= table_for small_cluster_size.
  Proof.
    intros [t' o1 o2 mp GC' Ht _ _ _ _ _]. destruct (fetched_reached Ht) as (m & _ & _ & Hsz & Hd). destruct Hsz; auto.
  Qed.
End Contracting.

Section Components.
  Variable hash : nat -> nat.
  Variable sort : list (edge unit) -> list (edge unit).
  Hypothesis Hsort : sorts sort.
  Variable incs : nat -> list nat.
  Hypothesis Hincs : forall n, covers n (incs n).
  Notation contracts' n outn cl k := (contracts tt hash sort n outn (fun _ _ => tt) cl k).

  Definition components (n : nat) (outn : nat -> list nat) (labels : list nat) : Prop :=
    length labels = n /\ (forall v, v < n -> nth v labels 0 < n) /\
    (forall u v, u < n -> v < n -> (nth u labels 0 = nth v labels 0 <-> connected (pairs n outn) u v)).

  Lemma merge_components n outn clusters k clu par t es mapping GC new_labels : undirected n outn ->
    decomposed n outn clusters k clu par -> contracts' n outn clusters k t es mapping GC ->
    components (gn GC) (csr_out GC) new_labels -> components n outn (merge_labels es mapping clusters new_labels).
  Proof.
    intros G HD HC (Hl & Hnl & Hnc). destruct HC as [t o1 o2 mp GC Ht es Hp1 E1 Hp2 E2].
    pose proof (d_lt HD) as Hlt.
    destruct (mapping_ok G Hlt Ht Hp1 E1) as [Hml Hmap].
    destruct (GC_facts Hsort G Hlt Ht Hp2 E2) as (Hgn & _ & _).
    fold es in Hml, Hmap, Hgn.
    assert (Hm : forall v, v < n -> outside n outn clusters (cl clusters v) ->
      exists c, outside n outn clusters c /\ flags es c = nth (flags es (cl clusters v)) new_labels 0 /\
        nth (nth (flags es (cl clusters v)) new_labels 0) mp 0 = c).
    { intros v Hv Ho. assert (A : flags es (cl clusters v) < gn GC) by (rewrite Hgn; eapply flags_top; eauto).
      specialize (Hnl _ A). rewrite Hgn in Hnl. destruct (flags_onto G Hlt Ht _ Hnl) as (c & Hc & Hco & Ec).
      exists c. split; auto. split; auto. fold es in Ec. rewrite <- Ec. now apply Hmap. }
    assert (Hnth : forall v, v < n -> nth v (merge_labels es mp clusters new_labels) 0 =
      if flags es (cl clusters v) =? flags es (cl clusters v + 1) then cl clusters v else nth (nth (flags es (cl clusters v)) new_labels 0) mp 0).
    { intros v Hv. unfold merge_labels. 
      rewrite nth_indep with (d' := (fun c => if flags es c =? flags es (c + 1) then c else nth (nth (flags es c) new_labels 0) mp 0) 0)
        by (rewrite map_length, (d_len HD); auto).
      rewrite (map_nth (fun c => if flags es c =? flags es (c + 1) then c else nth (nth (flags es c) new_labels 0) mp 0)). reflexivity. }
    assert (Hcase : forall v, v < n -> (~ outside n outn clusters (cl clusters v) /\ nth v (merge_labels es mp clusters new_labels) 0 = cl clusters v) \/
      (outside n outn clusters (cl clusters v) /\ exists c, outside n outn clusters c /\ flags es c = nth (flags es (cl clusters v)) new_labels 0 /\
        nth v (merge_labels es mp clusters new_labels) 0 = c)).
    { intros v Hv. rewrite (Hnth v Hv). pose proof (flags_single G Hlt Ht (cl clusters v)) as HS. fold es in HS.
      destruct (Nat.eqb_spec (flags es (cl clusters v)) (flags es (cl clusters v + 1))) as [E|E].
      - left. tauto.
      - right. assert (Ho : outside n outn clusters (cl clusters v)).
        { destruct (marked es (cl clusters v)) eqn:Em.
          - eapply marked_spec; eauto.
          - exfalso. apply E. rewrite Nat.add_1_r. unfold es. rewrite flags_S. fold es. rewrite Em. lia. }
        split; auto. }
    split; [unfold merge_labels; rewrite map_length; apply (d_len HD)|]. split.
    - intros v Hv. apply Nat.lt_le_trans with k; [|apply (d_le HD)].
      destruct (Hcase v Hv) as [[_ ->]|[_ (c & Hc & _ & ->)]]; auto. eapply outside_lt; eauto.
    - intros u v Hu Hv. rewrite (contract_connected Hsort G Hlt Ht Hp2 E2 (d_conn HD) Hu Hv). fold es.
      destruct (Hcase u Hu) as [[A Ea]|[A (c & Hc & Fc & Ea)]], (Hcase v Hv) as [[B Eb]|[B (d & Hd & Fd & Eb)]]; rewrite Ea, Eb.
      + tauto.
      + split; [intros X; rewrite X in A; contradiction|]. intros [X|[X _]]; [rewrite <- X in B; contradiction|contradiction].
      + split; [intros X; rewrite <- X in B; contradiction|]. intros [X|[_ [X _]]]; [rewrite X in A; contradiction|contradiction].
      + assert (Fu : flags es (cl clusters u) < gn GC) by (rewrite Hgn; eapply flags_top; eauto).
        assert (Fv : flags es (cl clusters v) < gn GC) by (rewrite Hgn; eapply flags_top; eauto).
        specialize (Hnc _ _ Fu Fv). split.
        * intros ->. right. split; auto. split; auto. apply Hnc. congruence.
        * intros H. assert (X : connected (pairs (gn GC) (csr_out GC)) (flags es (cl clusters u)) (flags es (cl clusters v))).
          { destruct H as [->|(_ & _ & H)]; auto. apply rst_refl. }
          apply Hnc in X. eapply flags_inj; eauto. fold es. congruence.
  Qed.
  Lemma last_components n outn clusters k clu par t es mapping GC : undirected n outn ->
    decomposed n outn clusters k clu par -> contracts' n outn clusters k t es mapping GC -> gm GC = 0 ->
    components n outn clusters.
  Proof.
    intros G HD HC H0. destruct HC as [t o1 o2 mp GC Ht es Hp1 E1 Hp2 E2]. pose proof (d_lt HD) as Hlt.
    split; [apply (d_len HD)|]. split.
    - intros v Hv. pose proof (Hlt v Hv). pose proof (d_le HD). unfold cl in *. lia.
    - intros u v Hu Hv. rewrite (contract_connected Hsort G Hlt Ht Hp2 E2 (d_conn HD) Hu Hv).
      unfold cl at 1 2. split; auto. intros [X|[X _]]; auto. exfalso. eapply GC_empty; eauto.
  Qed.
  Lemma contracts_undirected n outn clusters k clu par t es mapping GC : undirected n outn ->
    decomposed n outn clusters k clu par -> contracts' n outn clusters k t es mapping GC ->
    undirected (gn GC) (csr_out GC) /\ (forall x, x < gn GC -> exists y, In y (csr_out GC x) /\ y <> x) /\ gn GC <= k /\ (gm GC <> 0 -> 2 <= gn GC).
  Proof.
    intros G HD HC. destruct HC as [t o1 o2 mp GC Ht es Hp1 E1 Hp2 E2]. pose proof (d_lt HD) as Hlt.
    destruct (GC_facts Hsort G Hlt Ht Hp2 E2) as (Hgn & _ & _).
    pose proof (GC_undirected Hsort G Hlt Ht Hp2 E2) as GU.
    pose proof (GC_neighbour Hsort G Hlt Ht Hp2 E2) as GN.
    split; auto. split; auto. split; [rewrite Hgn; apply flags_le|].
    intros H0. destruct (GC_nonempty _ G Hlt Ht Hp2 E2 H0) as [c Hc].
    assert (A : 0 < gn GC) by (rewrite Hgn; pose proof (flags_top G Hlt Ht Hc); lia).
    destruct (GN 0 A) as (y & Hy & Hne). apply (@GU _ _ A) in Hy. lia.
  Qed.

  Lemma cc_ok permute n outn m labels : cc_impl hash sort incs permute n outn m labels -> undirected n outn -> components n outn labels.
  Proof.
    intros H. induction H as [permute n outn m clusters k par t es mapping GC HD HC H0|permute n outn m clusters k par t es mapping GC nl HD HC H0 HR IH]; intros G.
    - destruct (decomposes_ok Hincs G HD) as (clu & D & _). eapply last_components; eauto.
    - destruct (decomposes_ok Hincs G HD) as (clu & D & _). destruct (contracts_undirected G D HC) as (GU & _). eapply merge_components; eauto.
  Qed.

  (* the levels *)
  Hypothesis Hfirst : forall n, nth 0 (incs n) 0 = 1.
  Lemma level_ok p0 n0 outn0 m0 i permute n outn m : undirected n0 outn0 -> cc_level hash sort incs p0 n0 outn0 m0 i permute n outn m ->
    undirected n outn /\ (i = 0 /\ n = n0 \/ (forall x, x < n -> exists y, In y (outn x) /\ y <> x) /\ 2 <= n /\ n + i <= n0 + 1).
  Proof.
    intros G0 H. induction H as [|i permute n outn m clusters k par t es mapping GC H [G Hi] HD HC H0]; auto.
    destruct (decomposes_ok Hincs G HD) as (clu & D & Hs). destruct (contracts_undirected G D HC) as (GU & GN & Hk & H2).
    split; auto. right. split; auto. split; auto. destruct Hi as [[-> ->]|(Hn & Hge & Hi)].
    - pose proof (d_le D). lia.
    - specialize (Hs (Hfirst n) Hge Hn). lia.
  Qed.
  Lemma keys_small V n outn (value : nat -> nat -> V) clusters k : (forall v, v < n -> cl clusters v < k) -> undirected n outn ->
    distinct (map fst (edge_calls n outn value clusters k)) <= k * k.
  Proof.
    intros Hlt G. unfold distinct. rewrite <- (seq_length (k * k) 0). apply NoDup_incl_length; [apply NoDup_nodup|].
    intros x Hx. apply nodup_In, in_map_iff in Hx as ([key z] & <- & H). apply calls_In in H as (u & v & Hu & Hv & _ & -> & _).
    destruct (@G _ _ Hu Hv) as [Hv' _]. apply in_seq. simpl. pose proof (@Hlt _ Hu). pose proof (@Hlt _ Hv'). nia.
  Qed.
  Lemma table_small : table_for small_cluster_size = 64 * 64.
  Proof. vm_compute. reflexivity. Qed.
  Lemma cc_one permute n outn m : n <= 64 -> undirected n outn ->
    (forall n' outn' m', n' <= 64 -> undirected n' outn' -> (forall x, x < n' -> exists y, In y (outn' x) /\ y <> x) -> 2 <= n' ->
       n' < n \/ n' <= n /\ ~ (2 <= n /\ forall x, x < n -> exists y, In y (outn x) /\ y <> x) ->
       exists labels, cc_impl hash sort incs true n' outn' m' labels) ->
    exists labels, cc_impl hash sort incs permute n outn m labels.
  Proof.
    intros Hn G IH.
    destruct (decomposes_exist _ Hincs G m permute) as (clusters & k & par & HD).
    destruct (decomposes_ok Hincs G HD) as (clu & D & Hs). pose proof (d_le D) as Hk.
    destruct (@contracts_exist unit tt hash sort Hsort n outn G (fun _ _ => tt) clusters k (d_lt D)) as (t & es & mapping & GC & HC).
    { right. rewrite table_small. etransitivity; [apply (keys_small (fun _ _ => tt) clusters (d_lt D) G)|]. apply Nat.mul_le_mono; lia. }
    destruct (Nat.eq_dec (gm GC) 0) as [E|E]; [eexists; eapply cc_last; eauto|].
    destruct (contracts_undirected G D HC) as (GU & GN & Hgk & H2).
    destruct (IH (gn GC) (csr_out GC) (gm GC)) as [nl Hnl]; auto; [lia|..].
    - destruct (Nat.lt_ge_cases (gn GC) n) as [X|X]; auto. right. split; [lia|]. intros [A B]. specialize (Hs (Hfirst n) A B). lia.
    - eexists. eapply cc_more; eauto.
  Qed.
  Lemma cc_exists' : forall n, n <= 64 -> forall permute outn m, undirected n outn -> (forall x, x < n -> exists y, In y (outn x) /\ y <> x) -> 2 <= n ->
    exists labels, cc_impl hash sort incs permute n outn m labels.
  Proof.
    induction n as [n IH] using lt_wf_ind. intros Hn permute outn m G GN H2.
    apply cc_one; auto. intros n' outn' m' A B C D [E|[_ E]]; [apply IH; auto|]. exfalso. auto.
  Qed.
  Lemma cc_exists n : n <= 64 -> forall permute outn m, undirected n outn -> exists labels, cc_impl hash sort incs permute n outn m labels.
  Proof. intros Hn permute outn m G. apply cc_one; auto. intros n' outn' m' A B C D _. apply cc_exists'; auto. Qed.
End Components.

(* -- a graph on which connectivity does not return ------------------------------------------------ *)
Definition clique_after (a c v : nat) : list nat :=
  if (a <=? v) && (v <? a + c) then filter (fun u => negb (u =? v)) (seq a c) else [].
Lemma clique_In a c u v : In v (clique_after a c u) <-> a <= u < a + c /\ a <= v < a + c /\ v <> u.
Proof.
  unfold clique_after. destruct (a <=? u) eqn:E1, (u <? a + c) eqn:E2; simpl;
    first [apply Nat.leb_le in E1|apply Nat.leb_gt in E1]; first [apply Nat.ltb_lt in E2|apply Nat.ltb_ge in E2]; try (split; [easy|lia]).
  rewrite filter_In, in_seq, Bool.negb_true_iff, Nat.eqb_neq. lia.
Qed.
Lemma clique_undirected a c : undirected (a + c) (clique_after a c).
Proof. intros u v Hu H. apply clique_In in H. rewrite clique_In. lia. Qed.

Lemma In_part_seq i q s n v : In v (firstn q (skipn i (seq s n))) -> s + i <= v < s + i + q.
Proof.
  intros H. apply In_nth_error in H as [x H].
  assert (Hx : x < q).
  { assert (x < length (firstn q (skipn i (seq s n)))) by (apply nth_error_Some; congruence). rewrite firstn_length in *. lia. }
  rewrite nth_error_firstn' in H by auto. rewrite nth_error_skipn' in H.
  assert (Hl : i + x < length (seq s n)) by (apply nth_error_Some; congruence).
  apply (nth_error_nth _ _ 0) in H. rewrite seq_length in Hl. rewrite seq_nth in H by auto. lia.
Qed.

Section Hang.
  Variable incs : list nat.
  Variable j : nat.
  Notation a := (list_sum (firstn j incs)).
  Notation c := (nth j incs 0).
  Notation n := (a + c).
  Notation outn := (clique_after a c).
  Hypothesis Hj : j < length incs.
  Hypothesis Hcov : covers n incs.
  Variable m : nat.
  Notation loop := (ldd_loop n outn outn m (generate_shifts incs) (seq 0 n)).

  Lemma sum_firstn_mono i i' : i <= i' -> list_sum (firstn i incs) <= list_sum (firstn i' incs).
  Proof. intros H. rewrite <- (Nat.min_l i i' H), <- firstn_firstn. apply sum_firstn_le. Qed.
  Lemma idl : Permutation (seq 0 n) (seq 0 n).
  Proof. apply Permutation_refl. Qed.
  Lemma late s : loop s -> forall v, l_clu s v <> None -> v < a.
  Proof.
    pose proof (undirected_ok (clique_undirected a c)) as G.
    intros H. induction H as [|s s1 par' U H IH Hv Ec Hv1 HE]; [easy|].
    destruct (loop_inv G Hcov idl H) as ((V & F & HI) & Ha & [X|[X Hvis]] & Hr); [lia|].
    destruct (centers_inv Hcov idl HI Ha X) as (s1' & new & Ec' & HI1 & Hr1 & Hv1' & Hrl & Ha1 & _ & Enew).
    rewrite Ec in Ec'. injection Ec' as <-.
    assert (Hrj : l_round s < j).
    { destruct (Nat.lt_ge_cases (l_round s) j) as [Y|Y]; auto. exfalso.
      assert (l_round s = j).
      { destruct (Nat.eq_dec (l_round s) j); auto. exfalso. pose proof (@sum_firstn_mono (S j) (l_round s) ltac:(lia)) as Z.
        rewrite sum_firstn_S in Z by auto. lia. }
      destruct (count_inv idl HI1) as [Z|Z]; [lia|]. rewrite Ha1, H0, sum_firstn_S in Z by auto. lia. }
    assert (HS : list_sum (firstn (S (l_round s)) incs) <= a) by (apply sum_firstn_mono; lia).
    assert (Hs1 : forall v, l_clu s1 v <> None -> v < a).
    { intros v Hc. apply (l_set HI1) in Hc. rewrite app_assoc in Hc. apply in_app_or in Hc as [Hc|Hc]; [apply (l_set HI) in Hc; auto|].
      rewrite Enew in Hc. apply filter_In in Hc as [Hc _]. apply In_part_seq in Hc. lia. }
    destruct (spread_inv G HI1 HE) as (l & HI2 & _).
    intros v Hc. destruct (l_clu s1 v) as [x|] eqn:E1; [apply Hs1; congruence|].
    destruct (l_tree HI2 _ Hc) as (_ & x & q & _ & HT).
    simpl in Hc. unfold spread in Hc. rewrite E1 in Hc. destruct (par' v) as [p|] eqn:Ep; [|easy].
    apply Hs1 in Hc. inversion HT; subst; simpl in *.
    - congruence.
    - assert (p0 = p) by congruence. subst p0. match goal with H : In v (outn p) |- _ => apply clique_In in H end. lia.
  Qed.
  Lemma own_clusters clu par : ldd_returns n outn outn m (generate_shifts incs) (seq 0 n) clu par -> forall v, v < n -> clu v = Some v.
  Proof.
    pose proof (undirected_ok (clique_undirected a c)) as G.
    intros H v Hv. inversion H as [s Hs Hge|s s1 Hs Hlt Ec Hge]; subst.
    - destruct (loop_inv G Hcov idl Hs) as (_ & _ & [X|X] & _); lia.
    - destruct (loop_inv G Hcov idl Hs) as ((V & F & HI) & Ha & [X|[X Hvis]] & Hr); [lia|].
      destruct (centers_inv Hcov idl HI Ha X) as (s1' & new & Ec' & HI1 & Hr1 & Hv1' & Hrl & Ha1 & _ & Enew).
      rewrite Ec in Ec'. injection Ec' as <-.
      assert (Hall : l_clu s1 v <> None).
      { eapply (full_inv HI1); auto. simpl in Hge. rewrite (l_vis HI1) in Hge. now rewrite (FAProofs.built_size _ (l_built HI1)) in Hge. }
      destruct (Nat.lt_ge_cases v a) as [Hva|Hva].
      + destruct (l_tree HI1 _ Hall) as (_ & x & q & _ & HT). inversion HT; subst; auto.
        match goal with H : In v (outn _) |- _ => apply clique_In in H end. lia.
      + assert (E0 : l_clu s v = None). { destruct (l_clu s v) eqn:E; auto. exfalso. assert (v < a); [|lia]. apply (late Hs). congruence. }
        clear - Ec E0 Hall. unfold ldd_centers in Ec.
        destruct (nth_error (generate_shifts incs) (l_round s)); [|easy]. destruct (nth_error (generate_shifts incs) (l_round s + 1)); [|easy].
        destruct (_ <? _); [easy|]. destruct (_ <? _); [easy|]. injection Ec as <-. simpl in *.
        match goal with |- set_all _ ?l v = _ => destruct (in_dec Nat.eq_dec v l) as [Hin|Hin] end; [now apply set_all_in|].
        rewrite set_all_out in Hall by auto. congruence.
  Qed.
End Hang.

Lemma NoDup_map_on {A B} (f : A -> B) l : (forall x y, In x l -> In y l -> f x = f y -> x = y) -> NoDup l -> NoDup (map f l).
Proof.
  induction l as [|x l IH]; intros Hf Hnd; simpl; [constructor|]. inversion Hnd; subst. constructor.
  - intros X. apply in_map_iff in X as (y & E & Hy). assert (y = x) by (apply Hf; simpl; auto). subst. contradiction.
  - apply IH; auto. intros y z Hy Hz. apply Hf; simpl; auto.
Qed.
Lemma NoDup_list_prod {A B} (l : list A) (l' : list B) : NoDup l -> NoDup l' -> NoDup (list_prod l l').
Proof.
  intros H H'. induction H as [|x l Hx H IH]; simpl; [constructor|]. apply NoDup_app_iff. split; [|split; auto].
  - apply NoDup_map_on; auto. intros y z _ _ E. congruence.
  - intros p Hp Hq. apply in_map_iff in Hp as (y & <- & _). apply in_prod_iff in Hq as [Hq _]. contradiction.
Qed.

Section Hang2.
  Variable hash : nat -> nat.
  Variable sort : list (edge unit) -> list (edge unit).
  Variable incs : nat -> list nat.
  Variable a c j : nat.
  Notation n := (a + c).
  Notation outn := (clique_after a c).
  Hypothesis Hj : j < length (incs n).
  Hypothesis Ha : a = list_sum (firstn j (incs n)).
  Hypothesis Hc : c = nth j (incs n) 0.
  Hypothesis Hincs : forall n, covers n (incs n).
  Hypothesis Hc' : 130 <= c.
  Hypothesis Hsmall : n < 2048.
  Variable V : Type.
  Variable e0 : V.
  Variable value : nat -> nat -> V.

  Lemma clique_hangs m clusters k par t es mapping GC : decomposes incs false n outn m clusters k par ->
    ~ contracts e0 hash sort n outn value clusters k t es mapping GC.
  Proof.
    intros HD HC.
    pose proof (clique_undirected a c) as G.
    assert (D : exists clu, decomposed n outn clusters k clu par /\ forall v, v < n -> clu v = Some v).
    { inversion HD as [perm clu par' cl' k' Hp Hpe HL E]; subst cl' k' par'.
      rewrite (Hpe eq_refl) in *.
      assert (Htree : forall v, v < n -> exists c' q, c' < n /\ in_cluster outn clu par c' q v).
      { intros v Hv. destruct (C53_clusters (undirected_ok G) (Hincs n) Hp HL Hv) as (c' & q & A & _ & B). eauto. }
      destruct (relabel_decomposed G Htree) as (clusters' & k'' & E' & HD' & _). rewrite E in E'. injection E' as <- <-.
      exists clu. split; auto.
      pose proof (@own_clusters (incs n) j Hj) as OC. rewrite <- Hc, <- Ha in OC. exact (OC (Hincs n) m clu par HL). }
    destruct D as (clu & D & Hown).
    assert (Hinj : forall u v, u < n -> v < n -> cl clusters u = cl clusters v -> u = v).
    { intros u v Hu Hv E. apply (d_same D Hu Hv) in E. rewrite !Hown in E by auto. congruence. }
    pose proof (d_le D) as Hk. pose proof (d_lt D) as Hlt.
    destruct (contracts_fit HC) as [X|X].
    { assert (k < small_cluster_size); [|lia]. eapply Nat.le_lt_trans; [exact Hk|]. exact Hsmall. }
    rewrite table_small in X.
    set (key := fun p : nat * nat => Nat.min (cl clusters (fst p)) (cl clusters (snd p)) * k + Nat.max (cl clusters (fst p)) (cl clusters (snd p))).
    assert (Y : 65 * 65 <= distinct (map fst (edge_calls n outn value clusters k))).
    { set (L := list_prod (seq a 65) (seq (a + 65) 65)).
      assert (HL : length (map key L) = 65 * 65) by (rewrite map_length; unfold L; now rewrite prod_length, !seq_length).
      rewrite <- HL. unfold distinct. apply NoDup_incl_length.
      - apply NoDup_map_on; [|apply NoDup_list_prod; apply seq_NoDup].
        intros [u v] [u' v'] H H' E. apply in_prod_iff in H as [H1 H2], H' as [H3 H4]. apply in_seq in H1, H2, H3, H4.
        unfold key in E. simpl in E.
        pose proof (@Hlt u ltac:(lia)). pose proof (@Hlt v ltac:(lia)). pose proof (@Hlt u' ltac:(lia)). pose proof (@Hlt v' ltac:(lia)).
        assert (E2 : Nat.min (cl clusters u) (cl clusters v) = Nat.min (cl clusters u') (cl clusters v') /\
                     Nat.max (cl clusters u) (cl clusters v) = Nat.max (cl clusters u') (cl clusters v')).
        { split; [|assert (Nat.min (cl clusters u) (cl clusters v) = Nat.min (cl clusters u') (cl clusters v')); [|lia]]; nia. }
        assert (E3 : cl clusters u = cl clusters u' /\ cl clusters v = cl clusters v' \/ cl clusters u = cl clusters v' /\ cl clusters v = cl clusters u') by lia.
        destruct E3 as [[E3 E4]|[E3 _]].
        + apply Hinj in E3, E4; try lia. congruence.
        + apply Hinj in E3; lia.
      - intros x Hx. apply in_map_iff in Hx as ([u v] & <- & H). apply in_prod_iff in H as [H1 H2]. apply in_seq in H1, H2.
        apply nodup_In, in_map_iff.
        destruct (Nat.lt_trichotomy (cl clusters u) (cl clusters v)) as [Z|[Z|Z]].
        + exists (key (u, v), value u v). split; auto. apply calls_In. exists u, v. rewrite clique_In. unfold key. simpl. repeat split; try lia.
        + apply Hinj in Z; lia.
        + exists (key (u, v), value v u). split; auto. apply calls_In. exists v, u. rewrite clique_In. unfold key. simpl. repeat split; try lia. }
    apply (Nat.le_trans _ _ _ Y) in X. apply Nat.leb_le in X. vm_compute in X. discriminate.
  Qed.
End Hang2.
