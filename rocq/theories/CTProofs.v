(* Proofs about contraction. *)
From Coq Require Import Permutation Sorted.
From Verif Require Import Base ListUtil VSModel EMModel EMSpec FAModel GBModel GBSpec GBProofs GBProps HTModel HTSpec HTProofs HTFull HTProps
  SFModel SFProofs ISSpec LDModel LDSpec LDProofs UFSpec FRProofs MMGet CTModel CTSpec.

Lemma In_pairs n outn u v : In (u, v) (pairs n outn) <-> u < n /\ In v (outn u).
Proof.
  unfold pairs. rewrite in_flat_map. split.
  - intros (x & Hx & H). apply in_map_iff in H as (y & E & H). injection E as -> ->. apply in_seq in Hx. split; [lia|auto].
  - intros [H1 H2]. exists u. split; [apply in_seq; lia|]. now apply in_map.
Qed.

Lemma pair_key k a b : b < k -> (a * k + b) / k = a /\ (a * k + b) mod k = b.
Proof.
  intros H. split.
  - rewrite Nat.div_add_l by lia. rewrite Nat.div_small by auto. lia.
  - rewrite Nat.add_comm, Nat.mod_add by lia. now apply Nat.mod_small.
Qed.

Section Level.
  Variable V : Type.
  Variable e0 : V.
  Variable hash : nat -> nat.
  Variable sort : list (edge unit) -> list (edge unit).
  Hypothesis Hsort : sorts sort.
  Variable n : nat.
  Variable outn : nat -> list nat.
  Hypothesis G : undirected n outn.
  Variable value : nat -> nat -> V.
  Variable clusters : list nat.
  Variable k : nat.
  Notation cl := (cl clusters).
  Hypothesis Hlt : forall v, v < n -> cl v < k.

  Lemma calls_In key x : In (key, x) (edge_calls n outn value clusters k) <->
    exists u v, u < n /\ In v (outn u) /\ cl u < cl v /\ key = cl u * k + cl v /\ x = value u v.
  Proof.
    unfold edge_calls. rewrite in_flat_map. split.
    - intros (u & Hu & H). apply in_flat_map in H as (v & Hv & H). apply in_seq in Hu.
      destruct (Nat.ltb_spec (cl u) (cl v)) as [Hc|Hc]; [|easy]. destruct H as [E|[]]. injection E as <- <-.
      exists u, v. repeat split; auto. lia.
    - intros (u & v & Hu & Hv & Hc & -> & ->). exists u. split; [apply in_seq; lia|]. apply in_flat_map. exists v. split; auto.
      rewrite (proj2 (Nat.ltb_lt _ _) Hc). now left.
  Qed.
  Lemma table_size_pos m : table_size n outn value clusters k m -> 0 < m.
  Proof. intros H. destruct H; unfold table_for; match goal with |- 0 < sparse_table_size ?x => pose proof (sparse_table_size_gt x); lia end. Qed.

  Section Edges.
    Variable t : table V.
    Hypothesis Ht : fetched e0 hash n outn value clusters k t.
    Notation es := (edges_of k t).

    Lemma fetched_reached : exists m, reached hash e0 (fun _ v => v) None m t /\ 0 < m /\
      table_size n outn value clusters k m /\ distinct (map fst (edge_calls n outn value clusters k)) <= m.
    Proof.
      destruct Ht as [m sched Hsz s Hfin]. pose proof (table_size_pos Hsz) as Hm. exists m.
      assert (Hfit : distinct (map fst (edge_calls n outn value clusters k)) <= m).
      { eapply (@finished_fits V hash e0 (fun _ v => v) None m Hm _ (new_table e0 m) sched); auto. unfold new_table. apply repeat_length. }
      split; auto. unfold s. apply reached_phase; auto; [constructor|]. unfold keys_of, new_table. rewrite app_length || idtac.
      replace (map fst (entries (repeat (None, e0) m))) with (@nil nat); auto. clear. induction m; simpl; auto.
    Qed.
    Lemma new_keys m : keys_of (@new_table V e0 m) = [].
    Proof. unfold keys_of, new_table. induction m; simpl; auto. Qed.
    Lemma entries_ok : NoDup (map fst (entries t)) /\
      (forall key x, In (key, x) (entries t) -> In (key, x) (edge_calls n outn value clusters k)) /\
      (forall key, In key (map fst (edge_calls n outn value clusters k)) -> In key (map fst (entries t))).
    Proof.
      destruct Ht as [m sched Hsz s Hfin]. pose proof (table_size_pos Hsz) as Hm.
      assert (Hfit : distinct (map fst (edge_calls n outn value clusters k)) <= m).
      { eapply (@finished_fits V hash e0 (fun _ v => v) None m Hm _ (new_table e0 m) sched); auto. unfold new_table. apply repeat_length. }
      destruct (@C28_insert V hash e0 m (new_table e0 m) (edge_calls n outn value clusters k) sched Hm) as [_ H].
      { constructor. } { now rewrite new_keys. }
      fold s in H. destruct (H Hfin) as (Hnd & Hk & _ & Hv). split; [exact Hnd|]. split.
      - intros key x Hin. assert (Hkey : In key (keys_of (tab s))) by (unfold keys_of; change key with (fst (key, x)); now apply in_map).
        apply Hk in Hkey. rewrite new_keys in Hkey. destruct Hkey as [[]|Hkey].
        destruct (Hv key) as (i & v & E & _ & El & _); [now rewrite new_keys|auto|].
        apply (@lookup_In _ _ _ _ Hnd) in Hin. rewrite Hin in El. injection El as <-. eapply nth_error_In; eauto.
      - intros key Hin. apply Hk. auto.
    Qed.
    Lemma es_In a b x : In (a, b, x) es -> a < b /\ b < k /\ exists u v, u < n /\ In v (outn u) /\ cl u = a /\ cl v = b /\ x = value u v.
    Proof.
      unfold edges_of. intros H. apply in_map_iff in H as ([key y] & E & H). simpl in E. injection E as <- <- <-.
      destruct entries_ok as (_ & He & _). apply He, calls_In in H as (u & v & Hu & Hv & Hc & -> & ->).
      destruct (@G _ _ Hu Hv) as [Hv' _]. destruct (pair_key (cl u) (@Hlt _ Hv')) as [-> ->].
      split; auto. split; [now apply Hlt|]. exists u, v. auto.
    Qed.
    Lemma es_has u v : u < n -> In v (outn u) -> cl u < cl v -> exists x, In (cl u, cl v, x) es.
    Proof.
      intros Hu Hv Hc. destruct entries_ok as (_ & _ & He). destruct (@G _ _ Hu Hv) as [Hv' _].
      assert (X : In (cl u * k + cl v) (map fst (edge_calls n outn value clusters k))).
      { change (cl u * k + cl v) with (fst (cl u * k + cl v, value u v)). apply in_map, calls_In. exists u, v. auto. }
      apply He in X. apply in_map_iff in X as ([key x] & E & X). simpl in E. subst key. exists x. unfold edges_of.
      apply in_map_iff. exists (cl u * k + cl v, x). split; auto. simpl. destruct (pair_key (cl u) (@Hlt _ Hv')) as [-> ->]. auto.
    Qed.
    Lemma es_unique a b x y : In (a, b, x) es -> In (a, b, y) es -> x = y.
    Proof.
      intros Hx Hy. destruct (es_In _ _ _ Hx) as (_ & Hb & _).
      assert (X : forall z, In (a, b, z) es -> In (a * k + b, z) (entries t)).
      { intros z Hz. unfold edges_of in Hz. apply in_map_iff in Hz as ([key w] & E & Hz). simpl in E. injection E as <- <- <-.
        replace (key / k * k + key mod k) with key; auto. rewrite Nat.mul_comm. apply Nat.div_mod. lia. }
      apply X in Hx, Hy. destruct entries_ok as (Hnd & _). apply (@lookup_In _ _ _ _ Hnd) in Hx, Hy. congruence.
    Qed.

    (* -- clusters with an edge to another cluster ------------------------------------ *)
    Definition outside (c : nat) : Prop := exists u v, u < n /\ In v (outn u) /\ cl u = c /\ cl v <> c.
    Lemma marked_spec c : marked es c = true <-> outside c.
    Proof.
      unfold marked. rewrite existsb_exists. split.
      - intros ([[a b] x] & H & E). simpl in E. apply es_In in H as (Hab & _ & u & v & Hu & Hv & E1 & E2 & _).
        apply orb_true_iff in E as [E|E]; apply Nat.eqb_eq in E; subst c.
        + exists u, v. repeat split; auto. lia.
        + destruct (@G _ _ Hu Hv) as [Hv' Hu']. exists v, u. repeat split; auto. lia.
      - intros (u & v & Hu & Hv & <- & Hc). destruct (@G _ _ Hu Hv) as [Hv' Hu'].
        destruct (Nat.lt_ge_cases (cl u) (cl v)) as [H|H].
        + destruct (@es_has _ _ Hu Hv H) as [x Hx]. eexists. split; [exact Hx|]. simpl. rewrite Nat.eqb_refl. auto.
        + destruct (@es_has v u Hv' Hu') as [x Hx]; [lia|]. eexists. split; [exact Hx|]. simpl. rewrite Nat.eqb_refl. apply orb_true_r.
    Qed.
    Lemma flags_S i : flags es (S i) = flags es i + if marked es i then 1 else 0.
    Proof. unfold flags. now rewrite sum_before_S. Qed.
    Lemma flags_single c : flags es c = flags es (c + 1) <-> ~ outside c.
    Proof. rewrite Nat.add_1_r, flags_S, <- marked_spec. destruct (marked es c); split; intros H; try lia; try congruence. Qed.
    Lemma flags_mono i j : i <= j -> flags es i <= flags es j.
    Proof. induction 1; auto. rewrite flags_S. lia. Qed.
    Lemma flags_lt i j : outside i -> i < j -> flags es i < flags es j.
    Proof. intros H Hij. apply marked_spec in H. pose proof (@flags_mono (S i) j Hij) as X. rewrite flags_S, H in X. lia. Qed.
    Lemma flags_inj i j : outside i -> outside j -> flags es i = flags es j -> i = j.
    Proof. intros Hi Hj E. destruct (Nat.lt_trichotomy i j) as [H|[H|H]]; auto; [apply (flags_lt Hi) in H|apply (flags_lt Hj) in H]; lia. Qed.
    Lemma flags_onto x : forall i, x < flags es i -> exists c, c < i /\ outside c /\ flags es c = x.
    Proof.
      induction i as [|i IH]; [unfold flags, sum_before; simpl; lia|]. rewrite flags_S. intros H.
      destruct (Nat.lt_ge_cases x (flags es i)) as [Hx|Hx].
      - destruct (IH Hx) as (c & A & B). exists c. split; auto.
      - destruct (marked es i) eqn:E; [|lia]. exists i. split; auto. split; [now apply marked_spec|lia].
    Qed.
    Lemma outside_lt c : outside c -> c < k.
    Proof. intros (u & v & Hu & _ & <- & _). auto. Qed.
    Lemma flags_top c : outside c -> flags es c < flags es k.
    Proof. intros H. apply flags_lt; auto. now apply outside_lt. Qed.
    Lemma flags_le c : flags es c <= c.
    Proof. induction c as [|c IH]; [reflexivity|]. rewrite flags_S. destruct (marked es c); lia. Qed.

    Lemma mapping_ok order mapping : Permutation order (mapping_stores k es) ->
      run_stores order (repeat 0 (flags es k)) = Some mapping ->
      length mapping = flags es k /\ forall c, outside c -> nth (flags es c) mapping 0 = c.
    Proof.
      intros Hp Hr.
      assert (Hin : forall x c, In (x, c) order <-> outside c /\ x = flags es c).
      { intros x c. transitivity (In (x, c) (mapping_stores k es)).
        - split; apply Permutation_in; [|apply Permutation_sym]; auto.
        - unfold mapping_stores. rewrite in_flat_map. split.
          + intros (i & Hi & H). destruct (Nat.eqb_spec (flags es i) (flags es (i + 1))) as [E|E]; [easy|]. destruct H as [H|[]].
            injection H as <- <-. split; auto. destruct (marked es i) eqn:Em; [now apply marked_spec|].
            exfalso. apply E. rewrite Nat.add_1_r, flags_S, Em. lia.
          + intros [Ho ->]. exists c. split; [apply in_seq; pose proof (outside_lt Ho); lia|].
            destruct (Nat.eqb_spec (flags es c) (flags es (c + 1))) as [E|E]; [now apply flags_single in E|now left]. }
      destruct (@run_stores_any nat order (repeat 0 (flags es k))) as (a & E & Hl & HA).
      { intros x c Hx. apply Hin in Hx as [Ho ->]. rewrite repeat_length. now apply flags_top. }
      rewrite Hr in E. injection E as <-. rewrite repeat_length in Hl. split; auto. intros c Ho.
      destruct (HA (flags es c)) as [(x & Hx & E)|[_ Hno]].
      - apply Hin in Hx as [Hx Ex]. apply flags_inj in Ex; auto. subst x. now apply nth_error_nth.
      - exfalso. apply (Hno c), Hin. auto.
    Qed.

    Section Graph.
      Variable order : list (nat * nat).
      Variable GC : csr unit.
      Hypothesis Hord : Permutation order (all_offset_stores (flags es k) (undirect_and_sort sort (sym_edges es))).
      Hypothesis HGC : from_edges_sym sort (flags es k) (sym_edges es) order = Some GC.

      Lemma sym_In x y w : In (x, y, w) (sym_edges es) <->
        exists a b z, In (a, b, z) es /\ (x = flags es a /\ y = flags es b \/ x = flags es b /\ y = flags es a).
      Proof.
        unfold sym_edges. rewrite in_flat_map. destruct w. split.
        - intros ([[a b] z] & H & [E|[E|[]]]); simpl in E; injection E as <- <-; exists a, b, z; auto.
        - intros (a & b & z & H & [[-> ->]|[-> ->]]); exists (a, b, z); split; auto; simpl; auto.
      Qed.
      Lemma es_outside a b z : In (a, b, z) es -> outside a /\ outside b.
      Proof.
        intros H. split; apply marked_spec, existsb_exists; exists (a, b, z); (split; [auto|]); simpl; rewrite Nat.eqb_refl; auto.
        apply orb_true_r.
      Qed.
      Lemma GC_facts : gn GC = flags es k /\ tiled GC /\
        forall x y, x < flags es k -> (In y (csr_out GC x) <->
          exists a b z, (In (a, b, z) es \/ In (b, a, z) es) /\ x = flags es a /\ y = flags es b).
      Proof.
        assert (Hends : endpoints_below (flags es k) (sym_edges es)).
        { apply Forall_forall. intros [[x y] w] H. apply sym_In in H as (a & b & z & H & Hxy). apply es_outside in H as [H1 H2].
          apply flags_top in H1, H2. unfold src, dst. simpl. destruct Hxy as [[-> ->]|[-> ->]]; auto. }
        destruct (@C23_symmetric unit sort _ _ order Hsort Hends Hord) as (GC' & E & Hn & Ht' & HN).
        rewrite HGC in E. injection E as <-. split; auto. split; auto. intros x y Hx.
        destruct (HN x Hx) as (_ & Hi & _). unfold csr_out. rewrite Hi. split.
        - intros (w & [H|H]); apply sym_In in H as (a & b & z & H & [[-> ->]|[-> ->]]).
          + exists b, a, z. auto.
          + exists a, b, z. auto.
          + exists a, b, z. auto.
          + exists b, a, z. auto.
        - intros (a & b & z & [H|H] & -> & ->); exists tt; right; apply sym_In; [exists a, b, z|exists b, a, z]; auto.
      Qed.
      Lemma GC_edge a b : outside a -> outside b -> (In (flags es b) (csr_out GC (flags es a)) <->
        a <> b /\ exists u v, u < n /\ In v (outn u) /\ cl u = a /\ cl v = b).
      Proof.
        intros Ha Hb. destruct GC_facts as (_ & _ & H). rewrite H by now apply flags_top. split.
        - intros (a' & b' & z & Hz & Ea & Eb). assert (Ho : outside a' /\ outside b') by (destruct Hz as [Hz|Hz]; apply es_outside in Hz; tauto).
          apply flags_inj in Ea, Eb; try tauto. subst a' b'. destruct Hz as [Hz|Hz]; apply es_In in Hz as (H1 & H2 & u & v & Hu & Hv & E1 & E2 & _); (split; [lia|]).
          + exists u, v. auto.
          + destruct (@G _ _ Hu Hv) as [Hv' Hu']. exists v, u. auto.
        - intros (Hne & u & v & Hu & Hv & <- & <-). destruct (@G _ _ Hu Hv) as [Hv' Hu']. destruct (Nat.lt_ge_cases (cl u) (cl v)) as [Hc|Hc].
          + destruct (@es_has _ _ Hu Hv Hc) as [x Hx]. exists (cl u), (cl v), x. auto.
          + destruct (@es_has v u Hv' Hu') as [x Hx]; [lia|]. exists (cl u), (cl v), x. auto.
      Qed.
      Lemma GC_undirected : undirected (gn GC) (csr_out GC).
      Proof.
        destruct GC_facts as (Hn & _ & H). rewrite Hn. intros x y Hx Hy. apply H in Hy as (a & b & z & Hz & -> & ->); auto.
        assert (Ho : outside a /\ outside b) by (destruct Hz as [Hz|Hz]; apply es_outside in Hz; tauto). destruct Ho as [Ha Hb].
        split; [now apply flags_top|]. apply H; [now apply flags_top|]. exists b, a, z. tauto.
      Qed.
      Lemma GC_neighbour x : x < gn GC -> exists y, In y (csr_out GC x) /\ y <> x.
      Proof.
        destruct GC_facts as (Hn & _ & H). rewrite Hn. intros Hx. destruct (flags_onto _ Hx) as (a & _ & Ha & <-).
        destruct Ha as (u & v & Hu & Hv & Eu & Hc). destruct (@G _ _ Hu Hv) as [Hv' Hu'].
        assert (Ha : outside a) by (exists u, v; auto).
        assert (Hb : outside (cl v)) by (exists v, u; repeat split; auto; congruence).
        exists (flags es (cl v)). split.
        - apply GC_edge; auto. split; [congruence|]. exists u, v. auto.
        - intros E. apply flags_inj in E; auto.
      Qed.
      Lemma GC_empty : gm GC = 0 -> forall c, ~ outside c.
      Proof.
        intros E0 c Hc. destruct GC_facts as (Hn & Ht' & _). destruct (@GC_neighbour (flags es c)) as (y & Hy & _); [rewrite Hn; now apply flags_top|].
        destruct Ht' as (_ & _ & Hlen & _). rewrite E0 in Hlen. apply length_zero_iff_nil in Hlen.
        unfold csr_out, neighbors, ids in Hy. rewrite Hlen, skipn_nil, firstn_nil in Hy. destruct Hy.
      Qed.
      Lemma GC_nonempty : gm GC <> 0 -> exists c, outside c.
      Proof.
        intros H. destruct es as [|[[a b] z] l] eqn:E.
        - exfalso. unfold from_edges_sym, sym_edges in HGC. simpl in HGC. injection HGC as <-. apply H. reflexivity.
        - exists a. apply (@es_outside a b z). rewrite E. now left.
      Qed.

      (* connectivity of the contracted graph *)
      Lemma contract_connected : (forall u v, u < n -> v < n -> cl u = cl v -> connected (pairs n outn) u v) ->
        forall u v, u < n -> v < n ->
          (connected (pairs n outn) u v <->
           cl u = cl v \/ outside (cl u) /\ outside (cl v) /\ connected (pairs (gn GC) (csr_out GC)) (flags es (cl u)) (flags es (cl v))).
      Proof.
        intros Hcl u v Hu Hv. split.
        - intros H. clear Hu Hv. induction H as [u v H|u|u v H IH|u w v H1 IH1 H2 IH2].
          + apply In_pairs in H as [Hu Hv]. destruct (Nat.eq_dec (cl u) (cl v)) as [E|E]; auto. right. destruct (@G _ _ Hu Hv) as [Hv' Hu'].
            assert (A : outside (cl u)) by (exists u, v; auto). assert (B : outside (cl v)) by (exists v, u; auto).
            split; auto. split; auto. apply rst_step, In_pairs. destruct GC_facts as (-> & _). split; [now apply flags_top|].
            apply GC_edge; auto. split; auto. exists u, v. auto.
          + auto.
          + destruct IH as [IH|(A & B & C)]; auto. right. split; auto. split; auto. now apply rst_sym.
          + destruct IH1 as [E1|(A1 & B1 & C1)], IH2 as [E2|(A2 & B2 & C2)].
            * left. congruence.
            * right. rewrite E1. auto.
            * right. rewrite <- E2. auto.
            * right. split; auto. split; auto. eapply rst_trans; eauto.
        - intros [E|(A & B & H)]; [auto|].
          assert (X : forall x y, connected (pairs (gn GC) (csr_out GC)) x y -> x = y \/
            (exists u, u < n /\ outside (cl u) /\ flags es (cl u) = x) /\ (exists v, v < n /\ outside (cl v) /\ flags es (cl v) = y) /\
            forall u v, u < n -> v < n -> outside (cl u) -> outside (cl v) -> flags es (cl u) = x -> flags es (cl v) = y -> connected (pairs n outn) u v).
          { clear - Hcl G Hlt Hsort Ht Hord HGC. intros x y H. induction H as [x y H|x|x y H IH|x w y H1 IH1 H2 IH2].
            - right. apply In_pairs in H as [Hx Hy]. destruct GC_facts as (Hn & _ & HF). rewrite Hn in Hx.
              pose proof Hy as Hy'. apply HF in Hy' as (a & b & z & Hz & -> & ->); auto.
              assert (Ho : outside a /\ outside b) by (destruct Hz as [Hz|Hz]; apply es_outside in Hz; tauto). destruct Ho as [Ha Hb].
              apply GC_edge in Hy as (Hne & u & v & Hu & Hv & Eu & Ev); auto. destruct (@G _ _ Hu Hv) as [Hv' Hu'].
              split; [exists u; rewrite Eu; auto|]. split; [exists v; rewrite Ev; auto|].
              intros u2 v2 Hu2 Hv2 O1 O2 E1 E2. apply flags_inj in E1, E2; auto.
              apply rst_trans with u; [apply Hcl; auto; congruence|]. apply rst_trans with v; [apply rst_step, In_pairs; auto|]. apply Hcl; auto. congruence.
            - auto.
            - destruct IH as [->|(A & B & C)]; auto. right. split; auto. split; auto. intros u v Hu Hv O1 O2 E1 E2. apply rst_sym. apply C; auto.
            - destruct IH1 as [->|(A1 & B1 & C1)]; auto. destruct IH2 as [->|(A2 & B2 & C2)]; auto.
              right. split; auto. split; auto. destruct B1 as (q & Q1 & Q2 & Q3). intros u v Hu Hv O1 O2 E1 E2.
              apply rst_trans with q; [apply C1; auto|apply C2; auto]. }
          destruct (X _ _ H) as [E|(_ & _ & Y)]; [|auto]. apply flags_inj in E; auto.
      Qed.
    End Graph.
  End Edges.
End Level.
