(* Proofs for C66. *)
From Coq Require Import Permutation.
From Verif Require Import Base ListUtil VSModel EMModel EMSpec FAModel HTModel HTSpec HTProofs HTFull HTProps
  LDModel LDSpec LDProofs LDProps CTModel CTSpec CTProofs SNModel SNSpec SNCheck.
Unset Strict Implicit.

Lemma walk_app l a : forall u v, walk l a u v -> forall b w, walk l b v w -> walk l (a + b) u w.
Proof. induction 1; intros b x Hx; simpl; auto; [eapply walk_fwd|eapply walk_bwd]; eauto. Qed.
Lemma walk_sym l a : forall u v, walk l a u v -> walk l a v u.
Proof.
  induction 1 as [|d u v w H _ IH|d u v w H _ IH]; [constructor| |]; rewrite <- Nat.add_1_r; eapply walk_app; eauto.
  - eapply walk_bwd; [eauto|constructor].
  - eapply walk_fwd; [eauto|constructor].
Qed.
Lemma walk_incl l l' a : incl l l' -> forall u v, walk l a u v -> walk l' a u v.
Proof. intros Hi. induction 1; [constructor|eapply walk_fwd|eapply walk_bwd]; eauto. Qed.

Lemma filter_parts {A} (f : A -> bool) l : length (filter f l) + length (filter (fun x => negb (f x)) l) = length l.
Proof. induction l as [|x l IH]; simpl; auto. destruct (f x); simpl; lia. Qed.
Lemma NoDup_prod {A B} (l : list A) (l' : list B) : NoDup l -> NoDup l' -> NoDup (list_prod l l').
Proof.
  induction 1 as [|x l Hx _ IH]; intros H'; simpl; [constructor|]. apply NoDup_app_iff. split; [|split; auto].
  - apply FinFun.Injective_map_NoDup; auto. intros a b E. congruence.
  - intros p Hp Hq. apply in_map_iff in Hp as (y & <- & _). apply in_prod_iff in Hq as [Hq _]. contradiction.
Qed.

(* the phases of insertions into a fresh table *)
Section Phase.
  Variable hash : nat -> nat.
  Variable V : Type.
  Variable e0 : V.
  Lemma phase_ok m calls sched : 0 < m ->
    let s := exec e0 (fun _ v => v) None calls sched (start hash (new_table e0 m) calls) in
    finished s ->
    NoDup (map fst (entries (tab s))) /\
    (forall key x, In (key, x) (entries (tab s)) -> In (key, x) calls) /\
    (forall key, In key (map fst calls) -> In key (map fst (entries (tab s)))).
  Proof.
    intros Hm s Hfin. assert (Hfit : distinct (map fst calls) <= m).
    { eapply (@finished_fits V hash e0 (fun _ v => v) None m Hm _ (new_table e0 m) sched); auto. unfold new_table. apply repeat_length. }
    assert (Hnk : keys_of (@new_table V e0 m) = []) by (unfold keys_of, new_table; clear; induction m; simpl; auto).
    destruct (@C28_insert V hash e0 m (new_table e0 m) calls sched Hm) as [_ H]; [constructor|now rewrite Hnk|].
    fold s in H. destruct (H Hfin) as (Hnd & Hk & _ & Hv). split; [exact Hnd|]. split.
    - intros key x Hin. assert (Hkey : In key (keys_of (tab s))) by (unfold keys_of; change key with (fst (key, x)); now apply in_map).
      apply Hk in Hkey. rewrite Hnk in Hkey. destruct Hkey as [[]|Hkey].
      destruct (Hv key) as (i & v & E & _ & El & _); [now rewrite Hnk|auto|].
      apply (@lookup_In _ _ _ _ Hnd) in Hin. rewrite Hin in El. injection El as <-. eapply nth_error_In; eauto.
    - intros key Hin. apply Hk. auto.
  Qed.
End Phase.

Lemma table_for_pos c : 0 < table_for c.
Proof. unfold table_for. match goal with |- 0 < sparse_table_size ?x => pose proof (sparse_table_size_gt x); lia end. Qed.
Lemma table_for_fits c : c < table_for c.
Proof.
  unfold table_for. match goal with |- _ < sparse_table_size ?x => pose proof (sparse_table_size_gt x) as H; assert (c <= x); [|lia] end.
  apply Nat.div_le_lower_bound; lia.
Qed.

Section Spanner.
  Variable hash : nat -> nat.
  Variable limit : nat.
  Variable n : nat.
  Variable outn : nat -> list nat.

  Section Inter.
    Variable cl : nat -> nat.
    Hypothesis G : undirected n outn.
    Hypothesis Hcl : forall v, v < n -> cl v < n.
    Notation calls := (span_calls n outn cl).
    Lemma span_calls_In key e : In (key, e) calls <->
      exists u v, u < n /\ In v (outn u) /\ cl u < cl v /\ key = cl u * n + cl v /\ e = (u, v).
    Proof.
      unfold span_calls. rewrite in_flat_map. split.
      - intros (u & Hu & H). apply in_flat_map in H as (v & Hv & H). apply in_seq in Hu.
        destruct (Nat.ltb_spec (cl u) (cl v)) as [Hc|Hc]; [|easy]. destruct H as [E|[]]. injection E as <- <-.
        exists u, v. repeat split; auto. lia.
      - intros (u & v & Hu & Hv & Hc & -> & ->). exists u. split; [apply in_seq; lia|]. apply in_flat_map. exists v. split; auto.
        rewrite (proj2 (Nat.ltb_lt _ _) Hc). now left.
    Qed.
    Lemma inter_entries inter : intercluster hash limit n outn cl inter -> exists es : list (nat * (nat * nat)),
      inter = map snd es /\ NoDup (map fst es) /\ (forall key x, In (key, x) es -> In (key, x) calls) /\
      (forall key, In key (map fst calls) -> In key (map fst es)).
    Proof.
      intros H. destruct H as [sched s Hf Ha|sched sched' s Hf Ha s' Hf'].
      - destruct (check_is_insert Hf Ha) as (l & X). cbv zeta in X. destruct X as (Hf' & Et & _).
        exists (entries (ctab s)). split; auto. unfold s. rewrite <- Et. apply phase_ok; auto. apply table_for_pos.
      - exists (entries (tab s')). split; auto. apply phase_ok; auto. apply table_for_pos.
    Qed.
    Lemma key_inj a b c d : b < n -> d < n -> a * n + b = c * n + d -> a = c /\ b = d.
    Proof.
      intros Hb Hd E. destruct (pair_key a Hb) as [A1 A2]. destruct (pair_key c Hd) as [B1 B2]. rewrite E in *. split; congruence.
    Qed.
    (* one edge for every pair of adjacent clusters *)
    Lemma inter_ok inter : intercluster hash limit n outn cl inter ->
      (forall a b, In (a, b) inter -> a < n /\ In b (outn a) /\ cl a < cl b) /\
      (forall u v, u < n -> In v (outn u) -> cl u < cl v -> exists a b, In (a, b) inter /\ cl a = cl u /\ cl b = cl v) /\
      NoDup (map (fun e => (cl (fst e), cl (snd e))) inter).
    Proof.
      intros H. destruct (inter_entries H) as (es & -> & Hnd & Hc & Hk). split; [|split].
      - intros a b Hin. apply in_map_iff in Hin as ([key e] & E & Hin). simpl in E. subst e.
        apply Hc, span_calls_In in Hin as (u & v & Hu & Hv & Hlt & _ & E). injection E as -> ->. auto.
      - intros u v Hu Hv Hlt. assert (X : In (cl u * n + cl v) (map fst es)).
        { apply Hk. change (cl u * n + cl v) with (fst (cl u * n + cl v, (u, v))). apply in_map, span_calls_In. exists u, v. auto. }
        apply in_map_iff in X as ([key [a b]] & E & X). simpl in E. subst key. exists a, b.
        split; [change (a, b) with (snd (cl u * n + cl v, (a, b))); now apply in_map|].
        apply Hc, span_calls_In in X as (u' & v' & Hu' & Hv' & Hlt' & Ek & E). injection E as -> ->.
        destruct (G Hu Hv) as [Hv1 _]. destruct (G Hu' Hv') as [Hv2 _].
        destruct (key_inj (Hcl Hv1) (Hcl Hv2) Ek). auto.
      - rewrite map_map. apply NoDup_map_inv with (f := fun ab : nat * nat => fst ab * n + snd ab). rewrite map_map. simpl.
        erewrite map_ext_in; [exact Hnd|]. intros [key [a b]] Hin. simpl.
        apply Hc, span_calls_In in Hin as (u & v & _ & _ & _ & -> & E). now injection E as -> ->.
    Qed.
    Lemma inter_some : exists inter, intercluster hash limit n outn cl inter.
    Proof.
      set (T := new_table no_edge (table_for (span_num_clusters n cl * 5))).
      set (sched := fair (length calls) (3 * limit + 5)).
      assert (Hf : cfinished (cexec hash no_edge limit calls sched (cstart T calls))).
      { intros i p E. assert (Hi : i < length calls).
        { apply nth_error_Some in E || idtac. rewrite <- (map_length (fun _ => CEnter) calls).
          change (map (fun _ => CEnter) calls) with (cpcs (cstart T calls)).
          rewrite <- (cexec_len hash no_edge limit calls sched (cstart T calls)). apply nth_error_Some. rewrite E. discriminate. }
        destruct (@check_ends _ hash no_edge limit calls T sched i Hi) as [r Hr]; [now apply fair_steps|].
        exists r. unfold creturned in Hr. rewrite E in Hr. congruence. }
      destruct (cab (cexec hash no_edge limit calls sched (cstart T calls))) eqn:Ea.
      - set (m := table_for (length calls)). set (sched' := fair (length calls) (3 * m + 2)). eexists.
        eapply (@inter_exact hash limit n outn cl sched sched' Hf Ea). fold m.
        assert (Hd : distinct (keys_of (new_table no_edge m) ++ map fst calls) <= m).
        { replace (keys_of (new_table no_edge m)) with (@nil nat) by (unfold keys_of, new_table; clear; induction m; simpl; auto).
          simpl. unfold distinct. pose proof (table_for_fits (length calls)).
          assert (length (nodup Nat.eq_dec (map fst calls)) <= length (map fst calls)).
          { apply NoDup_incl_length; [apply NoDup_nodup|]. intros x Hx. now apply nodup_In in Hx. }
          rewrite map_length in *. unfold m. lia. }
        destruct (@C28_insert _ hash no_edge m (new_table no_edge m) calls sched' (table_for_pos _) (reached_new _ _ _ _ _) Hd) as [Hw _].
        intros i p E. assert (Hi : i < length calls).
        { destruct (le_lt_dec (length calls) i) as [X|]; auto. exfalso.
          assert (Y : length (pcs (exec no_edge (fun _ v => v) None calls sched' (start hash (new_table no_edge m) calls))) = length calls).
          { clear. unfold HTModel.exec. generalize sched'. intros l. 
            assert (Z : forall s, length (pcs (fold_left (sys_step no_edge (fun _ v => v) None calls) l s)) = length (pcs s)).
            { induction l as [|i l IH]; intros s; simpl; auto. rewrite IH. unfold sys_step. destruct (nth_error calls i); auto.
              destruct (nth_error (pcs s) i); auto. destruct (tstep _ _ _ _ _ _ _ _) as [[? ?] ?]. simpl. apply length_lset. }
            rewrite Z. simpl. apply map_length. }
          assert (nth_error (pcs (exec no_edge (fun _ v => v) None calls sched' (start hash (new_table no_edge m) calls))) i = None).
          { apply nth_error_None. lia. } congruence. }
        destruct (Hw i Hi) as [r Hr]; [now apply fair_steps|]. exists r. unfold returned in Hr. rewrite E in Hr. congruence.
      - eexists. exact (@inter_estimated hash limit n outn cl sched Hf Ea).
    Qed.
  End Inter.

  Section Tree.
    Variable m : nat.
    Variable incs : list nat.
    Variables clu par : nat -> option nat.
    Variable R : nat.
    Hypothesis G : undirected n outn.
    Hypothesis HC : forall v, v < n -> exists c k, c < n /\ k < R /\ in_cluster outn clu par c k v.
    Notation cl := (cluster_of n clu).
    Notation tree := (span_tree n par).

    Lemma ic_clu c k v : in_cluster outn clu par c k v -> clu v = Some c.
    Proof. intros H. inversion H; auto. Qed.
    Lemma ic_root c k v : in_cluster outn clu par c k v -> par c = Some c.
    Proof. induction 1; auto. Qed.
    Lemma ic_lt c k x : c < n -> in_cluster outn clu par c k x -> x < n.
    Proof. intros Hc. induction 1 as [|k p v _ IH _ _ Hin _]; auto. now destruct (G IH Hin). Qed.
    Lemma cl_lt v : v < n -> cl v < n.
    Proof. intros Hv. destruct (HC Hv) as (c & k & Hc & _ & H). unfold cluster_of. now rewrite (ic_clu H). Qed.
    Lemma clu_cl v : v < n -> clu v = Some (cl v).
    Proof. intros Hv. destruct (HC Hv) as (c & k & Hc & _ & H). unfold cluster_of. now rewrite (ic_clu H). Qed.
    Lemma tree_In a b : In (a, b) tree <-> a < n /\ a <> b /\ b = match par a with Some p => p | None => S n end.
    Proof.
      unfold span_tree. rewrite filter_In, in_map_iff. simpl. rewrite negb_true_iff, Nat.eqb_neq. split.
      - intros [(x & E & Hx) Hn]. injection E as -> <-. apply in_seq in Hx. repeat split; auto. lia.
      - intros (Ha & Hn & E). split; auto. exists a. split; [now rewrite E|]. apply in_seq. lia.
    Qed.
    Lemma ic_walk c k v : c < n -> v < n -> in_cluster outn clu par c k v -> walk tree k v c.
    Proof.
      intros Hc Hv H. revert Hv. induction H as [H1 H2|k p v H IH Hp Hne Hin Hcl]; intros Hv; [constructor|].
      assert (Hpn : p < n).
      { destruct (HC Hv) as (c' & k' & Hc' & _ & H'). inversion H'; subst; [congruence|]. assert (p0 = p) by congruence. subst p0.
        exact (ic_lt Hc' H0). }
      eapply walk_fwd; [|apply IH; auto]. apply tree_In. rewrite Hp. auto.
    Qed.
    Lemma tree_edge a b : In (a, b) tree -> a < n /\ In b (outn a) /\ cl a = cl b.
    Proof.
      intros H. apply tree_In in H as (Ha & Hn & E). destruct (HC Ha) as (c & k & Hc & _ & H).
      inversion H; subst.
      - rewrite H1 in Hn. congruence.
      - rewrite H1 in *. split; auto. assert (Hp : p < n) by exact (ic_lt Hc H0). split; [now apply (G Hp)|].
        unfold cluster_of. now rewrite H4, (ic_clu H0).
    Qed.
    Lemma tree_NoDup : NoDup tree.
    Proof.
      unfold span_tree. apply NoDup_filter'. apply NoDup_map_inv with (f := fst). rewrite map_map. simpl. rewrite map_id. apply seq_NoDup.
    Qed.
    Lemma tree_acyclic a b : In (a, b) tree -> ~ In (b, a) tree.
    Proof.
      intros H1 H2. apply tree_In in H1 as (Ha & Hn & E1). apply tree_In in H2 as (Hb & _ & E2).
      destruct (HC Ha) as (c & k & _ & _ & H).
      assert (P1 : par a = Some b) by (destruct (par a); [congruence|lia]).
      assert (P2 : par b = Some a) by (destruct (par b); [congruence|lia]).
      clear Ha Hb E1 E2. revert a b Hn P1 P2 H. induction k as [|k IH]; intros a b Hn P1 P2 H; inversion H; subst; [congruence|].
      assert (p = b) by congruence. subst p. apply (IH b a); auto.
    Qed.
    Lemma tree_length : length tree = n - length (cluster_ids n clu).
    Proof.
      assert (E : length tree = length (filter (fun i => negb (i =? match par i with Some p => p | None => S n end)) (seq 0 n))).
      { unfold span_tree. generalize (seq 0 n). intros l. induction l as [|x l IH]; simpl; auto. destruct (negb _); simpl; auto. }
      assert (E2 : cluster_ids n clu = filter (fun i => i =? match par i with Some p => p | None => S n end) (seq 0 n)).
      { unfold cluster_ids. apply filter_ext_in'. intros c Hc. apply in_seq in Hc. apply eq_true_iff_eq. rewrite existsb_exists, Nat.eqb_eq. split.
        - intros (v & Hv & E1). apply in_seq in Hv. assert (Hv' : v < n) by lia. destruct (HC Hv') as (c' & k & _ & _ & H).
          rewrite (ic_clu H) in E1. apply Nat.eqb_eq in E1. subst c'. now rewrite (ic_root H).
        - intros E1. exists c. split; [apply in_seq; lia|]. assert (Hv' : c < n) by lia. destruct (HC Hv') as (c' & k & _ & _ & H).
          inversion H; subst; [rewrite H0; apply Nat.eqb_refl|]. rewrite H1 in E1. congruence. }
      rewrite E, E2. pose proof (@filter_parts nat (fun i => i =? match par i with Some p => p | None => S n end) (seq 0 n)) as X.
      rewrite seq_length in X. lia.
    Qed.

    Section Whole.
      Variable inter : list (nat * nat).
      Hypothesis HI : intercluster hash limit n outn cl inter.
      Lemma whole_edges a b : In (a, b) (tree ++ inter) -> a < n /\ In b (outn a).
      Proof.
        intros H. destruct (inter_ok G cl_lt HI) as (I1 & _ & _). apply in_app_iff in H as [H|H]; [destruct (tree_edge H) as (? & ? & _)|destruct (I1 _ _ H) as (? & ? & _)]; auto.
      Qed.
      Lemma whole_NoDup : NoDup (tree ++ inter) /\ (forall a b, In (a, b) (tree ++ inter) -> ~ In (b, a) (tree ++ inter)).
      Proof.
        destruct (inter_ok G cl_lt HI) as (I1 & _ & I3). split.
        - apply NoDup_app_iff. split; [apply tree_NoDup|]. split; [now apply NoDup_map_inv in I3|].
          intros [a b] H1 H2. destruct (tree_edge H1) as (_ & _ & E). destruct (I1 _ _ H2) as (_ & _ & X). lia.
        - intros a b H1 H2. apply in_app_iff in H1, H2. destruct H1 as [H1|H1], H2 as [H2|H2].
          + exact (tree_acyclic H1 H2).
          + destruct (tree_edge H1) as (_ & _ & E). destruct (I1 _ _ H2) as (_ & _ & X). lia.
          + destruct (tree_edge H2) as (_ & _ & E). destruct (I1 _ _ H1) as (_ & _ & X). lia.
          + destruct (I1 _ _ H1) as (_ & _ & E). destruct (I1 _ _ H2) as (_ & _ & X). lia.
      Qed.
      Lemma inter_length : length inter = length (adjacent_pairs n outn clu).
      Proof.
        destruct (inter_ok G cl_lt HI) as (I1 & I2 & I3). rewrite <- (map_length (fun e => (cl (fst e), cl (snd e))) inter).
        apply Permutation_length, NoDup_Permutation; auto.
        - unfold adjacent_pairs. apply NoDup_filter'. apply NoDup_prod; apply seq_NoDup.
        - intros [x y]. unfold adjacent_pairs. rewrite filter_In, in_prod_iff, !in_seq, in_map_iff. simpl. split.
          + intros ([a b] & E & H). simpl in E. injection E as <- <-. destruct (I1 _ _ H) as (Ha & Hb & Hlt). destruct (G Ha Hb) as [Hbn _].
            pose proof (cl_lt Ha). pose proof (cl_lt Hbn). split; [lia|]. apply andb_true_intro. split; [now apply Nat.ltb_lt|].
            apply existsb_exists. exists a. split; [apply in_seq; lia|]. apply existsb_exists. exists b. split; auto.
            rewrite (clu_cl Ha), (clu_cl Hbn). now rewrite !Nat.eqb_refl.
          + intros [_ H]. apply andb_prop in H as [Hlt H]. apply Nat.ltb_lt in Hlt. apply existsb_exists in H as (u & Hu & H).
            apply existsb_exists in H as (v & Hv & H). apply in_seq in Hu. assert (Hun : u < n) by lia. destruct (G Hun Hv) as [Hvn _].
            rewrite (clu_cl Hun), (clu_cl Hvn) in H. apply andb_prop in H as [E1 E2]. apply Nat.eqb_eq in E1, E2. subst x y.
            destruct (I2 _ _ Hun Hv Hlt) as (a & b & Hab & E1 & E2). exists (a, b). simpl. split; [congruence|auto].
      Qed.
      Lemma near u : u < n -> exists k, k <= R - 1 /\ walk tree k u (cl u).
      Proof.
        intros Hu. destruct (HC Hu) as (c & k & Hc & Hk & H). exists k. split; [lia|]. replace (cl u) with c; [now apply ic_walk|].
        unfold cluster_of. now rewrite (ic_clu H).
      Qed.
      Lemma same_cluster u v : u < n -> v < n -> cl u = cl v -> exists k, k <= 2 * (R - 1) /\ walk tree k u v.
      Proof.
        intros Hu Hv E. destruct (near Hu) as (a & Ha & Wa). destruct (near Hv) as (b & Hb & Wb). exists (a + b). split; [lia|].
        eapply walk_app; [exact Wa|]. rewrite E. now apply walk_sym.
      Qed.
      Lemma stretch u v : u < n -> In v (outn u) -> exists d, d <= 4 * (R - 1) + 1 /\ walk (tree ++ inter) d u v.
      Proof.
        intros Hu Hv. destruct (G Hu Hv) as [Hvn Huv]. destruct (inter_ok G cl_lt HI) as (I1 & I2 & _).
        assert (Hi : incl tree (tree ++ inter)) by (intros x Hx; apply in_or_app; auto).
        assert (Hcase : forall u v, u < n -> v < n -> In v (outn u) -> cl u < cl v -> exists d, d <= 4 * (R - 1) + 1 /\ walk (tree ++ inter) d u v).
        { clear u v Hu Hv Hvn Huv. intros u v Hu Hvn Hv Hlt. destruct (I2 _ _ Hu Hv Hlt) as (a & b & Hab & Ea & Eb).
          destruct (I1 _ _ Hab) as (Ha & Hb & _). destruct (G Ha Hb) as [Hbn _].
          destruct (same_cluster Hu Ha (eq_sym Ea)) as (x & Hx & Wx). destruct (same_cluster Hbn Hvn Eb) as (y & Hy & Wy).
          exists (x + S y). split; [lia|]. eapply walk_app; [exact (walk_incl Hi Wx)|]. eapply walk_fwd; [apply in_or_app; right; exact Hab|].
          exact (walk_incl Hi Wy). }
        destruct (Nat.lt_trichotomy (cl u) (cl v)) as [Hlt|[E|Hlt]].
        - now apply Hcase.
        - destruct (same_cluster Hu Hvn E) as (k & Hk & Wk). exists k. split; [lia|]. exact (walk_incl Hi Wk).
        - destruct (Hcase v u Hvn Hu Huv Hlt) as (d & Hd & W). exists d. split; auto. now apply walk_sym.
      Qed.
    End Whole.
  End Tree.
End Spanner.
