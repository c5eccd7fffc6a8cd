(* Proofs for C68: relabelling, blocks and the programs. *)
From Coq Require Import ZArith Permutation Sorted.
From Verif Require Import Base ListUtil GBModel GBProofs ISModel SFModel SFSpec SFProofs SFProps TCModel TCSpec TCProofs FCSpec FCModel FCCount FCKow FCEsc.
Unset Strict Implicit.
Local Open Scope nat_scope.

(* the rows of the relabelled graph *)
Lemma sum_before_rows {A} (rows : list (list A)) (d : nat -> nat) i : i <= length rows -> (forall j, j < length rows -> d j = length (nth j rows [])) ->
  sum_before d i = length (concat (firstn i rows)).
Proof.
  intros Hi Hd. unfold sum_before. induction i as [|i IH]; auto. rewrite seq_S, map_app, list_sum_app, IH by lia. cbn [map list_sum fold_right Nat.add].
  assert (E : nth_error rows i = Some (nth i rows [])) by (apply nth_error_nth'; lia). rewrite (firstn_snoc _ _ E), concat_app, app_length. cbn [concat]. rewrite app_nil_r, Hd by lia. lia.
Qed.
Lemma skipn_concat {A} (rows : list (list A)) i : skipn (length (concat (firstn i rows))) (concat rows) = concat (skipn i rows).
Proof.
  rewrite <- (firstn_skipn i rows) at 2. rewrite concat_app, skipn_app, skipn_all, Nat.sub_diag. reflexivity.
Qed.
Lemma row_at {A} (rows : list (list A)) i : i < length rows -> firstn (length (nth i rows [])) (concat (skipn i rows)) = nth i rows [].
Proof.
  intros Hi. revert i Hi. induction rows as [|r rows IH]; intros [|i] Hi; cbn [length] in Hi; try lia.
  - cbn. rewrite firstn_app, firstn_all, Nat.sub_diag. cbn. now rewrite app_nil_r.
  - cbn [nth skipn]. apply IH. lia.
Qed.

Section Relabel.
  Variable G H : csr unit.
  Variable o : list nat.
  Hypothesis HG : plain_graph G.
  Hypothesis Ho : Permutation o (seq 0 (gn G)).
  Hypothesis HR : relabeled G o H.
  Notation n := (gn G).

  Lemma o_lt i : i < n -> nth i o 0 < n.
  Proof. intros Hi. assert (X : In (nth i o 0) o) by (apply nth_In; rewrite (Permutation_length Ho), seq_length; auto). apply (Permutation_in _ Ho), in_seq in X. lia. Qed.
  Lemma o_inj i j : i < n -> j < n -> nth i o 0 = nth j o 0 -> i = j.
  Proof.
    intros Hi Hj E. apply (proj1 (NoDup_nth o 0)) in E; auto; rewrite ?(Permutation_length Ho), ?seq_length; auto.
    eapply Permutation_NoDup; [apply Permutation_sym; exact Ho|apply seq_NoDup].
  Qed.
  Lemma o_onto v : v < n -> exists i, i < n /\ nth i o 0 = v.
  Proof.
    intros Hv. assert (X : In v o) by (apply (Permutation_in _ (Permutation_sym Ho)), in_seq; lia). apply (In_nth _ _ 0) in X as (i & Hi & E).
    rewrite (Permutation_length Ho), seq_length in Hi. eauto.
  Qed.
  Lemma relabel_spec : gn H = n /\ forall i, i < n -> decreasing (nbrs H i) /\ forall j, In j (nbrs H i) <-> j < n /\ adj G (nth i o 0) (nth j o 0).
  Proof.
    destruct HR as (r & rows & Hr & Hl & Hrow & E). cbn zeta in E. set (degree := fun i => length (neighbors G (nth i o 0))) in E.
    destruct (@rank_nodes_ok o n Ho) as [_ R]. destruct (R r Hr) as [_ Hrk]. clear R.
    assert (Hd : forall j, j < length rows -> degree j = length (nth j rows [])).
    { intros j Hj. destruct (Hrow j) as [P _]; [lia|]. apply Permutation_length in P. rewrite map_length in P. unfold degree. lia. }
    split; [rewrite E; reflexivity|]. intros i Hi.
    assert (En : neighbors H i = nth i rows []).
    { rewrite E. unfold neighbors. cbn [gdeg goff gngh]. rewrite (@nth_map_seq _ (fun i => sum_before degree (i + 1) - sum_before degree i)) by auto. rewrite (@nth_map_seq _ (sum_before degree)) by auto.
      assert (S1 : sum_before degree (i + 1) = sum_before degree i + degree i).
      { unfold sum_before. rewrite Nat.add_1_r, seq_S, map_app, list_sum_app. cbn. lia. }
      rewrite S1. replace (sum_before degree i + degree i - sum_before degree i) with (degree i) by lia.
      rewrite (@sum_before_rows _ rows) by (auto; lia). rewrite skipn_concat, Hd by lia. apply row_at. lia. }
    unfold nbrs. rewrite En. destruct (Hrow i Hi) as [P S]. pose proof (o_lt Hi) as Hoi. destruct (HG Hoi) as (Nd & _ & Sy).
    assert (HIn : forall j, In j (map fst (nth i rows [])) <-> j < n /\ adj G (nth i o 0) (nth j o 0)).
    { intros j. assert (P' : Permutation (map fst (nth i rows [])) (map (fun v => nth v r 0) (map fst (neighbors G (nth i o 0))))).
      { rewrite (Permutation_map fst P), !map_map. reflexivity. }
      split.
      - intros Hj. apply (Permutation_in _ P') in Hj. apply in_map_iff in Hj as (v & Ev & Hv). assert (Hvn : v < n) by (apply Sy in Hv; tauto).
        destruct (o_onto Hvn) as (k & Hk & Ek). rewrite <- Ek, Hrk in Ev by auto. subst j. split; auto. now rewrite Ek.
      - intros [Hj Ha]. apply (Permutation_in _ (Permutation_sym P')). apply in_map_iff. exists (nth j o 0). split; [now apply Hrk|exact Ha]. }
    split; auto.
    assert (Nr : NoDup (map fst (nth i rows []))).
    { eapply Permutation_NoDup; [apply Permutation_sym, (Permutation_map fst P)|]. rewrite map_map. cbn [fst]. rewrite <- (map_map fst (fun v => nth v r 0)).
      clear - Nd Sy Hrk Ho. assert (X : forall l, NoDup l -> (forall v, In v l -> v < n) -> NoDup (map (fun v => nth v r 0) l)).
      { intros l Hn0. induction Hn0 as [|v l Hv Hn IH]; intros Hl; [constructor|]. cbn. constructor; [|apply IH; intros; apply Hl; now right]. intros X. apply in_map_iff in X as (v' & E & Hv').
        destruct (@o_onto v) as (k & Hk & <-); [apply Hl; now left|]. destruct (@o_onto v') as (k' & Hk' & <-); [apply Hl; now right|]. rewrite !Hrk in E by auto. subst. auto. }
      apply X; auto. intros v Hv. apply Sy in Hv. tauto. }
    clear - S Nr. revert Nr. induction S as [|x l Hs IH Hf]; cbn; intros Nr; [constructor|]. inversion Nr; subst. constructor; [apply IH; auto|].
    rewrite Forall_forall in *. intros y Hy. assert (y <> fst x) by congruence. apply in_map_iff in Hy as (z & <- & Hz). apply Hf in Hz. lia.
  Qed.
  Lemma H_dec v : v < n -> decreasing (nbrs H v).
  Proof. intros Hv. now apply relabel_spec. Qed.
  Lemma H_sym u v : u < n -> In v (nbrs H u) -> v < n /\ In u (nbrs H v).
  Proof.
    intros Hu Hv. apply relabel_spec in Hv as [Hv Ha]; auto. split; auto. apply relabel_spec; auto. split; auto.
    pose proof (o_lt Hu) as Hou. now apply HG in Ha.
  Qed.
  Lemma H_irr u : u < n -> ~ In u (nbrs H u).
  Proof. intros Hu X. apply relabel_spec in X as [_ X]; auto. pose proof (o_lt Hu) as Hou. destruct (HG Hou) as (_ & Hi & _). auto. Qed.
  Definition tmap (f : nat -> nat) (t : tup) : tup := let '(a, b, c, d, e) := t in (f a, f b, f c, f d, f e).
  Lemma walk_map t : closed_walk n (fun u v => In v (nbrs H u)) t -> closed_walk n (adj G) (tmap (fun i => nth i o 0) t).
  Proof.
    destruct t as [[[[a b] c] d] e]. cbn [closed_walk tmap]. rewrite !nodup5. intros ((Ha & Hb & Hc & Hd & He) & D & H1 & H2 & H3 & H4 & H5).
    split; [repeat split; now apply o_lt|]. split; [repeat split; intros X; apply o_inj in X; auto; tauto|].
    apply relabel_spec in H1, H2, H3, H4, H5; auto. tauto.
  Qed.
  Lemma walk_unmap t : closed_walk n (adj G) t -> exists t', closed_walk n (fun u v => In v (nbrs H u)) t' /\ tmap (fun i => nth i o 0) t' = t.
  Proof.
    destruct t as [[[[a b] c] d] e]. cbn [closed_walk]. rewrite !nodup5. intros ((Ha & Hb & Hc & Hd & He) & D & H1 & H2 & H3 & H4 & H5).
    destruct (o_onto Ha) as (a' & Ha' & <-), (o_onto Hb) as (b' & Hb' & <-), (o_onto Hc) as (c' & Hc' & <-), (o_onto Hd) as (d' & Hd' & <-), (o_onto He) as (e' & He' & <-).
    exists (a', b', c', d', e'). split; auto. cbn [closed_walk]. rewrite !nodup5. split; auto. split; [repeat split; intros ->; tauto|]. repeat split; apply relabel_spec; auto.
  Qed.
  Lemma walks_same T T' : NoDup T -> NoDup T' -> (forall t, In t T <-> closed_walk n (adj G) t) -> (forall t, In t T' <-> closed_walk n (fun u v => In v (nbrs H u)) t) -> length T' = length T.
  Proof.
    intros N1 N2 I1 I2. rewrite <- (map_length (tmap (fun i => nth i o 0)) T'). apply Permutation_length, NoDup_Permutation; auto.
    - assert (X : forall l, NoDup l -> (forall t, In t l -> closed_walk n (fun u v => In v (nbrs H u)) t) -> NoDup (map (tmap (fun i => nth i o 0)) l)).
      { intros l Hn0. induction Hn0 as [|t l Ht Hn IH]; intros Hl; [constructor|]. cbn [map]. constructor; [|apply IH; intros; apply Hl; now right]. intros X. apply in_map_iff in X as (t' & E & Ht'). apply Ht.
        replace t with t'; auto. assert (W1 := Hl t (or_introl eq_refl)). assert (W2 := Hl t' (or_intror Ht')). destruct t as [[[[a b] c] d] e], t' as [[[[a' b'] c'] d'] e'].
        destruct W1 as ((?&?&?&?&?) & _), W2 as ((?&?&?&?&?) & _). cbn [tmap] in E. injection E. intros X1 X2 X3 X4 X5. apply o_inj in X1, X2, X3, X4, X5; auto. congruence. }
      apply X; auto. intros t Ht. now apply I2.
    - intros t. rewrite in_map_iff, I1. split.
      + intros (t' & <- & Ht'). apply walk_map. now apply I2.
      + intros Ht. apply walk_unmap in Ht as (t' & W & E). exists t'. split; auto. now apply I2.
  Qed.
End Relabel.

Lemma adj_dec {W} (G : csr W) u v : {adj G u v} + {~ adj G u v}.
Proof. apply in_dec, Nat.eq_dec. Qed.
Lemma five_cycle_walk (G : csr unit) t : plain_graph G -> (five_cycle G t <-> closed_walk (gn G) (adj G) t /\ canonical t = true).
Proof.
  intros HG. destruct t as [[[[a b] c] d] e]. cbn [five_cycle closed_walk canonical least]. rewrite !andb_true_iff, !Nat.ltb_lt. split.
  - intros (Ha & D & H1 & H2 & H3 & H4 & H5 & (L1 & L2 & L3 & L4) & L5).
    assert (Hb : b < gn G) by (apply HG in H1; tauto). assert (Hc : c < gn G) by (apply HG in H2; tauto). assert (Hd : d < gn G) by (apply HG in H3; tauto). assert (He : e < gn G) by (apply HG in H4; tauto). tauto.
  - tauto.
Qed.
Lemma number_walks (G : csr unit) k T : plain_graph G -> NoDup T -> (forall t, In t T <-> closed_walk (gn G) (adj G) t) -> (number_of_five_cycles G k <-> 10 * k = length T).
Proof.
  intros HG HT TIn. assert (Hs : forall u v, u < gn G -> adj G u v -> v < gn G /\ adj G v u) by (intros u v Hu Hv; now apply HG in Hv).
  rewrite <- (@chosen_count _ _ Hs T HT TIn canonical) by (intros; eapply canonical_hits; eauto). split.
  - intros (cs & N & I & <-). f_equal. apply Permutation_length, NoDup_Permutation; auto; [now apply NoDup_filter'|]. intros t. rewrite I, filter_In, TIn. now apply five_cycle_walk.
  - intros E. exists (filter canonical T). split; [now apply NoDup_filter'|]. split; [|symmetry; apply (Nat.mul_cancel_l _ _ 10); [lia|exact E]]. intros t. rewrite filter_In, TIn. symmetry. now apply five_cycle_walk.
Qed.
Lemma number_exists (G : csr unit) : plain_graph G -> exists k, number_of_five_cycles G k.
Proof.
  intros HG. destruct (@walks_exist (gn G) (adj G) (@adj_dec unit G)) as (T & HT & TIn). exists (length (filter canonical T)). exists (filter canonical T). split; [now apply NoDup_filter'|].
  split; auto. intros t. rewrite filter_In, TIn. symmetry. now apply five_cycle_walk.
Qed.

(* the blocks cover the vertices *)
Lemma sum_before_mono f i j : i <= j -> sum_before f i <= sum_before f j.
Proof. intros H. unfold sum_before. replace j with (i + (j - i)) by lia. rewrite seq_app, map_app, list_sum_app. lia. Qed.
Section Blocks.
  Variables bsz n : nat.
  Variable g : nat -> list nat.
  Hypothesis Hbsz : 2 <= bsz.
  Notation total := (total_work n g).
  Lemma work_per_block_pos : 0 < total -> 0 < work_per_block bsz n g.
  Proof. intros H. unfold work_per_block. apply Nat.div_str_pos. split; [lia|]. assert (total / bsz < total) by (apply Nat.div_lt; lia). lia. Qed.
  Lemma n_blocks_none : n_blocks bsz n g = None <-> total = 0.
  Proof.
    unfold n_blocks. destruct (Nat.eqb_spec (work_per_block bsz n g) 0) as [E|E]; split; auto; try discriminate.
    - intros _. destruct (Nat.eq_dec total 0); auto. pose proof work_per_block_pos. lia.
    - intros X. exfalso. apply E. unfold work_per_block. rewrite X. apply Nat.div_0_l. lia.
  Qed.
  Lemma block_lt b i : In i (block bsz n g b) -> i < n.
  Proof.
    unfold block. cbn zeta. intros H. apply in_seq in H. destruct (bsearch_spec (scanned n g) ((b + 1) * work_per_block bsz n g)) as [A _].
    unfold scanned in A at 2. rewrite map_length, seq_length in A. lia.
  Qed.
  Lemma blocks_cover nb : n_blocks bsz n g = Some nb -> concat (map (block bsz n g) (seq 0 nb)) = seq 0 n.
  Proof.
    unfold n_blocks. destruct (Nat.eqb_spec (work_per_block bsz n g) 0) as [E|E]; [discriminate|]. intros X. injection X as <-.
    set (wpb := work_per_block bsz n g) in *. set (a := fun b => bsearch (scanned n g) (b * wpb)).
    replace (map (block bsz n g) (seq 0 (total / wpb + 1))) with (map (fun b => seq (a b) (a (S b) - a b)) (seq 0 (total / wpb + 1))).
    - destruct (@seqs_concat a (total / wpb + 1)) as [C _]; [intros; apply bsearch_mono; nia|]. rewrite C.
      assert (A0 : a 0 = 0).
      { unfold a. cbn [Nat.mul]. destruct (scanned n g); auto. }
      assert (An : a (total / wpb + 1) = n).
      { unfold a. destruct (bsearch_spec (scanned n g) ((total / wpb + 1) * wpb)) as (B1 & _ & B2). set (k := bsearch _ _) in *.
        assert (L : length (scanned n g) = n) by (unfold scanned; now rewrite map_length, seq_length). rewrite L in *. destruct (Nat.eq_dec k n); auto. specialize (B2 ltac:(lia)).
        unfold scanned in B2. rewrite nth_map_seq in B2 by lia. pose proof (@sum_before_mono (work g) k n). fold (total_work n g) in H.
        pose proof (Nat.div_mod total wpb E). pose proof (Nat.mod_upper_bound total wpb E). nia. }
      rewrite A0, An. now rewrite Nat.sub_0_r.
    - apply map_ext. intros b. unfold block, a. cbn zeta. fold wpb. now rewrite Nat.add_1_r.
  Qed.
End Blocks.

Section Programs.
  Variable G : csr unit.
  Hypothesis HG : plain_graph G.
  Hypothesis Hn : (Z.of_nat (gn G) < 2 ^ 32)%Z.
  Variable k : nat.
  Hypothesis Hk : number_of_five_cycles G k.
  Notation n := (gn G).

  Lemma filter_map_fst (p : nat -> bool) (l : list (nat * unit)) : map fst (filter (fun x => p (fst x)) l) = filter p (map fst l).
  Proof. induction l as [|x l IH]; cbn; auto. destruct (p (fst x)); cbn; now rewrite IH. Qed.
  Lemma filter_graph_nbrs (H D : csr unit) (p : nat -> nat -> bool) sh junk : (forall l, Permutation (sh l) l) -> filter_graph (fun u x => p u (fst x)) sh junk H = Some D ->
    forall v, v < gn H -> nbrs D v = filter (p v) (nbrs H v).
  Proof.
    intros Hs E v Hv. destruct (@C33_filter_graph unit (fun u x => p u (fst x)) sh junk H Hs) as (D' & E' & _ & _ & Hf & _). rewrite E in E'. injection E' as <-.
    unfold nbrs. rewrite Hf by auto. apply filter_map_fst.
  Qed.

  (* the relabelled graph has the same number of listings *)
  Lemma count_is (H : csr unit) o (l : list tup) : Permutation o (seq 0 n) -> relabeled G o H ->
    (forall T, NoDup T -> (forall t, In t T <-> closed_walk n (fun u v => In v (nbrs H u)) t) -> 10 * length l = length T) -> length l = k.
  Proof.
    intros Ho HR HL. destruct (@walks_exist n (adj G) (@adj_dec unit G)) as (T & HT & TIn).
    destruct (@walks_exist n (fun u v => In v (nbrs H u))) as (T' & HT' & TIn'); [intros; apply in_dec, Nat.eq_dec|].
    pose proof (HL T' HT' TIn') as E1. rewrite (walks_same HG Ho HR HT HT' TIn TIn') in E1. apply (number_walks k HG HT TIn) in Hk. lia.
  Qed.

  Section Kowalik.
    Variables (rank : list nat) (GDO DGDO : csr unit) (o : list nat).
    Hypothesis Hrank : forall u v, u < n -> v < n -> nth u rank 0 = nth v rank 0 -> u = v.
    Hypothesis Ho : Permutation o (seq 0 n).
    Hypothesis HR : relabeled G o GDO.
    Hypothesis HD : directed_by rank GDO DGDO.
    Lemma dg_is v : v < n -> nbrs DGDO v = filter (fun x => nth v rank 0 <? nth x rank 0) (nbrs GDO v).
    Proof.
      intros Hv. destruct HD as (sh & junk & Hs & E). apply (@filter_graph_nbrs GDO DGDO (fun v x => nth v rank 0 <? nth x rank 0) sh junk Hs E).
      destruct (relabel_spec HG Ho HR) as [-> _]. auto.
    Qed.
    Lemma kow_len : length (flat_map (FCKow.tuples (nbrs GDO) (nbrs DGDO)) (seq 0 n)) = k.
    Proof.
      apply (count_is Ho HR). intros T HT TIn. apply (@kowalik_count n (nbrs GDO) (nbrs DGDO) (fun v => nth v rank 0)); auto.
      - intros v Hv. exact (H_dec HG Ho HR Hv).
      - intros u v Hu Hv. exact (H_sym HG Ho HR Hu Hv).
      - intros u Hu. exact (H_irr HG Ho HR Hu).
      - exact dg_is.
    Qed.
    Lemma kow_serial : serial (nbrs GDO) (nbrs DGDO) n = Some (w64 (Z.of_nat k)).
    Proof.
      rewrite (@FCKow.serial_ok n (nbrs GDO) (nbrs DGDO) (fun v => nth v rank 0)); auto.
      - unfold len. now rewrite kow_len.
      - intros v Hv. exact (H_dec HG Ho HR Hv).
      - intros u v Hu Hv. exact (H_sym HG Ho HR Hu Hv).
      - intros u Hu. exact (H_irr HG Ho HR Hu).
      - exact dg_is.
    Qed.
    Lemma kow_blocks nb range who order ws : (forall b i, b < nb -> In i (range b) -> i < n) -> Permutation order (seq 0 nb) ->
      clean_workers n ws -> concat (map range (seq 0 nb)) = seq 0 n ->
      exists ws', run_blocks (nbrs GDO) (nbrs DGDO) n nb range who order ws = Some (w64 (Z.of_nat k), ws') /\ clean_workers n ws' /\
        (forall p V, ws p = Some V -> exists V', ws' p = Some V' /\ vcap V' = vcap V) /\
        (forall p V, ws' p = Some V -> ws p = None -> vcap V = n).
    Proof.
      intros Hr Hp Hw Hc. rewrite <- kow_len. apply (@FCKow.blocks_ok n (nbrs GDO) (nbrs DGDO) (fun v => nth v rank 0)); auto.
      - intros v Hv. exact (H_dec HG Ho HR Hv).
      - intros u v Hu Hv. exact (H_sym HG Ho HR Hu Hv).
      - intros u Hu. exact (H_irr HG Ho HR Hu).
      - exact dg_is.
    Qed.
  End Kowalik.
  Section Escape.
    Variables (GDO OUTG ING : csr unit).
    Hypothesis HE : escape_graphs G GDO OUTG ING.
    Lemma esc_facts : exists o, Permutation o (seq 0 n) /\ relabeled G o GDO /\
      (forall v, v < n -> nbrs OUTG v = filter (fun x => v <? x) (nbrs GDO v)) /\ (forall v, v < n -> nbrs ING v = filter (fun x => x <? v) (nbrs GDO v)).
    Proof.
      destruct HE as (o & Ho & HR & sh1 & sh2 & j1 & j2 & S1 & S2 & E1 & E2). exists o. split; auto. split; auto. destruct (relabel_spec HG Ho HR) as [En _].
      split; intros v Hv; rewrite <- En in Hv.
      - apply (@filter_graph_nbrs GDO OUTG (fun v x => v <? x) sh1 j1 S1 E1 v Hv).
      - apply (@filter_graph_nbrs GDO ING (fun v x => x <? v) sh2 j2 S2 E2 v Hv).
    Qed.
    Lemma esc_serial : escape_serial n (nbrs GDO) (nbrs OUTG) (nbrs ING) = Some (w64 (Z.of_nat k)).
    Proof.
      destruct esc_facts as (o & Ho & HR & HO & HI).
      assert (D := fun v Hv => H_dec HG Ho HR (v := v) Hv). assert (S := fun u v Hu Hv => H_sym HG Ho HR (u := u) (v := v) Hu Hv). assert (I := fun u Hu => H_irr HG Ho HR (u := u) Hu).
      rewrite (FCEsc.serial_ok Hn D S I HO HI). unfold len. rewrite (@count_is GDO o (flat_map (FCEsc.tuples (nbrs GDO) (nbrs OUTG) (nbrs ING)) (seq 0 n))); auto.
      intros T HT TIn. now apply escape_count.
    Qed.
    Lemma esc_blocks nb range order : (forall b i, In i (range b) -> i < n) -> Permutation order (seq 0 nb) -> concat (map range (seq 0 nb)) = seq 0 n ->
      escape_blocks n (nbrs GDO) (nbrs OUTG) (nbrs ING) nb range order = Some (w64 (Z.of_nat k)).
    Proof.
      intros Hr Hp Hc. destruct esc_facts as (o & Ho & HR & HO & HI).
      assert (D := fun v Hv => H_dec HG Ho HR (v := v) Hv). assert (S := fun u v Hu Hv => H_sym HG Ho HR (u := u) (v := v) Hu Hv). assert (I := fun u Hu => H_irr HG Ho HR (u := u) Hu).
      rewrite (FCEsc.blocks_ok Hn D S I HO HI Hr Hp Hc). unfold len. rewrite (@count_is GDO o (flat_map (FCEsc.tuples (nbrs GDO) (nbrs OUTG) (nbrs ING)) (seq 0 n))); auto.
      intros T HT TIn. now apply escape_count.
    Qed.
  End Escape.
End Programs.

(* no work exactly without edges *)
Lemma total_zero (G H : csr unit) o : plain_graph G -> Permutation o (seq 0 (gn G)) -> relabeled G o H ->
  (total_work (gn G) (nbrs H) = 0 <-> forall u v, u < gn G -> ~ adj G u v).
Proof.
  intros HG Ho HR. destruct (relabel_spec HG Ho HR) as [_ RS]. unfold total_work, sum_before. split.
  - intros E u v Hu Ha. assert (Hv : v < gn G) by (apply HG in Ha; tauto). destruct (o_onto Ho Hu) as (i & Hi & <-), (o_onto Ho Hv) as (j & Hj & <-).
    assert (A : In j (nbrs H i)) by (apply RS; auto). assert (B : In i (nbrs H j)) by (now apply (H_sym HG Ho HR Hi)).
    assert (X : forall (f : nat -> nat) l x, In x l -> list_sum (map f l) = 0 -> f x = 0).
    { clear. induction l as [|y l IH]; cbn; intros x [] E; subst; [lia|]. apply IH; auto. unfold list_sum. lia. }
    assert (E1 : work (nbrs H) i = 0) by (eapply X; [|exact E]; apply in_seq; lia). unfold work in E1. apply (X _ _ j A) in E1. apply length_zero_iff_nil in E1. rewrite E1 in B. destruct B.
  - intros HN. apply list_sum_map_0. intros i Hi. apply in_seq in Hi. unfold work. replace (nbrs H i) with (@nil nat); auto.
    destruct (nbrs H i) as [|j l] eqn:El; auto. exfalso. assert (X : In j (nbrs H i)) by (rewrite El; now left). apply RS in X as [Hj Ha]; [|lia]. apply (HN (nth i o 0) (nth j o 0)); auto. apply (o_lt Ho). lia.
Qed.

(* the relabelled graph exists *)
Fixpoint dinsert (x : nat * unit) (l : list (nat * unit)) : list (nat * unit) :=
  match l with [] => [x] | y :: l' => if fst y <=? fst x then x :: l else y :: dinsert x l' end.
Lemma dinsert_perm x l : Permutation (dinsert x l) (x :: l).
Proof. induction l as [|y l IH]; cbn; auto. destruct (_ <=? _); auto. rewrite IH. constructor. Qed.
Lemma dinsert_sorted x l : StronglySorted (fun x y => fst y <= fst x) l -> StronglySorted (fun x y => fst y <= fst x) (dinsert x l).
Proof.
  induction 1 as [|y l Hs IH Hf]; cbn; [repeat constructor|]. destruct (Nat.leb_spec (fst y) (fst x)) as [H|H].
  - constructor; [constructor; auto|]. constructor; auto. eapply Forall_impl; [|exact Hf]. cbn. intros. lia.
  - constructor; auto. rewrite Forall_forall in *. intros z Hz. apply (Permutation_in _ (dinsert_perm x l)) in Hz as [<-|Hz]; [lia|auto].
Qed.
Definition dsort (l : list (nat * unit)) : list (nat * unit) := fold_right dinsert [] l.
Lemma dsort_ok l : Permutation (dsort l) l /\ StronglySorted (fun x y => fst y <= fst x) (dsort l).
Proof.
  induction l as [|x l [H1 H2]]; cbn; [split; constructor|]. split; [rewrite dinsert_perm; now constructor|now apply dinsert_sorted].
Qed.
Lemma relabel_exists (G : csr unit) o : Permutation o (seq 0 (gn G)) -> exists H, relabeled G o H.
Proof.
  intros Ho. destruct (@rank_nodes_ok o (gn G) Ho) as [(r & Hr) _].
  eexists. exists r, (map (fun i => dsort (map (fun x => (nth (fst x) r 0, snd x)) (neighbors G (nth i o 0)))) (seq 0 (gn G))). split; auto. split; [now rewrite map_length, seq_length|].
  split; [|reflexivity]. intros i Hi. rewrite nth_map_seq by auto. apply dsort_ok.
Qed.
Lemma degree_order_exists (G : csr unit) : exists o, by_decreasing_degree G o.
Proof.
  destruct (sorted_exists (fun v => length (gngh G) - length (neighbors G v)) (gn G)) as (o & Hp & Hs). exists o. split; auto. intros i j Hij. specialize (Hs i j Hij).
  assert (L : forall v, length (neighbors G v) <= length (gngh G)).
  { intros v. unfold neighbors. rewrite firstn_length, skipn_length. lia. }
  pose proof (L (nth i o 0)). pose proof (L (nth j o 0)). lia.
Qed.
