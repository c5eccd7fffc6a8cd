From Coq Require Import Permutation.
From Verif Require Import Base ListUtil VSModel EMModel EMSpec FAModel FASpec FAProofs SCModel SCSpec SCSearch SCFirst.

Lemma nth_error_firstn' {A} i k (l : list A) : i < k -> nth_error (firstn k l) i = nth_error l i.
Proof. revert i l. induction k as [|k IH]; intros i l H; [lia|]. destruct l, i; simpl; auto. apply IH. lia. Qed.
Lemma nth_error_skipn' {A} i k (l : list A) : nth_error (skipn k l) i = nth_error l (k + i).
Proof. revert l. induction k as [|k IH]; intros l; auto. destruct l; simpl; auto. now destruct i. Qed.
Lemma in_firstn_skipn {A} (x : A) i j l : In x (firstn i (skipn j l)) -> In x l.
Proof. intros H. rewrite <- (firstn_skipn j l). apply in_app_iff. right. rewrite <- (firstn_skipn i (skipn j l)). apply in_app_iff. auto. Qed.
(* -- the order of the labels -- *)
Definition lle (a b : label) : Prop := lless b a = false.
Lemma lless_spec a b : lless a b = true <-> (fst a = false /\ fst b = true) \/ (fst a = fst b /\ snd a < snd b).
Proof.
  destruct a as [x i], b as [y j]. unfold lless. simpl. rewrite orb_true_iff, !andb_true_iff, Nat.ltb_lt, Bool.eqb_true_iff. destruct x, y; simpl; intuition (try discriminate; try lia).
Qed.
Lemma lle_spec a b : lle a b <-> (fst a = false /\ fst b = true) \/ (fst a = fst b /\ snd a <= snd b).
Proof.
  unfold lle. rewrite <- not_true_iff_false, lless_spec. destruct a as [[|] i], b as [[|] j]; simpl; split; intros H; try (left; split; reflexivity; fail);
    try (right; split; auto; lia); try lia; destruct H as [[H1 H2]|[H1 H2]]; try discriminate; intros [[H3 H4]|[H3 H4]]; try discriminate; lia.
Qed.
Lemma lle_refl a : lle a a. Proof. apply lle_spec. auto. Qed.
Lemma lle_trans a b c : lle a b -> lle b c -> lle a c.
Proof. rewrite !lle_spec. intros [[A B]|[A B]] [[C D]|[C D]]; try congruence; [left|left|right]; split; try congruence; lia. Qed.
Lemma lle_anti a b : lle a b -> lle b a -> a = b.
Proof.
  rewrite !lle_spec. destruct a as [x i], b as [y j]. simpl. intros [[A B]|[A B]] [[C D]|[C D]]; try congruence. f_equal; auto. lia.
Qed.
Lemma fold_wmax (g : nat * nat -> label) ps : forall L v, let x := fold_left (fun L p => wmax L (fst p) (g p)) ps L v in
  (x = L v \/ exists p, In p ps /\ fst p = v /\ x = g p) /\ lle (L v) x /\ forall p, In p ps -> fst p = v -> lle (g p) x.
Proof.
  induction ps as [|p ps IH]; intros L v; cbn [fold_left]; [repeat split; auto using lle_refl; easy|].
  set (L1 := wmax L (fst p) (g p)). destruct (IH L1 v) as (A & B & C). set (x := fold_left _ ps L1 v) in *.
  assert (HL : (L1 v = L v \/ (fst p = v /\ L1 v = g p)) /\ lle (L v) (L1 v) /\ (fst p = v -> lle (g p) (L1 v))).
  { unfold L1, wmax, fset. destruct (Nat.eqb_spec v (fst p)) as [->|Hne].
    - destruct (lless (L (fst p)) (g p)) eqn:E; repeat split; auto using lle_refl.
      apply lle_spec. apply lless_spec in E. destruct E as [E|[E1 E2]]; auto. right. split; auto. lia.
    - repeat split; auto using lle_refl. intros X. congruence. }
  destruct HL as (H1 & H2 & H3). split; [|split].
  - destruct A as [A|(q & Q1 & Q2 & Q3)]; [|right; exists q; split; [now right|auto]].
    destruct H1 as [H1|[H1 H1']]; [left; congruence|right; exists p; split; [now left|split; congruence]].
  - eapply lle_trans; eauto.
  - intros q [<-|Hq] E; [eapply lle_trans; eauto|auto].
Qed.

Lemma creach_reach outn L c v : creach outn L c v -> reachable outn c v.
Proof. induction 1 as [|u v H [k IH] Hv _ _]; [apply reach_refl|]. exists (S k). econstructor; eauto. Qed.
Lemma freach_reach outn L c v : freach outn L c v -> reachable outn c v.
Proof. induction 1 as [|u v H [k IH] Hv _]; [apply reach_refl|]. exists (S k). econstructor; eauto. Qed.
Lemma creach_live outn L c v : fst (L c) = false -> creach outn L c v -> fst (L v) = false /\ L v = L c.
Proof. intros Hc. induction 1 as [|u v H [I1 I2] Hv E Hl]; auto. split; auto. congruence. Qed.
Lemma creach_trans outn L a b c : creach outn L a b -> creach outn L b c -> creach outn L a c.
Proof. intros H. induction 1; auto. eapply cr_S; eauto. Qed.
Lemma freach_trans outn L a b c : freach outn L a b -> freach outn L b c -> freach outn L a c.
Proof. intros H. induction 1; auto. eapply fr_S; eauto. Qed.
Lemma reach_step outn u v : In v (outn u) -> reachable outn u v.
Proof. exists 1. now apply walk_1. Qed.
(* inside a component *)
Lemma sc_creach outn L u v : (forall w, strongly_connected outn u w -> L w = L u) -> fst (L u) = false -> strongly_connected outn u v -> creach outn L u v.
Proof.
  intros HL Hu [[k H] Hb]. induction H as [|k v w H IH Hw]; [constructor|].
  assert (Hv : reachable outn v u) by (eapply reach_trans; [apply reach_step; eauto|auto]).
  assert (E1 : L v = L u) by (apply HL; split; auto; now exists k).
  assert (E2 : L w = L u) by (apply HL; split; auto; exists (S k); econstructor; eauto).
  eapply cr_S; [apply IH; auto|eauto|congruence|congruence].
Qed.
Lemma sc_freach outn L u v : (forall w, strongly_connected outn u w -> L w = L u) -> fst (L u) = false -> strongly_connected outn u v -> freach outn L u v.
Proof.
  intros HL Hu H. apply (sc_creach L HL Hu) in H. induction H as [|v w H IH Hw E Hl]; [constructor|]. eapply fr_S; eauto.
Qed.
Lemma sc_sym outn u v : strongly_connected outn u v -> strongly_connected outn v u.
Proof. intros [A B]. now split. Qed.
Lemma sc_trans outn u v w : strongly_connected outn u v -> strongly_connected outn v w -> strongly_connected outn u w.
Proof. intros [A B] [C D]. split; eapply reach_trans; eauto. Qed.
Lemma sc_refl outn u : strongly_connected outn u u.
Proof. split; apply reach_refl. Qed.

Section Graph.
  Variable n : nat.
  Variables outn inn : nat -> list nat.
  Hypothesis G : graph_ok n outn inn.
  Lemma graph_rev : graph_ok n inn outn.
  Proof. destruct G as [A B C]. split; [intros s d Hs Hd; symmetry; now apply A|intros s d Hs H; eapply C; eauto|intros s d Hd H; eapply B; eauto]. Qed.
  Lemma rch_lt u v : u < n -> reachable outn u v -> v < n.
  Proof. intros Hu [k H]. eapply walk_lt; eauto. Qed.
  Lemma reach_rev u v : u < n -> reachable outn u v -> reachable inn v u.
  Proof.
    intros Hu [k H]. induction H as [|k v w H IH Hw]; [apply reach_refl|]. eapply reach_trans; [|exact IH].
    assert (Hv : v < n) by (eapply walk_lt; eauto). apply reach_step. apply (g_dual G); auto. eapply g_out; eauto.
  Qed.
End Graph.

Section SCC.
  Variable n : nat.
  Variables outn inn : nat -> list nat.
  Hypothesis G : graph_ok n outn inn.
  Variable m : nat.
  Notation sc := (strongly_connected outn).
  Lemma sc_lt u v : u < n -> sc u v -> v < n.
  Proof. intros Hu [H _]. eapply rch_lt; eauto. Qed.
  Lemma sc_rev u v : u < n -> (sc u v <-> strongly_connected inn u v).
  Proof.
    intros Hu. split; intros [A B].
    - assert (Hv : v < n) by (eapply rch_lt; eauto). split; eapply reach_rev; eauto.
    - assert (Hv : v < n) by (eapply (rch_lt (graph_rev G)); eauto). split; eapply (reach_rev (graph_rev G)); eauto.
  Qed.

  Record inv (L : nat -> label) (off : nat) : Prop := {
    i_same : forall u v, u < n -> sc u v -> L u = L v;
    i_final : forall u v, u < n -> v < n -> fst (L u) = true -> L u = L v -> sc u v;
    i_bound : forall v, v < n -> snd (L v) < off;
    i_pos : forall v, v < n -> fst (L v) = true -> 1 <= snd (L v) }.
  Lemma inv_off L off off' : off <= off' -> inv L off -> inv L off'.
  Proof. intros H [A B C D]. split; auto. intros v Hv. specialize (C v Hv). lia. Qed.

  (* -- one centre -- *)
  Lemma one_inv L start off L' : inv L off -> 1 <= off -> start < n -> fst (L start) = false -> one_search n outn inn m L start off L' ->
    inv L' (off + 1) /\ (forall v, v < n -> fst (L v) = true -> L' v = L v) /\ fst (L' start) = true.
  Proof.
    intros [I1 I2 I3 I4] Ho Hs Hu [iv ov Hi Hout].
    pose proof (first_ok (graph_rev G) Hs Hu Hi) as Fi. pose proof (first_ok G Hs Hu Hout) as Fo.
    assert (Live : forall v, iv v = true \/ ov v = true -> fst (L v) = false).
    { intros v [H|H]; [apply Fi in H|apply Fo in H]; eapply freach_live; eauto. }
    assert (Both : forall v, v < n -> (iv v = true /\ ov v = true <-> sc start v)).
    { intros v Hv. split.
      - intros [H1 H2]. apply Fi, freach_reach in H1. apply Fo, freach_reach in H2. split; auto. eapply (reach_rev (graph_rev G)); eauto.
      - intros H. split; [apply Fi|apply Fo]; apply sc_freach; auto.
        + intros w Hw. symmetry. apply I1; auto. now apply sc_rev.
        + now apply sc_rev.
        + intros w Hw. symmetry. apply I1; auto. }
    assert (Whole : forall u v, u < n -> sc u v -> iv u = iv v /\ ov u = ov v).
    { assert (X : forall u v, u < n -> sc u v -> (iv u = true -> iv v = true) /\ (ov u = true -> ov v = true)).
      { intros u v Hun Huv. assert (Hl : forall w, sc u w -> L w = L u) by (intros w Hw; symmetry; auto). split; intros H.
        - apply Fi. apply Fi in H. eapply freach_trans; eauto. apply sc_freach; [|eapply freach_live; eauto|now apply sc_rev].
          intros w Hw. apply Hl. now apply sc_rev.
        - apply Fo. apply Fo in H. eapply freach_trans; eauto. apply sc_freach; auto. eapply freach_live; eauto. }
      intros u v Hun Huv. assert (Hvn := sc_lt Hun Huv). destruct (X u v Hun Huv) as [A B], (X v u Hvn (sc_sym Huv)) as [C D].
      split; apply Bool.eq_iff_eq_true; tauto. }
    split; [split|split].
    - intros u v Hun Huv. assert (Hvn := sc_lt Hun Huv). destruct (Whole u v Hun Huv) as [-> ->].
      destruct (Nat.ltb_spec u n), (Nat.ltb_spec v n); try lia. rewrite (I1 u v Hun Huv). auto.
    - intros u v Hun Hvn. destruct (Nat.ltb_spec u n), (Nat.ltb_spec v n); try lia.
      destruct (iv u && ov u) eqn:Eu.
      + intros _ E. apply andb_true_iff in Eu. apply Both in Eu; auto. destruct (iv v && ov v) eqn:Ev.
        * apply andb_true_iff in Ev. apply Both in Ev; auto. eapply sc_trans; [apply sc_sym; eauto|auto].
        * destruct (iv v || ov v) eqn:Ew; [discriminate|]. specialize (I3 v Hvn). rewrite <- E in I3. simpl in I3. lia.
      + destruct (iv u || ov u) eqn:Eu'; [discriminate|]. intros Hf E. destruct (iv v && ov v) eqn:Ev.
        * specialize (I3 u Hun). rewrite E in I3. simpl in I3. lia.
        * destruct (iv v || ov v) eqn:Ew; [rewrite E in Hf; discriminate|auto].
    - intros v Hv. specialize (I3 v Hv). destruct (v <? n), (iv v && ov v), (iv v || ov v); simpl; lia.
    - intros v Hv. specialize (I4 v Hv). destruct (v <? n), (iv v && ov v), (iv v || ov v); simpl; auto; lia.
    - intros v Hv Hf. assert (E1 : iv v = false) by (destruct (iv v) eqn:E; auto; rewrite Live in Hf; [discriminate|auto]).
      assert (E2 : ov v = false) by (destruct (ov v) eqn:E; auto; rewrite Live in Hf; [discriminate|auto]). rewrite E1, E2. simpl. now destruct (v <? n).
    - destruct (Nat.ltb_spec start n); [|lia]. destruct (proj2 (Both start Hs) (sc_refl outn start)) as [-> ->]. auto.
  Qed.

  (* -- several centres -- *)
  Section Multi.
    Variable L : nat -> label.
    Variable off : nat.
    Hypothesis I : inv L off.
    Hypothesis Ho : 1 <= off.
    Variable centers : list nat.
    Hypothesis Hc : forall c, In c centers -> c < n /\ fst (L c) = false.
    Variables ti to : entries.
    Hypothesis Hti : forall v l, In (v, l) ti <-> exists i c, nth_error centers i = Some c /\ l = off + i /\ creach inn L c v.
    Hypothesis Hto : forall v l, In (v, l) to <-> exists i c, nth_error centers i = Some c /\ l = off + i /\ creach outn L c v.

    Definition cand (v : nat) (x : label) : Prop :=
      x = L v \/ (fst x = true /\ In (v, snd x) ti /\ In (v, snd x) to) \/ (fst x = false /\ (In (v, snd x) ti \/ In (v, snd x) to)).
    Definition top_of (v : nat) (x : label) : Prop := cand v x /\ forall y, cand v y -> lle y x.
    Lemma lle_up b l x : lle (true, l) x -> lle (b, l) x.
    Proof. rewrite !lle_spec. simpl. destruct b; auto. intros [[A _]|[A B]]; [discriminate|]. left. auto. Qed.
    Lemma inter_top small large small' large' v : (small = ti /\ large = to) \/ (small = to /\ large = ti) ->
      Permutation small' small -> Permutation large' large -> top_of v (intersect L small large small' large' v).
    Proof.
      intros Hsl Hs Hl. unfold intersect. set (L1 := fold_left (fun L p => wmax L (fst p) (stored (fst p) (snd p) large, snd p)) small' L).
      destruct (fold_wmax (fun p => (stored (fst p) (snd p) large, snd p)) small' L v) as (A1 & A2 & A3). fold L1 in A1, A2, A3.
      destruct (fold_wmax (fun p => (false, snd p)) large' L1 v) as (B1 & B2 & B3). set (x := fold_left _ large' L1 v) in *.
      assert (Hs' : forall p, In p small' <-> In p small) by (intros p; split; apply Permutation_in; [auto|now apply Permutation_sym]).
      assert (Hl' : forall p, In p large' <-> In p large) by (intros p; split; apply Permutation_in; [auto|now apply Permutation_sym]).
      assert (Hor : forall p, In p small \/ In p large <-> In p ti \/ In p to) by (intros p; destruct Hsl as [[-> ->]|[-> ->]]; tauto).
      assert (Hand : forall p, In p small /\ In p large <-> In p ti /\ In p to) by (intros p; destruct Hsl as [[-> ->]|[-> ->]]; tauto).
      split.
      - destruct B1 as [->|([w l] & P1 & P2 & ->)].
        + destruct A1 as [->|([w l] & P1 & P2 & ->)]; [now left|]. simpl in P2. subst w. cbn [fst snd]. apply Hs' in P1. right.
          destruct (stored v l large) eqn:E; cbn [fst snd]; [left|right]; split; auto.
          * apply Hand. split; auto. now apply stored_In.
          * apply Hor. auto.
        + simpl in P2. subst w. right. right. split; auto. apply Hor. apply Hl' in P1. auto.
      - intros [b l] [E|[(E & H1 & H2)|(E & H)]]; simpl in *.
        + rewrite E. eapply lle_trans; eauto.
        + subst b. assert (H : In (v, l) small /\ In (v, l) large) by (apply Hand; auto). destruct H as [H3 H4].
          eapply lle_trans; [|exact B2]. assert (X : lle (stored v l large, l) (L1 v)) by (apply (A3 (v, l)); auto; now apply Hs').
          apply stored_In in H4. now rewrite H4 in X.
        + subst b. assert (X : In (v, l) small \/ In (v, l) large) by (apply Hor; auto). destruct X as [X|X].
          * eapply lle_trans; [|exact B2]. assert (Y : lle (stored v l large, l) (L1 v)) by (apply (A3 (v, l)); auto; now apply Hs').
            destruct (stored v l large); auto. now apply lle_up.
          * apply (B3 (v, l)); auto. now apply Hl'.
    Qed.
    Lemma table_live v l : In (v, l) ti \/ In (v, l) to -> fst (L v) = false /\ off <= l < off + length centers.
    Proof.
      intros [H|H]; [apply Hti in H|apply Hto in H]; destruct H as (i & c & H1 & -> & H2).
      all: assert (H3 : i < length centers) by (apply nth_error_Some; congruence); split; [|lia]; apply nth_error_In in H1; apply Hc in H1 as [_ H1]; eapply creach_live; eauto.
    Qed.
    Lemma table_whole u v l : u < n -> sc u v -> (In (u, l) ti -> In (v, l) ti) /\ (In (u, l) to -> In (v, l) to).
    Proof.
      intros Hu Huv. assert (Hl : forall w, sc u w -> L w = L u) by (intros w Hw; symmetry; now apply (i_same I)). split; intros H.
      - assert (Hlive := table_live v l). destruct (table_live u l (or_introl H)) as [Hf _]. apply Hti. apply Hti in H as (i & c & H1 & H2 & H3). exists i, c. split; auto. split; auto.
        eapply creach_trans; eauto. apply sc_creach; auto; [|now apply sc_rev]. intros w Hw. apply Hl. now apply sc_rev.
      - destruct (table_live u l (or_intror H)) as [Hf _]. apply Hto. apply Hto in H as (i & c & H1 & H2 & H3). exists i, c. split; auto. split; auto.
        eapply creach_trans; eauto. apply sc_creach; auto.
    Qed.
    Lemma top_inv L' : (forall v, top_of v (L' v)) ->
      inv L' (off + length centers) /\ (forall v, v < n -> fst (L v) = true -> L' v = L v) /\ forall c, In c centers -> fst (L' c) = true.
    Proof.
      intros HT. assert (Whole : forall u v x, u < n -> sc u v -> cand u x -> cand v x).
      { intros u v x Hu Huv. unfold cand. rewrite (i_same I Hu Huv). destruct (table_whole (snd x) Hu Huv). intuition. }
      split; [split|split].
      - intros u v Hu Huv. assert (Hv := sc_lt Hu Huv). destruct (HT u) as [A B], (HT v) as [C D]. apply lle_anti.
        + apply D. apply (Whole u v); auto.
        + apply B. eapply Whole; [exact Hv|apply sc_sym; exact Huv|auto].
      - intros u v Hu Hv Hf E. destruct (HT u) as [A _], (HT v) as [C _]. rewrite <- E in C.
        destruct A as [A|[(_ & A1 & A2)|[A _]]]; [| |congruence]; destruct C as [C|[(_ & C1 & C2)|[C _]]]; try congruence.
        + apply (i_final I); auto; congruence.
        + destruct (table_live v _ (or_introl C1)) as [_ X]. pose proof (i_bound I Hu) as Y. rewrite <- A in Y. lia.
        + destruct (table_live u _ (or_introl A1)) as [_ X]. pose proof (i_bound I Hv) as Y. rewrite <- C in Y. lia.
        + apply Hti in A1 as (i & c & P1 & P2 & P3). apply Hto in A2 as (i2 & c2 & Q1 & Q2 & Q3). apply Hti in C1 as (i3 & c3 & R1 & R2 & R3). apply Hto in C2 as (i4 & c4 & S1 & S2 & S3).
          assert (i2 = i) by lia. assert (i3 = i) by lia. assert (i4 = i) by lia. subst i2 i3 i4. assert (c2 = c) by congruence. assert (c3 = c) by congruence. assert (c4 = c) by congruence. subst c2 c3 c4.
          assert (Hcn : c < n) by (apply Hc; eapply nth_error_In; eauto).
          apply creach_reach in P3, Q3, R3, S3. apply (reach_rev (graph_rev G)) in P3, R3; auto. split; eapply reach_trans; eauto.
      - intros v Hv. destruct (HT v) as [A _]. destruct A as [->|[(_ & A & _)|[_ A]]].
        + pose proof (i_bound I Hv). lia.
        + apply (table_live v (snd (L' v)) (or_introl A)).
        + apply (table_live v (snd (L' v)) A).
      - intros v Hv Hf. destruct (HT v) as [A _]. destruct A as [A|[(_ & A & _)|[A _]]]; [|destruct (table_live v _ (or_introl A)) as [_ X]|congruence].
        + rewrite A in *. apply (i_pos I Hv Hf).
        + lia.
      - intros v Hv Hf. destruct (HT v) as [A _]. destruct A as [A|[(_ & A & _)|[_ A]]]; auto; exfalso.
        + destruct (table_live v _ (or_introl A)). congruence.
        + destruct (table_live v _ A). congruence.
      - intros c Hcc. apply In_nth_error in Hcc as (i & Hi). destruct (HT c) as [_ B].
        assert (X : cand c (true, off + i)).
        { right. left. simpl. split; auto. split; [apply Hti|apply Hto]; exists i, c; repeat split; auto; constructor. }
        apply B, lle_spec in X. simpl in X. destruct X as [[X _]|[X _]]; [discriminate|auto].
    Qed.
  End Multi.

  Variable next_step : nat -> nat.
  Lemma rounds_ok Q : (forall v, In v Q -> v < n) -> forall L b step cur rd off r, rounds n outn inn m next_step Q L b step cur rd off r ->
    inv L off -> 1 <= off -> (forall v, b v = false) -> (rd = 0 -> step = 1) -> off + (length Q - cur) <= n + 1 ->
    (forall i v, nth_error Q i = Some v -> i < cur -> fst (L v) = true) ->
    forall L', r = Some L' -> exists off', inv L' off' /\ off' <= n + 1 /\ (forall v, v < n -> fst (L v) = true -> fst (L' v) = true) /\ forall v, In v Q -> fst (L' v) = true.
  Proof.
    intros HQ. induction 1 as [L b step cur rd off Hcur|L b step cur rd off r Hcur vs Hf Hr IH|L b step cur off c cs L1 r Hcur vs Hf H1 Hr IH
      |L b b1 b2 step cur rd off centers ci ti co to small' large' r Hcur vs Hf Hne Hi Hout small large Hs Hl Hr IH|L b b1 step cur rd off Hcur vs centers Hne Hi|L b b1 b2 step cur rd off X Hcur vs centers Hne Hi Hout];
      intros I Ho Hb Hst Hoff Hdone L' E; try discriminate.
    - injection E as <-. exists off. split; [auto|]. split; [lia|]. split; [auto|]. intros v Hv. apply In_nth_error in Hv as (i & Hi). apply (Hdone i v Hi).
      assert (i < length Q) by (apply nth_error_Some; congruence). lia.
    - assert (D : forall v, In v (firstn vs (skipn cur Q)) -> fst (L v) = true).
      { intros v Hv. destruct (fst (L v)) eqn:Ev; auto. exfalso. assert (X : In v []) by (rewrite <- Hf; apply filter_In; split; auto; now rewrite Ev). destruct X. }
      apply IH; auto; try lia. intros i v Hv Hlt. destruct (Nat.lt_ge_cases i cur) as [C|C]; [eauto|]. apply D.
      apply nth_error_In with (n := i - cur). rewrite nth_error_firstn'. 2: lia. rewrite nth_error_skipn'. replace (cur + (i - cur)) with i by lia. auto.
    - assert (Hvs : vs = 1 \/ vs = 0) by (rewrite (Hst eq_refl) in *; subst vs; lia).
      assert (Hcs : cs = []).
      { assert (X : length (c :: cs) <= 1) by (rewrite <- Hf; etransitivity; [apply filter_len_le|rewrite firstn_length; lia]). destruct cs; auto. simpl in X. lia. }
      subst cs. assert (Hc : In c (firstn vs (skipn cur Q)) /\ fst (L c) = false).
      { assert (X : In c (filter (fun v => negb (fst (L v))) (firstn vs (skipn cur Q)))) by (rewrite Hf; now left). apply filter_In in X as [X1 X2]. apply negb_true_iff in X2. auto. }
      destruct Hc as [Hc1 Hc2]. assert (Hcn : c < n) by (apply HQ; eapply in_firstn_skipn; eauto).
      destruct (one_inv I Ho Hcn Hc2 H1) as (J1 & J2 & J3). cbn [length] in *.
      destruct (IH J1 ltac:(lia) Hb ltac:(lia)) with (L' := L') as (off' & K1 & K2 & K3 & K4); auto.
      + subst vs. lia.
      + intros i v Hv Hlt. assert (Hvn : v < n) by (apply HQ; eapply nth_error_In; eauto).
        destruct (Nat.lt_ge_cases i cur) as [C|C]; [rewrite J2; eauto|].
        assert (X : In v (firstn vs (skipn cur Q))).
        { apply nth_error_In with (n := i - cur). rewrite nth_error_firstn'. 2: lia. rewrite nth_error_skipn'. replace (cur + (i - cur)) with i by lia. auto. }
        destruct (fst (L v)) eqn:Ev; [rewrite J2; auto|]. assert (Y : In v [c]) by (rewrite <- Hf; apply filter_In; split; auto; now rewrite Ev).
        destruct Y as [<-|[]]. auto.
      + exists off'. split; auto. split; auto. split; auto. intros v Hv Hfv. apply K3; auto. now rewrite J2.
    - assert (Hc : forall c, In c centers -> c < n /\ fst (L c) = false).
      { intros c Hc. rewrite <- Hf in Hc. apply filter_In in Hc as [X1 X2]. apply negb_true_iff in X2. split; auto. apply HQ. eapply in_firstn_skipn; eauto. }
      destruct (multi_ok Hi Hb) as [Hb1 Ti]. destruct (multi_ok Hout Hb1) as [Hb2 To].
      assert (Hsl : (small = ti /\ large = to) \/ (small = to /\ large = ti)) by (subst small large; destruct (ci <=? co); auto).
      destruct (top_inv I Ho centers Hc Ti To (intersect L small large small' large') (fun v => inter_top L v Hsl Hs Hl)) as (J1 & J2 & J3).
      assert (Hlc : length centers <= vs) by (rewrite <- Hf; etransitivity; [apply filter_len_le|rewrite firstn_length; lia]).
      destruct (IH J1 ltac:(lia) Hb2 ltac:(lia)) with (L' := L') as (off' & K1 & K2 & K3 & K4); auto.
      + subst vs. lia.
      + intros i v Hv Hlt. assert (Hvn : v < n) by (apply HQ; eapply nth_error_In; eauto).
        destruct (Nat.lt_ge_cases i cur) as [C|C]; [rewrite J2; eauto|].
        assert (X : In v (firstn vs (skipn cur Q))).
        { apply nth_error_In with (n := i - cur). rewrite nth_error_firstn'. 2: lia. rewrite nth_error_skipn'. replace (cur + (i - cur)) with i by lia. auto. }
        destruct (fst (L v)) eqn:Ev; [rewrite J2; auto|]. apply J3. rewrite <- Hf. apply filter_In. split; auto. now rewrite Ev.
      + exists off'. split; auto. split; auto. split; auto. intros v Hv Hfv. apply K3; auto. now rewrite J2.
  Qed.
End SCC.
