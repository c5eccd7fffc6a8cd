(* C67: from the pieces to the labels of the edges. *)
From Coq Require Import ZArith Sorting.Sorted.
From Verif Require Import Base ListUtil VSModel EMModel EMSpec GBModel UFSpec UFModel UFSys UFProps FRProofs BISpec BIModel BITree BILeaf BIBfs.
Unset Strict Implicit.
Local Open Scope nat_scope.

Lemma fold_add : forall l x, fold_left Nat.add l x = x + list_sum l.
Proof. induction l; intros x; simpl; [lia|]. rewrite IHl. lia. Qed.
Lemma sum_perm l l' : Permutation l l' -> list_sum l = list_sum l'.
Proof. intros H; induction H; simpl; lia. Qed.

Lemma comb_fst : forall l a T, fst (fold_left mm_comb l a) < T <-> fst a < T \/ exists b, In b l /\ fst b < T.
Proof.
  induction l as [|b l IH]; intros a T; simpl.
  - split; auto. intros [?|(b & [] & _)]; auto.
  - rewrite IH. simpl. split.
    + intros [H|(c & Hc & H)]; [|eauto]. assert (fst a < T \/ fst b < T) as [?|?] by lia; eauto.
    + intros [H|(c & [<-|Hc] & H)]; [left; lia|left; lia|eauto].
Qed.
Lemma comb_snd : forall l a T, T <= snd (fold_left mm_comb l a) <-> T <= snd a \/ exists b, In b l /\ T <= snd b.
Proof.
  induction l as [|b l IH]; intros a T; simpl.
  - split; auto. intros [?|(b & [] & _)]; auto.
  - rewrite IH. simpl. split.
    + intros [H|(c & Hc & H)]; [|eauto]. assert (T <= snd a \/ T <= snd b) as [?|?] by lia; eauto.
    + intros [H|(c & [<-|Hc] & H)]; [left; lia|left; lia|eauto].
Qed.

(* the write_mins and write_maxs *)
Lemma calls_ok : forall order mm, (forall t, fst (mm t) <= snd (mm t)) ->
  let mm' := fold_left mm_call order mm in
  (forall t, fst (mm' t) <= snd (mm' t)) /\
  (forall t T, fst (mm' t) < T <-> fst (mm t) < T \/ exists x, In (t, x) order /\ x < T) /\
  (forall t T, T <= snd (mm' t) <-> T <= snd (mm t) \/ exists x, In (t, x) order /\ T <= x).
Proof.
  induction order as [|[a x] order IH]; intros mm Hmm; simpl.
  - split; auto. split; intros t T; split; auto; intros [?|(y & [] & _)]; auto.
  - assert (HA : (forall t, fst (mm_call mm (a, x) t) <= snd (mm_call mm (a, x) t)) /\
      (forall t T, fst (mm_call mm (a, x) t) < T <-> fst (mm t) < T \/ a = t /\ x < T) /\
      (forall t T, T <= snd (mm_call mm (a, x) t) <-> T <= snd (mm t) \/ a = t /\ T <= x)).
    { unfold mm_call. pose proof (Hmm a) as Ha. destruct (mm a) as [lo hi] eqn:E. simpl in Ha.
      destruct (Nat.ltb_spec x lo); [|destruct (Nat.ltb_spec hi x)];
        (split; [|split]); intros t; try intros T;
        (destruct (Nat.eq_dec a t) as [<-|Hne]; [try rewrite fset_same; rewrite ?E; simpl
          |rewrite ?fset_other by auto; try apply Hmm]);
        try lia; try (split; [auto|intros [?|[? _]]; [auto|contradiction]]). }
    destruct HA as (A1 & A2 & A3). specialize (IH (mm_call mm (a, x)) A1). cbn zeta in IH. destruct IH as (B1 & B2 & B3).
    split; auto. split; intros t T.
    + rewrite B2, A2. split.
      * intros [[?|[-> ?]]|(y & Hy & ?)]; eauto.
      * intros [?|(y & [Hy|Hy] & ?)]; auto; [injection Hy as -> ->; auto|eauto].
    + rewrite B3, A3. split.
      * intros [[?|[-> ?]]|(y & Hy & ?)]; eauto.
      * intros [?|(y & [Hy|Hy] & ?)]; auto; [injection Hy as -> ->; auto|eauto].
Qed.

Section Final.
  Variable n : nat.
  Variable outn : nat -> list nat.
  Hypothesis Hrange : forall u v, u < n -> In v (outn u) -> v < n.
  Hypothesis Hsym : forall u v, u < n -> In v (outn u) -> In u (outn v).

  Section Tree.
    Variable P dep : nat -> nat.
    Hypothesis HPn : forall v, v < n -> P v < n.
    Hypothesis HP : forall v, v < n -> P v = v /\ dep v = 0 \/ P v <> v /\ dep v = S (dep (P v)) /\ In v (outn (P v)).
    Hypothesis Hbfs : forall u v, u < n -> In v (outn u) -> dep v <= S (dep u).
    Hypothesis Hroot : forall u v, u < n -> In v (outn u) -> root P dep u = root P dep v.
    Variable ch : nat -> list nat.
    Hypothesis Hch : forall v, v < n -> NoDup (ch v) /\ forall c, In c (ch v) <-> c < n /\ P c = v /\ c <> v.
    Variable sz pn : nat -> nat.
    Hypothesis Hsz : forall d, d < n -> sz d = 1 + list_sum (map sz (ch d)).
    Hypothesis Hpn : forall v, v < n -> numbered ch sz pn v.

    Lemma HP2 : forall v, v < n -> P v = v /\ dep v = 0 \/ P v <> v /\ dep v = S (dep (P v)).
    Proof. intros v Hv. destruct (HP Hv) as [?|(? & ? & ?)]; auto. Qed.
    Lemma Hdep : forall v, v < n -> P v <> v -> dep v = S (dep (P v)).
    Proof. intros v Hv Hn. destruct (HP Hv) as [[? ?]|(? & ? & ?)]; auto. contradiction. Qed.

    Lemma inside_sub : forall k p y, dep p = k -> p < n -> y < n -> root P dep y = root P dep p ->
      pn p <= pn y -> pn y < pn p + sz p -> sub P p y.
    Proof.
      induction k as [|k IH]; intros p y Hk Hp Hy Hr H1 H2.
      - assert (HPp : P p = p) by (destruct (HP Hp) as [[? _]|(_ & ? & _)]; [auto|lia]).
        apply sub_root with n dep; auto. rewrite Hr. unfold root. now rewrite Hk.
      - destruct (HP Hp) as [[_ ?]|(Hne & Hd & Hin)]; [lia|].
        pose proof (child_inside HPn Hch Hsz Hpn Hp Hne) as [C1 C2].
        assert (HS : sub P (P p) y).
        { apply IH; auto; try lia. rewrite Hr. symmetry. apply Hroot; auto. }
        assert (Hyq : P p <> y) by (intros E; rewrite E in *; lia).
        destruct (sub_child HPn Hy HS Hyq) as (c & Hc & HPc & Hcq & Hsc).
        destruct (Nat.eq_dec c p) as [->|Hcp]; auto. exfalso.
        destruct (sub_inside HPn Hch Hsz Hpn Hy Hsc) as [D1 D2].
        assert (1 <= sz y) by (rewrite (Hsz Hy); lia).
        destruct (@siblings n P HPn ch Hch sz pn Hpn c p); auto; lia.
    Qed.

    Variable mm0 mm : nat -> nat * nat.
    Hypothesis Hmm : leaffix_result n P ch mm_comb mm0 mm.
    Lemma mm_at d : d < n -> exists l, (forall c, In c l <-> c < n /\ P c = d /\ c <> d) /\ mm d = fold_left mm_comb (map mm l) (mm0 d).
    Proof.
      intros Hd. destruct (leaf_result HPn Hdep Hch Hmm Hd) as (l & Hp & E). exists l. split; auto.
      intros c. rewrite <- (proj2 (Hch Hd) c). split; apply Permutation_in; auto. now apply Permutation_sym.
    Qed.
    Lemma dep_bound : exists D, forall v, v < n -> dep v <= D.
    Proof.
      exists (list_max (map dep (seq 0 n))). intros v Hv.
      assert (X : Forall (fun k => k <= list_max (map dep (seq 0 n))) (map dep (seq 0 n))) by now apply list_max_le.
      rewrite Forall_forall in X. apply X. apply in_map, in_seq. lia.
    Qed.
    Lemma mm_sub (A : nat * nat -> Prop) :
      (forall l a, A (fold_left mm_comb l a) <-> A a \/ exists b, In b l /\ A b) ->
      forall v, v < n -> (A (mm v) <-> exists x, x < n /\ sub P v x /\ A (mm0 x)).
    Proof.
      intros HA. destruct dep_bound as (D & HD).
      assert (X : forall k v, v < n -> D - dep v = k -> (A (mm v) <-> exists x, x < n /\ sub P v x /\ A (mm0 x))).
      { induction k as [k IH] using lt_wf_ind. intros v Hv Hk. destruct (mm_at Hv) as (l & Hl & E). rewrite E, HA.
        assert (Hc : forall c, In c l -> c < n /\ (A (mm c) <-> exists x, x < n /\ sub P c x /\ A (mm0 x))).
        { intros c Hc. apply Hl in Hc as (H1 & H2 & H3). split; auto. apply (IH (D - dep c)); auto.
          assert (dep c = S (dep v)) by (rewrite <- H2; apply Hdep; auto; congruence). specialize (HD c H1). lia. }
        split.
        - intros [H|(b & Hb & H)]; [exists v; split; auto; split; auto; apply sub_refl|].
          apply in_map_iff in Hb as (c & <- & Hc'). destruct (Hc c Hc') as [Hcn Hiff]. apply Hiff in H as (x & Hx & Hs & H).
          exists x. split; auto. split; auto. apply sub_trans with c; auto. apply Hl in Hc' as (_ & <- & _). apply sub_parent.
        - intros (x & Hx & Hs & H). destruct (Nat.eq_dec v x) as [->|Hne]; auto. right.
          destruct (sub_child HPn Hx Hs Hne) as (t & Ht & HPt & Htv & Hst). exists (mm t).
          assert (In t l) by (apply Hl; auto). split; [now apply in_map|]. apply Hc; eauto. }
      intros v Hv. eapply X; eauto.
    Qed.

    Lemma mm_calls_in t x : In (t, x) (mm_calls n outn P pn) <-> exists y, other n outn P t y /\ x = pn y.
    Proof.
      unfold mm_calls. rewrite in_flat_map. split.
      - intros ([u v] & Ha & H). apply arcs_in in Ha as [Hu Hv]. destruct (Nat.ltb_spec u v); [|destruct H].
        destruct ((u =? P v) || (v =? P u)) eqn:E; [destruct H|]. apply Bool.orb_false_iff in E as [E1 E2].
        apply Nat.eqb_neq in E1, E2. destruct H as [H|[H|[]]]; injection H as <- <-.
        + exists u. split; auto. split; [eapply Hrange; eauto|]. repeat split; auto; lia.
        + exists v. split; auto. split; [auto|]. repeat split; auto; lia.
      - intros (y & (Ht & Hy & H1 & H2 & H3) & ->). destruct (lt_dec t y) as [L|L].
        + exists (t, y). split; [now apply arcs_in|]. destruct (Nat.ltb_spec t y); [|lia].
          destruct (Nat.eqb_spec t (P y)), (Nat.eqb_spec y (P t)); simpl; try congruence. auto.
        + exists (y, t). split; [apply arcs_in; split; eauto|]. destruct (Nat.ltb_spec y t); [|lia].
          destruct (Nat.eqb_spec y (P t)), (Nat.eqb_spec t (P y)); simpl; try congruence. auto.
    Qed.
  End Tree.

  Section Crit.
    Variable P dep : nat -> nat.
    Hypothesis HPn : forall v, v < n -> P v < n.
    Hypothesis HP : forall v, v < n -> P v = v /\ dep v = 0 \/ P v <> v /\ dep v = S (dep (P v)) /\ In v (outn (P v)).
    Hypothesis Hbfs : forall u v, u < n -> In v (outn u) -> dep v <= S (dep u).
    Hypothesis Hroot : forall u v, u < n -> In v (outn u) -> root P dep u = root P dep v.
    Variable srcs : list nat.
    Hypothesis Hsrc : NoDup srcs /\ forall s, In s srcs <-> s < n /\ P s = s.
    Variable cut : nat.
    Variable mm : nat -> nat * nat.
    Variable pn sz : nat -> nat.
    Hypothesis Hpre : preorder_number n outn cut P srcs mm pn sz.

    Lemma crit_ok v : v < n -> P v <> v ->
      (critical P sz pn mm v = false <-> exists x y, x < n /\ sub P v x /\ other n outn P x y /\ ~ sub P (P v) y).
    Proof.
      intros Hv Hne. destruct Hpre as (es & order & starts & E1 & E2 & E3 & E4 & H). cbn zeta in H. destruct H as (R1 & R2 & R3).
      pose proof (children_ok HPn E1 E2 E3 E4) as Hch. set (ch := children_of es starts) in *.
      assert (Hsz : forall d, d < n -> sz d = 1 + list_sum (map sz (ch d))).
      { intros d Hd. destruct (leaf_result HPn (Hdep HP) Hch R1 Hd) as (l & Hl & E). rewrite E, fold_add. f_equal.
        apply sum_perm. now apply Permutation_map. }
      destruct (pre_result HPn (HP2 HP) Hch Hsrc R2) as [_ Hpn].
      destruct R3 as (o & Ho & Hmm). set (mm0 := fold_left mm_call o (mm_start sz pn)) in *.
      assert (Hsp : forall d, d < n -> 1 <= sz d) by (intros d Hd; rewrite (Hsz d Hd); lia).
      assert (Hcalls : forall t x, In (t, x) o <-> exists y, other n outn P t y /\ x = pn y).
      { intros t x. rewrite <- (@mm_calls_in P pn t x). split; apply Permutation_in; auto. now apply Permutation_sym. }
      (* indices at or above n are not touched, and their start value may be lo > hi *)
      set (st := fun t => if t <? n then mm_start sz pn t else (0, 0)).
      assert (Hst : forall t, fst (st t) <= snd (st t)).
      { intros t. unfold st. destruct (Nat.ltb_spec t n) as [L|L]; simpl; [|lia]. specialize (Hsp t L). lia. }
      destruct (@calls_ok o st Hst) as (_ & K1 & K2).
      assert (Hsame : forall t, t < n -> fold_left mm_call o st t = mm0 t).
      { unfold mm0. assert (Y : forall o f g, (forall t, t < n -> f t = g t) -> (forall t x, In (t, x) o -> t < n) ->
          forall t, t < n -> fold_left mm_call o f t = fold_left mm_call o g t).
        { induction o0 as [|[a x] o0 IH]; intros f g Hfg Hin t Ht; cbn [fold_left]; auto. apply IH; auto.
          - intros t' Ht'. assert (Ha : a < n) by (apply (Hin a x); now left). unfold mm_call. rewrite <- (Hfg a Ha). destruct (f a) as [lo hi].
            destruct (x <? lo); [|destruct (hi <? x)]; auto; destruct (Nat.eq_dec a t') as [<-|Hn']; rewrite ?fset_same, ?fset_other by auto; auto.
          - intros t' x' Hi. apply (Hin t' x'). now right. }
        apply Y.
        - intros t Ht. unfold st. now destruct (Nat.ltb_spec t n); [|lia].
        - intros t x Hi. apply Hcalls in Hi as (y & Hy & _). apply Hy. }
      assert (K1' : forall t T, t < n -> (fst (mm0 t) < T <-> pn t < T \/ exists y, other n outn P t y /\ pn y < T)).
      { intros t T Ht. rewrite <- (Hsame t Ht), K1. unfold st. destruct (Nat.ltb_spec t n); [|lia]. simpl. split.
        - intros [?|(x & Hx & ?)]; auto. apply Hcalls in Hx as (y & Hy & ->). eauto.
        - intros [?|(y & Hy & ?)]; auto. right. exists (pn y). split; auto. apply Hcalls. eauto. }
      assert (K2' : forall t T, t < n -> (T <= snd (mm0 t) <-> T <= pn t + sz t - 1 \/ exists y, other n outn P t y /\ T <= pn y)).
      { intros t T Ht. rewrite <- (Hsame t Ht), K2. unfold st. destruct (Nat.ltb_spec t n); [|lia]. simpl. split.
        - intros [?|(x & Hx & ?)]; auto. apply Hcalls in Hx as (y & Hy & ->). eauto.
        - intros [?|(y & Hy & ?)]; auto. right. exists (pn y). split; auto. apply Hcalls. eauto. }
      assert (M1 : forall T, fst (mm v) < T <-> exists x, x < n /\ sub P v x /\ fst (mm0 x) < T).
      { intros T. apply (@mm_sub P dep HPn HP ch Hch mm0 mm Hmm (fun p => fst p < T)); auto. intros. apply comb_fst. }
      assert (M2 : forall T, T <= snd (mm v) <-> exists x, x < n /\ sub P v x /\ T <= snd (mm0 x)).
      { intros T. apply (@mm_sub P dep HPn HP ch Hch mm0 mm Hmm (fun p => T <= snd p)); auto. intros. apply comb_snd. }
      set (p := P v). assert (Hp : p < n) by now apply HPn.
      destruct (child_inside HPn Hch Hsz Hpn Hv Hne) as [C1 C2]. fold p in C1, C2.
      assert (Hc : critical P sz pn mm v = false <-> fst (mm v) < pn p \/ pn p + sz p <= snd (mm v)).
      { unfold critical. fold p. assert (E : p =? v = false) by now apply Nat.eqb_neq. rewrite E. cbn [negb andb].
        rewrite Bool.andb_false_iff, Nat.leb_gt, Nat.ltb_ge. tauto. }
      rewrite Hc, M1, M2. split.
      - intros [(x & Hx & Hs & H)|(x & Hx & Hs & H)]; destruct (sub_inside HPn Hch Hsz Hpn Hx Hs) as [D1 D2]; specialize (Hsp x Hx).
        + apply K1' in H as [H|(y & Hy & H)]; auto; [lia|]. exists x, y. repeat (split; auto). intros Hs'.
          assert (Hyn : y < n) by (destruct Hy as (A & B & _); eauto).
          destruct (sub_inside HPn Hch Hsz Hpn Hyn Hs') as [F1 F2]. lia.
        + apply K2' in H as [H|(y & Hy & H)]; auto; [lia|]. exists x, y. repeat (split; auto). intros Hs'.
          assert (Hyn : y < n) by (destruct Hy as (A & B & _); eauto).
          destruct (sub_inside HPn Hch Hsz Hpn Hyn Hs') as [F1 F2]. rewrite (Hsz y Hyn) in F2. lia.
      - intros (x & y & Hx & Hs & Hy & Hns). assert (Hyn : y < n) by (destruct Hy as (A & B & _); eauto).
        assert (Hr : root P dep y = root P dep p).
        { transitivity (root P dep x); [symmetry; destruct Hy as (A & B & _); now apply Hroot|].
          symmetry. eapply root_eq; eauto. apply sub_trans with v; auto. apply sub_parent. }
        destruct (le_lt_dec (pn p) (pn y)) as [L1|L1].
        + destruct (le_lt_dec (pn p + sz p) (pn y)) as [L2|L2].
          * right. exists x. repeat (split; auto). apply K2'; eauto.
          * exfalso. apply Hns. eapply inside_sub; eauto.
        + left. exists x. repeat (split; auto). apply K1'; eauto.
    Qed.
  End Crit.

  (* what a run leaves behind *)
  Lemma graph_fine : graph_ok n outn outn.
  Proof. split; eauto. intros s d Hs Hd. split; auto. Qed.
  Lemma cc_ok mx pred L : cc_result n outn mx pred L -> component_labels n (filter pred (all_arcs n outn)) L.
  Proof.
    intros (s1 & s2 & H). cbn zeta in H. destruct H as (H1 & H2 & ->). eapply C36_simple_union_async; eauto.
    intros u v Huv. apply arcs_in in Huv as [? ?]. eauto.
  Qed.
  Lemma source_of L order : (forall i, i < n -> L i < n) -> Permutation order (seq 0 n) ->
    forall v, v < n -> exists s, In s (cc_sources n L order) /\ s < n /\ L s = L v.
  Proof.
    intros HL Hp v Hv. destruct (@least_of nat (fun x => x) (filter (fun j => L j =? L v) (seq 0 n))) as (s & Hs & Hm).
    - intros E. assert (X : In v (filter (fun j => L j =? L v) (seq 0 n))) by (apply filter_In; split; [apply in_seq; lia|now apply Nat.eqb_eq]).
      rewrite E in X. destruct X.
    - apply filter_In in Hs as [Hs El]. apply in_seq in Hs. apply Nat.eqb_eq in El. exists s.
      split; [|split; auto; lia]. apply (sources_ok HL Hp). split; [lia|]. intros j Hj Ej. apply Hm, filter_In.
      split; [apply in_seq; lia|apply Nat.eqb_eq; congruence].
  Qed.
  Lemma forest m L0 order p : component_labels n (all_arcs n outn) L0 -> Permutation order (seq 0 n) ->
    multi_bfs n outn m (cc_sources n L0 order) p ->
    forall P, (forall v, v < n -> p v = Some (P v)) -> exists dep,
      (forall v, v < n -> P v < n) /\
      (forall v, v < n -> P v = v /\ dep v = 0 \/ P v <> v /\ dep v = S (dep (P v)) /\ In v (outn (P v))) /\
      (forall u v, u < n -> In v (outn u) -> dep v <= S (dep u)) /\
      (forall u v, u < n -> In v (outn u) -> root P dep u = root P dep v) /\
      (NoDup (cc_sources n L0 order) /\ forall s, In s (cc_sources n L0 order) <-> s < n /\ P s = s).
  Proof.
    intros HL0 Hord Hbfs P HPp.
    assert (HL : forall i, i < n -> L0 i < n) by (intros i Hi; apply (HL0 i i Hi Hi)).
    destruct (sources_ok HL Hord) as [Hnd Hs].
    assert (Hlt : forall s, In s (cc_sources n L0 order) -> s < n) by (intros s Hi; now apply Hs in Hi).
    assert (Hall : forall v, v < n -> exists s, In s (cc_sources n L0 order) /\ connected (all_arcs n outn) s v).
    { intros v Hv. destruct (source_of HL Hord Hv) as (s & H1 & H2 & H3). exists s. split; auto. now apply (HL0 s v). }
    destruct (@multi_result n outn graph_fine m _ Hnd Hlt Hall Hsym p Hbfs) as (dep & Hp & Hd).
    assert (HPn : forall v, v < n -> P v < n).
    { intros v Hv. destruct (Hp v Hv) as (q & E & Hq & _). rewrite (HPp v Hv) in E. now injection E as ->. }
    assert (HP : forall v, v < n -> P v = v /\ dep v = 0 /\ In v (cc_sources n L0 order) \/
       P v <> v /\ dep v = S (dep (P v)) /\ In v (outn (P v)) /\ ~ In v (cc_sources n L0 order)).
    { intros v Hv. destruct (Hp v Hv) as (q & E & Hq & H). rewrite (HPp v Hv) in E. injection E as <-. tauto. }
    assert (HP' : forall v, v < n -> P v = v /\ dep v = 0 \/ P v <> v /\ dep v = S (dep (P v)) /\ In v (outn (P v))).
    { intros v Hv. destruct (HP v Hv); tauto. }
    exists dep. split; auto. split; auto. split; auto. split.
    - assert (HR : forall v, v < n -> In (root P dep v) (cc_sources n L0 order) /\ L0 (root P dep v) = L0 v /\ root P dep v < n).
      { intros v Hv. assert (Hr : root P dep v < n) by (eapply root_lt; eauto).
        split; [|split]; auto.
        - pose proof (root_dep HP' Hv) as D || pose proof (@root_dep n outn P dep HPn HP' v Hv) as D. destruct (HP _ Hr) as [(_ & _ & ?)|(_ & ? & _)]; auto. lia.
        - unfold root. generalize (dep v). intros k. induction k as [|k IH]; auto. rewrite <- IH. cbn [Nat.iter nat_rect].
          change (nat_rect (fun _ => nat) v (fun _ => P) k) with (Nat.iter k P v).
          assert (Hk : Nat.iter k P v < n) by (eapply iter_lt; eauto).
          destruct (HP _ Hk) as [(E & _)|(_ & _ & Hin & _)]; [now rewrite E|].
          apply HL0; auto. apply conn_edge, arcs_in. auto. }
      intros u v Hu Hin. assert (Hv : v < n) by eauto.
      destruct (HR u Hu) as (A1 & A2 & A3), (HR v Hv) as (B1 & B2 & B3).
      assert (E : L0 u = L0 v) by (apply HL0; auto; now apply conn_edge, arcs_in).
      apply Hs in A1 as [_ A1]. apply Hs in B1 as [_ B1].
      specialize (A1 (root P dep v) B3 ltac:(congruence)). specialize (B1 (root P dep u) A3 ltac:(congruence)). lia.
    - split; auto. intros s. split; [intros Hi; split; auto|intros [Hi E]]; destruct (HP s) as [?|?]; auto; tauto.
  Qed.

  Record facts (top : nat) (Q L P dep : nat -> nat) (crit : nat -> bool) (E : list (nat * nat)) : Prop := {
    f_Q : forall v, v < n -> Q v mod top = P v;
    f_lab : component_labels n E L;
    f_P : forall v, v < n -> P v < n;
    f_HP : forall v, v < n -> P v = v /\ dep v = 0 \/ P v <> v /\ dep v = S (dep (P v)) /\ In v (outn (P v));
    f_bfs : forall u v, u < n -> In v (outn u) -> dep v <= S (dep u);
    f_root : forall u v, u < n -> In v (outn u) -> root P dep u = root P dep v;
    f_crit : forall v, v < n -> P v <> v ->
      (crit v = false <-> exists x y, x < n /\ sub P v x /\ other n outn P x y /\ ~ sub P (P v) y);
    f_E : forall u v, In (u, v) E <-> u < n /\ In v (outn u) /\
      (if v =? P u then crit u = false else if P v =? u then crit v = false else True) }.
  Lemma run_facts m mx cut top Q L : n <= top -> bicc_returns n outn m mx cut top Q L ->
    exists P dep crit E, facts top Q L P dep crit E.
  Proof.
    intros Htop (L0 & order & p & P & mm & pn & sz & HL0 & Hord & H). cbn zeta in H. destruct H as (Hbfs & HPp & Hpre & HQ & HL).
    apply cc_ok in HL0, HL. rewrite filter_all in HL0 by auto.
    destruct (forest HL0 Hord Hbfs HPp) as (dep & A1 & A2 & A3 & A4 & A5).
    assert (HQm : forall v, v < n -> Q v mod top = P v /\ (Q v <? top) = negb (critical P sz pn mm v)).
    { intros v Hv. specialize (A1 v Hv). rewrite HQ. unfold marked. destruct (critical P sz pn mm v); split.
      - replace (P v + top) with (P v + 1 * top) by lia. rewrite Nat.mod_add by lia. apply Nat.mod_small. lia.
      - apply Nat.ltb_ge. lia.
      - apply Nat.mod_small. lia.
      - apply Nat.ltb_lt. lia. }
    exists P, dep, (critical P sz pn mm), (filter (not_critical_edge top Q) (all_arcs n outn)). split; auto.
    - intros v Hv. now apply HQm.
    - intros v Hv Hne. eapply crit_ok; eauto.
    - intros u v. rewrite filter_In, arcs_in. unfold not_critical_edge.
      assert (HX : u < n -> v < n ->
        ((if v =? Q u mod top then Q u <? top else if Q v mod top =? u then Q v <? top else true) = true <->
         if v =? P u then critical P sz pn mm u = false else if P v =? u then critical P sz pn mm v = false else True)).
      { intros Hu Hv. destruct (HQm u Hu) as [-> ->], (HQm v Hv) as [-> ->].
        destruct (v =? P u); [apply Bool.negb_true_iff|]. destruct (P v =? u); [apply Bool.negb_true_iff|]. tauto. }
      split.
      + intros [[Hu Hin] H]. split; auto. split; auto. apply HX; eauto.
      + intros (Hu & Hin & H). split; auto. apply HX; eauto.
  Qed.

  Section Labels.
    Variable top : nat.
    Variable Q L P dep : nat -> nat.
    Variable crit : nat -> bool.
    Variable E : list (nat * nat).
    Hypothesis F : facts top Q L P dep crit E.

    Lemma edge_label u v : u < n -> In v (outn u) -> u <> v ->
      exists w, w < n /\ P w <> w /\ bicc_label top Q L u v = Some (L w) /\ same_bicc outn (u, v) (w, P w).
    Proof.
      intros Hu Hin Hne. assert (Hv : v < n) by eauto. unfold bicc_label. rewrite (f_Q F Hu), (f_Q F Hv).
      destruct (Nat.eqb_spec v (P u)) as [E1|E1].
      { exists u. repeat (split; [auto; congruence|]). rewrite <- E1. eapply same_refl; eauto. }
      destruct (Nat.eqb_spec u (P v)) as [E2|E2].
      { exists v. repeat (split; [auto; congruence|]). rewrite <- E2. apply same_flip. eapply same_refl; eauto. }
      assert (Ho : other n outn P u v) by (repeat split; auto).
      exists u. split; auto.
      split; [eapply (other_not_root Hrange (f_P F) (f_HP F) (f_bfs F) (f_root F)); eauto|]. split.
      - assert (X : L u = L v) by (apply (f_lab F); auto; apply conn_edge; eapply (E_other (f_E F)); eauto).
        now rewrite X, Nat.eqb_refl.
      - eapply (other_same Hrange Hsym (f_P F) (f_HP F) (f_bfs F) (f_root F)); eauto.
    Qed.
    Lemma labels_ok u v x y : u < n -> In v (outn u) -> u <> v -> x < n -> In y (outn x) -> x <> y ->
      exists l l', bicc_label top Q L u v = Some l /\ bicc_label top Q L x y = Some l' /\ l < n /\ l' < n /\
        (l = l' <-> same_bicc outn (u, v) (x, y)).
    Proof.
      intros Hu Hv Huv Hx Hy Hxy. destruct (edge_label Hu Hv Huv) as (w & Hw & Hwr & E1 & S1).
      destruct (edge_label Hx Hy Hxy) as (z & Hz & Hzr & E2 & S2). exists (L w), (L z). split; auto. split; auto.
      assert (Hvn : v < n) by eauto. assert (Hyn : y < n) by eauto.
      assert (HPw : P w < n) by now apply (f_P F). assert (HPz : P z < n) by now apply (f_P F).
      split; [now apply (f_lab F Hw Hw)|]. split; [now apply (f_lab F Hz Hz)|].
      rewrite (proj1 (f_lab F Hw Hz)).
      rewrite (@components n outn Hrange Hsym P dep (f_P F) (f_HP F) (f_bfs F) (f_root F) crit (f_crit F) E (f_E F) w z Hw Hz Hwr Hzr).
      split; intros S.
      - apply same_trans with (f := (w, P w)); auto. apply same_trans with (f := (z, P z)); auto.
        eapply same_sym; eauto.
      - apply same_trans with (f := (u, v)); auto; [eapply same_sym; eauto|].
        apply same_trans with (f := (x, y)); auto.
    Qed.
    Lemma count_ok : (forall u, u < n -> ~ In u (outn u)) ->
      exists reps, bicc_representatives n outn reps /\ num_biccs n outn top Q L = length reps.
    Proof.
      intros Hnl. unfold num_biccs.
      set (has := fun l (e : nat * nat) => match bicc_label top Q L (fst e) (snd e) with Some x => x =? l | None => false end).
      set (ls := filter (fun l => existsb (has l) (all_arcs n outn)) (seq 0 n)).
      set (pick := fun l => match List.find (has l) (all_arcs n outn) with Some e => e | None => (0, 0) end).
      assert (Hne : forall u v, u < n -> In v (outn u) -> u <> v) by (intros u v Hu Hv <-; now apply (Hnl u)).
      assert (Hpick : forall l, In l ls -> In (pick l) (all_arcs n outn) /\ bicc_label top Q L (fst (pick l)) (snd (pick l)) = Some l).
      { intros l Hl. apply filter_In in Hl as [_ Hl]. unfold pick. destruct (List.find (has l) (all_arcs n outn)) as [e|] eqn:Ef.
        - apply find_some in Ef as [E1 E2]. split; auto. unfold has in E2. destruct (bicc_label top Q L (fst e) (snd e)); [|discriminate].
          apply Nat.eqb_eq in E2. congruence.
        - exfalso. apply existsb_exists in Hl as (e & He & H). rewrite (find_none _ _ Ef e He) in H. discriminate. }
      exists (map pick ls). split; [|now rewrite map_length]. split; [|split].
      - intros u v H. apply in_map_iff in H as (l & El & Hl). apply Hpick in Hl as [Hl _]. rewrite El in Hl. now apply arcs_in.
      - assert (Hnd : NoDup ls) by (apply NoDup_filter, seq_NoDup). clearbody ls.
        induction ls as [|l ls' IH]; simpl; constructor.
        + apply Forall_forall. intros f Hf HS. apply in_map_iff in Hf as (l' & <- & Hl').
          destruct (Hpick l (or_introl eq_refl)) as [A1 A2]. destruct (Hpick l' (or_intror Hl')) as [B1 B2].
          destruct (pick l) as [u v], (pick l') as [x y]. simpl in A2, B2. apply arcs_in in A1 as [? ?], B1 as [? ?].
          destruct (@labels_ok u v x y) as (k & k' & K1 & K2 & _ & _ & K3); auto.
          apply K3 in HS. inversion Hnd; subst. apply H5. congruence.
        + inversion Hnd; subst. apply IH; auto. intros l' Hl'. apply Hpick. now right.
      - intros u v Hu Hv. destruct (@labels_ok u v u v) as (l & _ & E1 & _ & Hl & _); auto.
        assert (Hin : In l ls).
        { apply filter_In. split; [apply in_seq; lia|]. apply existsb_exists. exists (u, v). split; [now apply arcs_in|].
          unfold has. simpl. rewrite E1. apply Nat.eqb_refl. }
        exists (pick l). split; [now apply in_map|]. destruct (Hpick l Hin) as [A1 A2]. destruct (pick l) as [x y]. simpl in A2.
        apply arcs_in in A1 as [? ?]. destruct (@labels_ok u v x y) as (k & k' & K1 & K2 & _ & _ & K3); auto. apply K3. congruence.
    Qed.
  End Labels.
End Final.
