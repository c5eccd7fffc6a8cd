(* Proofs for C42: the result does not depend on the schedule. *)
From Coq Require Import Permutation.
From Verif Require Import Base ListUtil MIModel MIProofs MMModel MMSpec MMProofs MMGet MMOuter.

Lemma find_ext {A} (f g : A -> bool) l : (forall x, f x = g x) -> find f l = find g l.
Proof. intros H. induction l as [|x l IH]; simpl; auto. now rewrite H, IH. Qed.

Section Ext.
  Variable W : Type.
  Variable w0 : W.
  Variable n : nat.
  Variable outw : nat -> list (nat * W).
  Variables M M' : nat -> bool.
  Hypothesis Hext : forall x, M x = M' x.
  Variable first : bool.
  Lemma ldeg_ext i : live_degree outw M first i = live_degree outw M' first i.
  Proof. unfold live_degree. rewrite Hext. destruct (M' i); auto. f_equal. apply filter_ext. intros vw. now rewrite Hext. Qed.
  Lemma live_ext i : live outw M first i = live outw M' first i.
  Proof. unfold live. f_equal. apply map_ext. apply ldeg_ext. Qed.
  Lemma tot_ext : tot n outw M first = tot n outw M' first.
  Proof. apply live_ext. Qed.
  Lemma search_ext cur idx : search n outw M first cur idx = search n outw M' first cur idx.
  Proof. unfold search. erewrite find_ext; [reflexivity|]. intros c. simpl. now rewrite live_ext. Qed.
  Lemma skip_ext fuel : forall idx c, skip n outw M first fuel idx c = skip n outw M' first fuel idx c.
  Proof.
    induction fuel as [|f IH]; intros idx c; simpl; auto. assert (edge_end n outw M first idx c = edge_end n outw M' first idx c) as ->.
    { unfold edge_end. now rewrite tot_ext, live_ext. }
    rewrite live_ext. destruct (c <? n); auto. destruct (edge_end n outw M' first idx c) as [e|]; auto. now rewrite IH.
  Qed.
  Variable idxs : list nat.
  Lemma pick_ext c st (vw : nat * W) : pick M idxs c st vw = pick M' idxs c st vw.
  Proof. unfold pick. destruct st as [[[ctr tg] off] ws]. now rewrite Hext. Qed.
  Lemma picks_ext c (l : list (nat * W)) : forall st, fold_left (pick M idxs c) l st = fold_left (pick M' idxs c) l st.
  Proof. induction l as [|vw l IH]; intros st; simpl; auto. now rewrite pick_ext. Qed.
  Lemma iter_ext i cur : block_iter n outw M first idxs i cur = block_iter n outw M' first idxs i cur.
  Proof.
    unfold block_iter. rewrite search_ext, live_ext. destruct (search n outw M' first cur (nth i idxs 0) <? n); auto. rewrite skip_ext.
    destruct (skip _ _ _ _ _ _ _) as [c|]; auto. now rewrite live_ext, picks_ext.
  Qed.
  Lemma bloop_ext fuel : forall stop i cur ws, block_loop n outw M first idxs fuel stop i cur ws = block_loop n outw M' first idxs fuel stop i cur ws.
  Proof.
    induction fuel as [|f IH]; intros stop i cur ws; simpl; auto. rewrite iter_ext. destruct (i <? stop); auto. destruct (block_iter n outw M' first idxs i cur) as [[[i' c'] ws']|]; auto.
  Qed.
  Lemma block_ext bs fuel b : block n outw M first idxs bs fuel b = block n outw M' first idxs bs fuel b.
  Proof. unfold block. now rewrite search_ext, bloop_ext. Qed.
  Lemma extracted_ext bs E : extracted w0 n outw M first idxs bs E -> extracted w0 n outw M' first idxs bs E.
  Proof.
    intros (wss & order & A & B & C). exists wss, order. split; auto. split; auto. intros b Hb. destruct (B b Hb) as [f F]. exists f. now rewrite <- block_ext.
  Qed.
End Ext.

Section Det.
  Variable W : Type.
  Variable w0 : W.
  Variable n : nat.
  Variable outw : nat -> list (nat * W).
  Hypothesis Hund : undirected n outw.
  Variables bs k : nat.
  Hypothesis Hbs : 0 < bs.
  Hypothesis Hfew : edge_count n outw < k.
  Notation mm_loop := (mm_loop w0 n outw bs k).
  Notation get_edges := (get_edges w0 n outw bs k).
  Hypothesis Hbound : forall r M R res, mm_loop r M R res -> boundary_ok n outw M (r =? 0).

  Lemma get_det r M R res M' E E' : mm_loop r M R res -> (forall x, M x = M' x) -> get_edges M (r =? 0) E -> get_edges M' (r =? 0) E' -> E = E'.
  Proof.
    intros HL Hext (i1 & H1 & X1) (i2 & H2 & X2). pose proof (tot_ext n outw M M' Hext (r =? 0)) as Et.
    assert (Ht : tot n outw M (r =? 0) < k) by (pose proof (tot_le n outw M (r =? 0)); lia).
    assert (i2 = i1).
    { unfold indices_ok in H1, H2. rewrite <- Et in H2. rewrite (proj2 (Nat.ltb_lt _ _) Ht) in H1, H2. congruence. }
    subst i2. destruct (indices_facts _ _ _ _ _ _ H1) as [A B]. pose proof (loop_ol Hund HL) as HO.
    assert (X2' : extracted w0 n outw M (r =? 0) i1 bs E') by (revert X2; apply extracted_ext; auto).
    eapply extracted_det; [| | | | | |exact X1|exact X2']; auto; [exact (Hnb Hund)|apply (ol_0 HO)|eapply Hbound; eauto].
  Qed.
  Lemma loop_same r M R res : mm_loop r M R res -> forall M' R' res', mm_loop r M' R' res' -> (forall x, M x = M' x) /\ res = res'.
  Proof.
    induction 1 as [|r M R res E st HL IH HE Hne Hr]; intros M' R' res' HL'.
    - inversion HL'. auto.
    - inversion HL' as [|r2 M2 R2 res2 E2 st2 HL2 HE2 Hne2 Hr2]; subst. destruct (IH _ _ _ HL2) as [HM ->].
      pose proof (get_det HL HM HE HE2). subst E2. pose proof (ol_R (loop_ol Hund HL)) as HR. pose proof (ol_R (loop_ol Hund HL2)) as HR2.
      destruct (batch_greedy HR Hr) as (A1 & B1 & _ & D1 & _). destruct (batch_greedy HR2 Hr2) as (A2 & B2 & _ & D2 & _).
      assert (Hl : forall i, is_live w0 E M i = is_live w0 E M2 i) by (intros i; unfold is_live; now rewrite !HM).
      assert (X : forall q i, i < q -> mmark st i = mmark st2 i).
      { induction q as [|q IHq]; intros i Hi; [lia|]. destruct (Nat.lt_ge_cases i (length E)) as [He|He].
        - apply eq_iff_eq_true. rewrite A1, A2, Hl by auto. split; intros [X1 X2]; split; auto; intros j Hlt Hm; apply X2; auto; rewrite <- Hm; [apply IHq|symmetry; apply IHq]; lia.
        - destruct (mmark st i) eqn:E1; [apply B1 in E1; lia|]. destruct (mmark st2 i) eqn:E2; auto. apply B2 in E2. lia. }
      assert (Y : forall i, mmark st i = mmark st2 i) by (intros i; apply (X (S i)); lia).
      split.
      + intros x. apply eq_iff_eq_true. rewrite D1, D2, HM. split; intros [H|(i & Hi & Hx)]; auto; right; exists i; split; auto; [now rewrite <- Y|now rewrite Y].
      + f_equal. unfold marked_edges. f_equal. apply filter_ext. auto.
  Qed.
  Lemma loop_prefix r M R res : mm_loop r M R res -> forall q, q < r -> exists M' R' res' E, mm_loop q M' R' res' /\ get_edges M' (q =? 0) E /\ E <> [].
  Proof.
    induction 1 as [|r M R res E st HL IH HE Hne Hr]; intros q Hq; [lia|]. destruct (Nat.eq_dec q r) as [->|]; [|apply IH; lia]. exists M, R, res, E. auto.
  Qed.
  Lemma returns_same res res' : mm_returns w0 n outw bs k res -> mm_returns w0 n outw bs k res' -> res = res'.
  Proof.
    intros (r & M & R & HL & HE) (r' & M' & R' & HL' & HE'). destruct (Nat.lt_trichotomy r r') as [H|[->|H]].
    - exfalso. destruct (loop_prefix HL' H) as (M2 & R2 & res2 & E & HL2 & HE2 & Hne). destruct (loop_same HL HL2) as [HM _]. apply Hne. symmetry. eapply get_det; [exact HL|exact HM|exact HE|exact HE2].
    - now destruct (loop_same HL HL').
    - exfalso. destruct (loop_prefix HL H) as (M2 & R2 & res2 & E & HL2 & HE2 & Hne). destruct (loop_same HL' HL2) as [HM _]. apply Hne. symmetry. eapply get_det; [exact HL'|exact HM|exact HE'|exact HE2].
  Qed.
End Det.
