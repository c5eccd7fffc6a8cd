(* Proofs about label propagation. *)
From Coq Require Import ZArith.
From Verif Require Import Base ListUtil VSModel VSSpec VSProofs VSProps EMModel EMSpec EMPar EMModes EMProps EMPush FAModel FASpec FAProofs FABFLoop LPModel.

Definition lkey (largest x : nat) : nat := if x =? largest then 0 else S x.
Lemma lp_less_key largest u v : lp_less largest u v = (lkey largest u <? lkey largest v).
Proof.
  unfold lp_less, lkey. destruct (Nat.eqb_spec u largest), (Nat.eqb_spec v largest); simpl; auto.
Qed.
Lemma lkey_inj largest u v : lkey largest u = lkey largest v -> u = v.
Proof. unfold lkey. destruct (Nat.eqb_spec u largest), (Nat.eqb_spec v largest); congruence. Qed.

Section Machine.
  Variable flip : bool.
  Variable largest : nat.
  Notation key := (lkey largest).
  Notation lp_less := (lp_less largest).
  Lemma less_true u v : lp_less u v = true -> key u < key v.
  Proof. rewrite lp_less_key. now rewrite Nat.ltb_lt. Qed.
  Lemma less_false u v : lp_less u v = false -> key v <= key u.
  Proof. rewrite lp_less_key. now rewrite Nat.ltb_ge. Qed.

  Variable q0 : nat -> nat.            (* labels at the start of the round *)
  Variable atts : list attempt.
  Variable val : nat -> nat -> Prop.
  Hypothesis Hval : forall a x, In a atts -> (val (src a) x <-> val (dst a) x).

  Definition relaxed (par : nat -> nat) (a : attempt) : Prop := key (par (dst a)) <= key (q0 (src a)).
  Definition lowered (par : nat -> nat) (v : nat) : Prop := key (par v) < key (q0 v).
  Definition pc_ok (par : nat -> nat) (a : attempt) (pc : lpc) : Prop :=
    let s := src a in let d := dst a in
    match pc with
    | First => True
    | Second x => if flip then key (par d) <= key x /\ key x <= key (q0 d) else key (par s) <= key x /\ key x <= key (q0 s)
    | ReadS => key (par s) < key (q0 d)
    | LoadD b => key b < key (q0 d) /\ key b <= key (q0 s) /\ val s b
    | CasD b c => key b < key (q0 d) /\ key b <= key (q0 s) /\ val s b /\ key b < key c
    | Emit | EmitCas _ => relaxed par a /\ lowered par d /\ (match pc with EmitCas c => c < emitted | _ => True end)
    | First2 | Second2 _ | ReadD => relaxed par a
    | LoadS b => relaxed par a /\ val d b
    | CasS b c => relaxed par a /\ val d b /\ key b < key c
    | Check | Need | NeedCas _ => relaxed par a /\ lowered par s /\ (match pc with NeedCas c => c < need_emit | _ => True end)
    end.
  Definition owes (a : attempt) (pc : lpc) (v : nat) : Prop :=
    match pc with
    | Emit | EmitCas _ => dst a = v
    | Check | Need | NeedCas _ => src a = v
    | _ => False
    end.
  Definition th_ok (par : nat -> nat) (th : lthread) : Prop :=
    (forall a, In a (ltodo th) -> In a atts) /\
    match ltodo th with [] => True | a :: _ => pc_ok par a (lpcs th) end.
  Definition th_owes (th : lthread) (v : nat) : Prop := match ltodo th with [] => False | a :: _ => owes a (lpcs th) v end.

  Record LI (s : lstate) : Prop := {
    li_th : forall th, In th (lthr s) -> th_ok (lpar s) th;
    li_mono : forall v, key (lpar s v) <= key (q0 v);
    li_val : forall v, val v (lpar s v);
    li_low : forall v, lowered (lpar s) v -> lchg s v <> unemitted \/ exists th, In th (lthr s) /\ th_owes th v;
    li_chg : forall v, lchg s v <> unemitted -> lowered (lpar s) v;
    li_two : forall v, lchg s v <= emitted;
    li_need : forall v, lchg s v = need_emit -> exists a, In a atts /\ src a = v;
    li_vis : forall v, lchg s v = emitted <-> exists a, In a (llog s) /\ dst a = v;
    li_log : forall a, In a (llog s) -> In a atts;
    li_nd : NoDup (map dst (llog s));
    li_cov : forall a, In a atts -> relaxed (lpar s) a \/ exists th, In th (lthr s) /\ In a (ltodo th) }.

  Lemma lowered_mono par par' v : (forall v, key (par' v) <= key (par v)) -> lowered par v -> lowered par' v.
  Proof. unfold lowered. intros H. specialize (H v). lia. Qed.
  Lemma relaxed_mono par par' a : (forall v, key (par' v) <= key (par v)) -> relaxed par a -> relaxed par' a.
  Proof. unfold relaxed. intros H. specialize (H (dst a)). lia. Qed.
  Lemma pc_mono par par' a pc : (forall v, key (par' v) <= key (par v)) -> pc_ok par a pc -> pc_ok par' a pc.
  Proof.
    intros H. pose proof (H (src a)) as Hs. pose proof (H (dst a)) as Hd. unfold pc_ok, relaxed, lowered.
    destruct pc; auto; try (intuition lia). destruct flip; intuition lia.
  Qed.

  Lemma li_step s t : LI s -> LI (lstep flip largest s t).
  Proof.
    intros HI. unfold lstep. destruct (nth_error (lthr s) t) as [th|] eqn:Et; auto.
    assert (Hth : In th (lthr s)) by (eapply nth_error_In; eauto).
    destruct (nth_error_split' _ _ Et) as (l1 & l2 & El & Hl1).
    assert (Hset : forall x, lset (lthr s) t x = l1 ++ x :: l2).
    { intros x. rewrite El, <- Hl1. apply lset_app_mid. }
    destruct (ltodo th) as [|a rest] eqn:Etd; auto.
    destruct (li_th HI th Hth) as [Hsub Hpc]. rewrite Etd in Hsub, Hpc.
    assert (Ha : In a atts) by (apply Hsub; now left).
    assert (Hin : forall th' x, In x (l1 ++ th' :: l2) -> x = th' \/ In x (lthr s)).
    { intros th' x Hx. rewrite El. apply in_app_iff in Hx as [Hx|[Hx|Hx]]; auto; right; apply in_app_iff; auto. right. now right. }
    assert (Hout : forall th' x, In x (lthr s) -> x = th \/ In x (l1 ++ th' :: l2)).
    { intros th' x Hx. rewrite El in Hx. apply in_app_iff in Hx as [Hx|[Hx|Hx]]; auto; right; apply in_app_iff; auto. right. now right. }
    assert (Hmid : forall th', In th' (l1 ++ th' :: l2)) by (intros; apply in_app_iff; right; now left).
    (* a general step: new memory below the old one *)
    assert (Hgen : forall par' chg' log' th',
       (forall v, key (par' v) <= key (lpar s v)) ->
       (forall v, lchg s v <> unemitted -> chg' v <> unemitted) ->
       th_ok par' th' ->
       (forall v, val v (par' v)) ->
       (forall v, lowered par' v -> lowered (lpar s) v \/ th_owes th' v) ->
       (forall v, th_owes th v -> chg' v <> unemitted \/ th_owes th' v) ->
       (forall v, chg' v <> unemitted -> lowered par' v) ->
       (forall v, chg' v <= emitted) ->
       (forall v, chg' v = need_emit -> exists a, In a atts /\ src a = v) ->
       (forall v, chg' v = emitted <-> exists a, In a log' /\ dst a = v) ->
       (forall a, In a log' -> In a atts) -> NoDup (map dst log') ->
       (In a (ltodo th') \/ relaxed par' a) -> (forall x, In x rest -> In x (ltodo th')) ->
       LI {| lpar := par'; lchg := chg'; llog := log'; lthr := lset (lthr s) t th' |}).
    { intros par' chg' log' th' Hm Hc H1 H2 H3 H4 H5 H6 H7 H8 H9 H10 H11 H12. rewrite Hset. split; simpl; auto.
      - intros x Hx. apply Hin in Hx as [->|Hx]; auto. destruct (li_th HI x Hx) as [A B]. split; auto.
        destruct (ltodo x); auto. eapply pc_mono; eauto.
      - intros v. pose proof (Hm v). pose proof (li_mono HI v). lia.
      - intros v Hv. destruct (H3 v Hv) as [X|X]; [|right; exists th'; auto].
        destruct (li_low HI X) as [Y|(u & Hu & Hf)]; [left; auto|].
        destruct (Hout th' u Hu) as [->|Hu']; [|right; exists u; auto].
        destruct (H4 v Hf) as [Y|Y]; auto. right. exists th'. auto.
      - intros x Hx. destruct (li_cov HI x Hx) as [X|(u & Hu & Hxu)]; [left; eapply relaxed_mono; eauto|].
        destruct (Hout th' u Hu) as [->|Hu']; [|right; exists u; auto].
        rewrite Etd in Hxu. destruct Hxu as [<-|Hxu]; [|right; exists th'; auto].
        destruct H11 as [X|X]; auto. right. exists th'. auto. }
    assert (Howe : forall v, th_owes th v <-> owes a (lpcs th) v) by (intros v; unfold th_owes; now rewrite Etd).
    assert (Hrest : forall x, In x rest -> In x atts) by (intros; apply Hsub; now right).
    (* only the thread changes *)
    assert (Hgo : forall pc, pc_ok (lpar s) a pc -> (forall v, owes a (lpcs th) v -> lchg s v <> unemitted \/ owes a pc v) ->
       LI {| lpar := lpar s; lchg := lchg s; llog := llog s; lthr := lset (lthr s) t {| ltodo := a :: rest; lpcs := pc |} |}).
    { intros pc H1 H2. destruct HI as [I1 I2 I3 I4 I5 I6 I7 I8 I9 I10 I11].
      apply Hgen; auto; try (simpl; auto; fail).
      - split; simpl; auto.
      - intros v Hv. apply H2. now apply Howe. }
    assert (Hnext : relaxed (lpar s) a -> (forall v, owes a (lpcs th) v -> lchg s v <> unemitted) ->
       LI {| lpar := lpar s; lchg := lchg s; llog := llog s; lthr := lset (lthr s) t {| ltodo := rest; lpcs := First |} |}).
    { intros H1 H2. destruct HI as [I1 I2 I3 I4 I5 I6 I7 I8 I9 I10 I11].
      apply Hgen; auto; try (simpl; auto; fail).
      - split; simpl; auto. destruct rest; simpl; auto.
      - intros v Hv. left. apply H2. now apply Howe. }
    (* a label is lowered *)
    assert (Hwrite : forall v b pc, key b < key (lpar s v) -> val v b -> (v = src a \/ v = dst a) ->
       (forall u, ~ owes a (lpcs th) u) -> owes a pc v ->
       pc_ok (fset (lpar s) v b) a pc ->
       LI {| lpar := fset (lpar s) v b; lchg := lchg s; llog := llog s; lthr := lset (lthr s) t {| ltodo := a :: rest; lpcs := pc |} |}).
    { intros v b pc Hlt Hb Hvv Hno Hyes Hok.
      assert (Hm : forall u, key (fset (lpar s) v b u) <= key (lpar s u)).
      { intros u. destruct (Nat.eq_dec u v) as [->|Hu]; [rewrite fset_same; lia|now rewrite fset_other]. }
      destruct HI as [I1 I2 I3 I4 I5 I6 I7 I8 I9 I10 I11].
      apply Hgen; auto; try (simpl; auto; fail).
      - split; simpl; auto.
      - intros u. destruct (Nat.eq_dec u v) as [->|Hu]; [now rewrite fset_same|now rewrite fset_other].
      - intros u Hu. destruct (Nat.eq_dec u v) as [->|Hne]; [right; exact Hyes|].
        left. unfold lowered in *. now rewrite fset_other in Hu.
      - intros u Hu. apply Howe in Hu. exfalso. eapply Hno; eauto.
      - intros u Hu. eapply lowered_mono; eauto. }
    pose proof (li_mono HI (src a)) as Ms. pose proof (li_mono HI (dst a)) as Md.
    pose proof (li_val HI (src a)) as Vs. pose proof (li_val HI (dst a)) as Vd.
    unfold laction. unfold pc_ok in Hpc. destruct (lpcs th) as [|x| |b|b c| |c| |x| |b|b c| | |c] eqn:Epc.
    - apply Hgo; [|simpl; tauto]. unfold pc_ok. destruct flip; lia.
    - destruct (lp_less _ _) eqn:E; apply Hgo; simpl; try tauto.
      + apply less_true in E. destruct flip; lia.
      + apply less_false in E. unfold relaxed. destruct flip; lia.
    - apply Hgo; [|simpl; tauto]. unfold pc_ok. repeat split; auto.
    - destruct (lp_less b (lpar s (dst a))) eqn:E; apply Hgo; try (simpl; tauto).
      + apply less_true in E. unfold pc_ok. tauto.
      + apply less_false in E. unfold pc_ok, relaxed, lowered. split; [lia|]. split; [lia|auto].
    - destruct (Nat.eqb_spec (lpar s (dst a)) c) as [E|E]; [|apply Hgo; simpl; tauto].
      subst c. destruct Hpc as (H1 & H2 & H3 & H4). apply Hwrite; simpl; auto.
      + now apply (Hval a b Ha).
      + unfold relaxed, lowered. rewrite fset_same. auto.
    - destruct Hpc as (H1 & H2 & H3). destruct (Nat.ltb_spec (lchg s (dst a)) emitted) as [E|E].
      + apply Hgo; simpl; auto.
      + apply Hnext; auto. simpl. intros v <-. unfold emitted, unemitted in *. lia.
    - destruct Hpc as (H1 & H2 & H3). destruct (Nat.eqb_spec (lchg s (dst a)) c) as [E|E]; [|apply Hgo; simpl; auto].
      destruct HI as [I1 I2 I3 I4 I5 I6 I7 I8 I9 I10 I11]. apply Hgen; auto; try (simpl; auto; fail).
      + intros v Hv. destruct (Nat.eq_dec v (dst a)) as [->|Hn]; [rewrite fset_same; discriminate|now rewrite fset_other].
      + split; simpl; auto. destruct rest; simpl; auto.
      + intros v Hv. apply Howe in Hv. simpl in Hv. subst v. left. rewrite fset_same. discriminate.
      + intros v. destruct (Nat.eq_dec v (dst a)) as [->|Hn]; [auto|rewrite fset_other by auto; auto].
      + intros v. destruct (Nat.eq_dec v (dst a)) as [->|Hn]; [rewrite fset_same; auto|rewrite fset_other by auto; auto].
      + intros v. destruct (Nat.eq_dec v (dst a)) as [->|Hn]; [rewrite fset_same; discriminate|rewrite fset_other by auto; auto].
      + intros v. destruct (Nat.eq_dec v (dst a)) as [->|Hn].
        * rewrite fset_same. split; auto. intros _. exists a. split; auto. now left.
        * rewrite fset_other by auto. rewrite I8. split; intros (y & Hy & Ey); [exists y; split; auto; now right|].
          destruct Hy as [->|Hy]; [congruence|eauto].
      + intros y [<-|Hy]; auto.
      + simpl. constructor; auto. rewrite in_map_iff. intros (y & Ey & Hy).
        assert (X : lchg s (dst a) = emitted) by (apply I8; eauto). lia.
    - apply Hgo; [|simpl; tauto]. exact Hpc.
    - destruct (lp_less _ _) eqn:E.
      + apply Hgo; [exact Hpc|simpl; tauto].
      + apply Hnext; auto.
    - apply Hgo; [|simpl; tauto]. split; auto.
    - destruct (lp_less b (lpar s (src a))) eqn:E.
      + apply less_true in E. apply Hgo; [|simpl; tauto]. unfold pc_ok. tauto.
      + apply Hnext; [tauto|]. simpl. tauto.
    - destruct (Nat.eqb_spec (lpar s (src a)) c) as [E|E]; [|apply Hgo; simpl; tauto].
      subst c. destruct Hpc as (H1 & H2 & H3). apply Hwrite; simpl; auto.
      + now apply (Hval a b Ha).
      + split; [|split; auto].
        * eapply relaxed_mono; [|exact H1]. intros u. destruct (Nat.eq_dec u (src a)) as [->|Hu]; [rewrite fset_same; lia|now rewrite fset_other].
        * unfold lowered. rewrite fset_same. lia.
    - destruct Hpc as (H1 & H2 & _). destruct (Nat.eqb_spec (lchg s (src a)) unemitted) as [E|E].
      + apply Hgo; simpl; auto.
      + apply Hnext; auto. simpl. intros v <-. auto.
    - destruct Hpc as (H1 & H2 & _). destruct (Nat.ltb_spec (lchg s (src a)) need_emit) as [E|E].
      + apply Hgo; simpl; auto.
      + apply Hnext; auto. simpl. intros v <-. unfold need_emit, unemitted in *. lia.
    - destruct Hpc as (H1 & H2 & H3). destruct (Nat.eqb_spec (lchg s (src a)) c) as [E|E]; [|apply Hgo; simpl; auto].
      destruct HI as [I1 I2 I3 I4 I5 I6 I7 I8 I9 I10 I11]. apply Hgen; auto; try (simpl; auto; fail).
      + intros v Hv. destruct (Nat.eq_dec v (src a)) as [->|Hn]; [rewrite fset_same; discriminate|now rewrite fset_other].
      + split; simpl; auto. destruct rest; simpl; auto.
      + intros v Hv. apply Howe in Hv. simpl in Hv. subst v. left. rewrite fset_same. discriminate.
      + intros v. destruct (Nat.eq_dec v (src a)) as [->|Hn]; [auto|rewrite fset_other by auto; auto].
      + intros v. destruct (Nat.eq_dec v (src a)) as [->|Hn]; [rewrite fset_same; unfold need_emit, emitted; lia|rewrite fset_other by auto; auto].
      + intros v. destruct (Nat.eq_dec v (src a)) as [->|Hn]; [intros _; exists a; auto|rewrite fset_other by auto; auto].
      + intros v. destruct (Nat.eq_dec v (src a)) as [->|Hn].
        * rewrite fset_same. rewrite <- I8. unfold need_emit, emitted in *. split; [discriminate|lia].
        * rewrite fset_other by auto. auto.
  Qed.
  Lemma li_exec sched : forall s, LI s -> LI (lexec flip largest sched s).
  Proof. unfold lexec. induction sched; simpl; intros s H; auto. apply IHsched. now apply li_step. Qed.

  (* -- no interleaving goes on for ever --------------------------------------------- *)
  Definition pc_live (pc : lpc) : nat :=
    match pc with Emit | EmitCas _ | Check | Need | NeedCas _ => 1 | _ => 2 end.
  Definition pc_cost (par chg : nat -> nat) (a : attempt) (pc : lpc) : nat :=
    match pc with
    | First => 10 | Second _ => 9
    | ReadS => 5 | LoadD _ => 4 | CasD _ c => if par (dst a) =? c then 3 else 5
    | Emit => 2 | EmitCas c => if chg (dst a) =? c then 1 else 3
    | First2 => 8 | Second2 _ => 7 | ReadD => 6
    | LoadS _ => 5 | CasS _ c => if par (src a) =? c then 4 else 6
    | Check => 3 | Need => 2 | NeedCas c => if chg (src a) =? c then 1 else 3
    end.
  Definition lcost (par chg : nat -> nat) (th : lthread) : nat :=
    match ltodo th with [] => 0 | a :: r => 10 * length r + pc_cost par chg a (lpcs th) end.
  Definition llive (th : lthread) : nat :=
    match ltodo th with [] => 0 | a :: r => 2 * length r + pc_live (lpcs th) end.
  Definition pot_of (par chg : nat -> nat) (l : list lthread) : nat :=
    list_sum (map (lcost par chg) l) + list_sum (map llive l) * (2 * length l).
  Definition lpotential (s : lstate) : nat := pot_of (lpar s) (lchg s) (lthr s).

  Lemma lcost_any par chg par' chg' th : lcost par' chg' th <= lcost par chg th + 2.
  Proof.
    unfold lcost. destruct (ltodo th) as [|a r]; [lia|]. unfold pc_cost. destruct (lpcs th); try lia;
    match goal with |- context [(if ?x then _ else _)] => destruct x end; match goal with |- context [(if ?x then _ else _)] => destruct x end; lia.
  Qed.
  Lemma lcost_sum par chg par' chg' l : list_sum (map (lcost par' chg') l) <= list_sum (map (lcost par chg) l) + 2 * length l.
  Proof. induction l as [|th l IH]; simpl; [lia|]. pose proof (lcost_any par chg par' chg' th). lia. Qed.
  Lemma lpot_split par chg l1 th l2 : pot_of par chg (l1 ++ th :: l2)
    = list_sum (map (lcost par chg) l1) + lcost par chg th + list_sum (map (lcost par chg) l2)
      + (list_sum (map llive l1) + llive th + list_sum (map llive l2)) * (2 * S (length l1 + length l2)).
  Proof.
    unfold pot_of. rewrite !map_app, !list_sum_app, app_length. simpl map. simpl list_sum. simpl length.
    replace (length l1 + S (length l2)) with (S (length l1 + length l2)) by lia. lia.
  Qed.
  Lemma lpot_decr s t th : nth_error (lthr s) t = Some th -> ltodo th <> [] ->
    lpotential (lstep flip largest s t) < lpotential s.
  Proof.
    intros Et Hne. destruct (nth_error_split' _ _ Et) as (l1 & l2 & El & Hl1).
    assert (Hset : forall x, lset (lthr s) t x = l1 ++ x :: l2).
    { intros x. rewrite El, <- Hl1. apply lset_app_mid. }
    unfold lpotential at 2. rewrite El, lpot_split.
    assert (Hkeep : forall th' l, lcost (lpar s) (lchg s) th' < lcost (lpar s) (lchg s) th -> llive th' <= llive th ->
       lpotential {| lpar := lpar s; lchg := lchg s; llog := l; lthr := lset (lthr s) t th' |} <
       list_sum (map (lcost (lpar s) (lchg s)) l1) + lcost (lpar s) (lchg s) th + list_sum (map (lcost (lpar s) (lchg s)) l2)
      + (list_sum (map llive l1) + llive th + list_sum (map llive l2)) * (2 * S (length l1 + length l2))).
    { intros th' l H1 H2. unfold lpotential. cbn [lpar lchg lthr]. rewrite Hset, lpot_split.
      assert ((list_sum (map llive l1) + llive th' + list_sum (map llive l2)) * (2 * S (length l1 + length l2))
           <= (list_sum (map llive l1) + llive th + list_sum (map llive l2)) * (2 * S (length l1 + length l2))).
      { apply Nat.mul_le_mono_r. lia. }
      lia. }
    assert (Hchg : forall par' chg' th' l, lcost par' chg' th' < lcost (lpar s) (lchg s) th -> S (llive th') <= llive th ->
       lpotential {| lpar := par'; lchg := chg'; llog := l; lthr := lset (lthr s) t th' |} <
       list_sum (map (lcost (lpar s) (lchg s)) l1) + lcost (lpar s) (lchg s) th + list_sum (map (lcost (lpar s) (lchg s)) l2)
      + (list_sum (map llive l1) + llive th + list_sum (map llive l2)) * (2 * S (length l1 + length l2))).
    { intros par' chg' th' l H1 H2. unfold lpotential. cbn [lpar lchg lthr]. rewrite Hset, lpot_split.
      pose proof (lcost_sum (lpar s) (lchg s) par' chg' l1). pose proof (lcost_sum (lpar s) (lchg s) par' chg' l2).
      assert ((list_sum (map llive l1) + S (llive th') + list_sum (map llive l2)) * (2 * S (length l1 + length l2))
           <= (list_sum (map llive l1) + llive th + list_sum (map llive l2)) * (2 * S (length l1 + length l2))).
      { apply Nat.mul_le_mono_r. lia. }
      replace ((list_sum (map llive l1) + S (llive th') + list_sum (map llive l2)) * (2 * S (length l1 + length l2)))
        with ((list_sum (map llive l1) + llive th' + list_sum (map llive l2)) * (2 * S (length l1 + length l2)) + 2 * S (length l1 + length l2)) in H3 by lia.
      lia. }
    assert (Hc : forall p c r, lcost p c {| ltodo := r; lpcs := First |} = 10 * length r).
    { intros p c r. unfold lcost. destruct r; cbn [ltodo lpcs pc_cost length]; lia. }
    assert (Hl : forall r, llive {| ltodo := r; lpcs := First |} = 2 * length r).
    { intros r. unfold llive. destruct r; cbn [ltodo lpcs pc_live length]; lia. }
    unfold lstep. rewrite Et. destruct (ltodo th) as [|a rest] eqn:Etd; [congruence|].
    assert (E1 : lcost (lpar s) (lchg s) th = 10 * length rest + pc_cost (lpar s) (lchg s) a (lpcs th)) by (unfold lcost; now rewrite Etd).
    assert (E2 : llive th = 2 * length rest + pc_live (lpcs th)) by (unfold llive; now rewrite Etd).
    assert (E3 : forall p c pc, lcost p c {| ltodo := a :: rest; lpcs := pc |} = 10 * length rest + pc_cost p c a pc) by reflexivity.
    assert (E4 : forall pc, llive {| ltodo := a :: rest; lpcs := pc |} = 2 * length rest + pc_live pc) by reflexivity.
    destruct (lpcs th) as [|x| |b|b c| |c| |x| |b|b c| | |c] eqn:Epc; cbn [laction pc_cost pc_live] in *;
      repeat match goal with |- context [match (if ?x then _ else _) with _ => _ end] => destruct x eqn:? end;
      first [apply Hkeep|apply Hchg]; rewrite ?E1, ?E2, ?E3, ?E4, ?Hc, ?Hl; cbn [pc_cost pc_live]; rewrite ?Nat.eqb_refl; lia.
  Qed.

  Lemma lfinish_exists : forall q s, lpotential s <= q -> exists sched, lfinished (lexec flip largest sched s).
  Proof.
    induction q as [|q IH]; intros s Hq.
    - exists []. unfold lfinished. simpl. apply Forall_forall. intros th Hth. apply In_nth_error in Hth as [t Ht].
      destruct (ltodo th) eqn:E; auto. assert (Hne : ltodo th <> []) by congruence. pose proof (lpot_decr _ _ Ht Hne). lia.
    - assert (Hdec : forall th : lthread, {ltodo th = []} + {ltodo th <> []}).
      { intros th. destruct (ltodo th); [left; auto|right; discriminate]. }
      destruct (Forall_Exists_dec (fun th => ltodo th = []) Hdec (lthr s)) as [H|H].
      + exists []. exact H.
      + apply Exists_exists in H as (th & Hth & Hne). apply In_nth_error in Hth as [t Ht].
        pose proof (lpot_decr _ _ Ht Hne) as Hd. destruct (IH (lstep flip largest s t)) as [sched Hs]; [lia|].
        exists (t :: sched). exact Hs.
  Qed.
End Machine.

Lemma start_li flip largest q0 (chg0 : nat -> nat) (val : nat -> nat -> Prop) ts : (forall v, chg0 v = unemitted) ->
  (forall v, val v (q0 v)) -> LI flip largest q0 (flat_map todo ts) val (lstart q0 chg0 ts).
Proof.
  intros Hc Hv. split; simpl.
  - intros th Hth. apply in_map_iff in Hth as (u & <- & Hu). split; simpl.
    + intros a Ha. apply in_flat_map. eauto.
    + destruct (todo u); simpl; auto.
  - auto.
  - exact Hv.
  - intros v X. unfold lowered in X. lia.
  - intros v X. now rewrite Hc in X.
  - intros v. rewrite Hc. unfold unemitted, emitted. lia.
  - intros v X. now rewrite Hc in X.
  - intros v. rewrite Hc. split; [discriminate|]. intros (a & [] & _).
  - easy.
  - constructor.
  - intros a Ha. right. apply in_flat_map in Ha as (u & Hu & Ha). eexists. split; [apply in_map; exact Hu|]. auto.
Qed.

Lemma unmark_spec : forall l (chg : nat -> nat) v,
  fold_left (fun chg v => fset chg v unemitted) l chg v = if in_dec Nat.eq_dec v l then unemitted else chg v.
Proof.
  induction l as [|x l IH]; intros chg v; auto. cbn [fold_left]. rewrite IH.
  destruct (in_dec Nat.eq_dec v l) as [H|H], (in_dec Nat.eq_dec v (x :: l)) as [H'|H']; auto.
  - exfalso. apply H'. now right.
  - destruct H' as [->|H']; [apply fset_same|contradiction].
  - apply fset_other. intros ->. apply H'. now left.
Qed.

Section Round.
  Variable flip : bool.
  Variable largest : nat.
  Notation key := (lkey largest).
  Variable n : nat.
  Variable outn : nat -> list nat.
  Hypothesis G : graph_ok n outn outn.
  Variable m : nat.
  Variable par0 : nat -> nat.
  Definition lval (v x : nat) : Prop := exists u, reachable outn v u /\ x = par0 u.

  Lemma lval_edge s d x : s < n -> In d (outn s) -> (lval s x <-> lval d x).
  Proof.
    intros Hs Hd. assert (Hr : reachable outn s d) by (exists 1; now apply walk_1).
    pose proof (reach_sym G Hs Hr) as Hr'. split; intros (u & Hu & ->); exists u; split; auto; eapply reach_trans; eauto.
  Qed.

  Record step_ok (F : list nat) (q par' chg' : nat -> nat) (next' : vset unit) (F' : list nat) : Prop := {
    s_inv : Inv n next' (plain F');
    s_F : forall v, In v F' <-> key (par' v) < key (q v);
    s_mono : forall v, key (par' v) <= key (q v);
    s_val : forall v, lval v (par' v);
    s_rel : forall u v, In u F -> In v (outn u) -> key (par' v) <= key (q u);
    s_chg : forall v, unmark next' chg' v = unemitted }.

  Lemma vtx_list F V : Inv n V (plain F) -> isDense V = false ->
    Permutation (map (fun i => fst (nth i (vs V) (0, tt))) (seq 0 (vm V))) F.
  Proof.
    intros HV Hd. pose proof (i_ss HV Hd) as Hp. pose proof (i_m HV) as Hm.
    rewrite Hm, <- (Permutation_length Hp), <- (map_map (fun i => nth i (vs V) (0, tt)) fst), map_nth_seq.
    apply (Permutation_map fst) in Hp. unfold plain in Hp. rewrite map_map in Hp. simpl in Hp. now rewrite map_id in Hp.
  Qed.

  Lemma finish_round F U' V q s ts next l : Inv n U' (plain F) -> toSparse U' = Some V ->
    (forall a, In a (flat_map todo ts) -> In (src a) F /\ In (dst a) (outn (src a))) ->
    (forall u v, In u F -> In v (outn u) -> exists a, In a (flat_map todo ts) /\ src a = u /\ dst a = v) ->
    LI flip largest q (flat_map todo ts) lval s -> lfinished s ->
    NoDup l -> (forall d, In d l <-> exists a, In a (llog s) /\ dst a = d) ->
    built n next (plain l) -> one_representation next ->
    exists F', step_ok F q (lpar s) (lchg s) (add_to_vsubset next (new_vtxs V (lchg s))) F'.
  Proof.
    intros HU' EV He1 He2 HI Hfin Hndl Hl Hbn Hone.
    destruct (toSparse_inv HU') as (V' & EV' & HV & HVs). rewrite EV in EV'. injection EV' as <-.
    pose proof (vtx_list F HV HVs) as HP. unfold new_vtxs.
    set (L := map (fun i => fst (nth i (vs V) (0, tt))) (seq 0 (vm V))) in *.
    set (new := filter (fun v => lchg s v =? need_emit) L).
    assert (Hnew : forall v, In v new <-> In v F /\ lchg s v = need_emit).
    { intros v. unfold new. rewrite filter_In, Nat.eqb_eq. split; intros [A B]; split; auto.
      - now apply (Permutation_in _ HP).
      - now apply (Permutation_in _ (Permutation_sym HP)). }
    destruct (i_sub HU') as [HndF HltF]. unfold plain in HndF. rewrite map_map, map_id in HndF.
    assert (Hndn : NoDup new). { apply NoDup_filter. eapply Permutation_NoDup; [apply Permutation_sym, HP|auto]. }
    assert (Hdec : forall v, In v (l ++ new) <-> lchg s v <> unemitted).
    { intros v. rewrite in_app_iff, Hl, Hnew, <- (li_vis HI). pose proof (li_two HI v). unfold unemitted, need_emit, emitted in *. split.
      - lia.
      - intros X. destruct (Nat.eq_dec (lchg s v) 2) as [E|E]; auto. right. assert (E1 : lchg s v = 1) by lia.
        split; auto. destruct (li_need HI v E1) as (a & Ha & <-). now apply He1. }
    unfold lfinished in Hfin. rewrite Forall_forall in Hfin.
    assert (Hlow : forall v, In v (l ++ new) <-> key (lpar s v) < key (q v)).
    { intros v. rewrite Hdec. split.
      - apply (li_chg HI).
      - intros X. destruct (li_low HI X) as [Y|(th & Hth & Ho)]; auto. exfalso.
        unfold th_owes in Ho. now rewrite (Hfin _ Hth) in Ho. }
    assert (HInext : Inv n (add_to_vsubset next new) (plain (l ++ new))).
    { unfold plain. rewrite map_app. apply add_inv; auto.
      - apply (built_inv tt), Hbn.
      - fold (plain l). unfold plain. rewrite map_map, map_id. apply NoDup_app_iff. split; auto. split; auto.
        intros v H1 H2. apply Hl, (li_vis HI) in H1. apply Hnew in H2 as [_ H2]. rewrite H1 in H2. discriminate.
      - apply Forall_forall. intros v Hv. apply Hnew in Hv as [Hv _]. rewrite Forall_forall in HltF.
        apply (HltF (v, tt)). unfold plain. apply in_map_iff. eauto. }
    exists (l ++ new). split; auto.
    - apply (li_mono HI).
    - apply (li_val HI).
    - intros u v Hu Hv. destruct (He2 u v Hu Hv) as (a & Ha & <- & <-).
      destruct (li_cov HI a Ha) as [X|(th & Hth & Hx)]; auto. rewrite (Hfin _ Hth) in Hx. destruct Hx.
    - intros v. unfold unmark. rewrite unmark_spec. destruct (in_dec _ _ _) as [X|X]; auto.
      destruct (Nat.eq_dec (lchg s v) unemitted) as [E|E]; auto. exfalso. apply X. apply Hdec in E.
      pose proof (calls_perm tt HInext) as Hp. apply (Permutation_map fst) in Hp.
      eapply Permutation_in; [apply Permutation_sym, Hp|]. unfold plain. rewrite map_map. simpl. now rewrite map_id.
  Qed.

  Lemma label_round F U q chg U' par' chg' next V : Inv n U (plain F) -> (forall v, chg v = unemitted) ->
    (forall v, lval v (q v)) ->
    edgeMap_label flip largest n outn m U q chg U' par' chg' next -> toSparse U' = Some V ->
    exists F', step_ok F q par' chg' (add_to_vsubset next (new_vtxs V chg')) F'.
  Proof.
    intros HU Hchg Hv HR EV.
    destruct (choice_ok outn F m None lp_flags HU) as (c & U1 & Ec & HU1 & Hc).
    assert (Hout : forall s d, s < n -> In d (outn s) -> d < n) by (intros; eapply g_out; eauto).
    assert (Hatt : forall atts, frontier_edges outn F atts ->
      (forall a, In a atts -> In (src a) F /\ In (dst a) (outn (src a))) /\
      (forall u v, In u F -> In v (outn u) -> exists a, In a atts /\ src a = u /\ dst a = v) /\
      (forall a x, In a atts -> (lval (src a) x <-> lval (dst a) x))).
    { intros atts (A & B & _). assert (A' : forall a, In a atts -> In (src a) F /\ In (dst a) (outn (src a))).
      { intros a Ha. apply A in Ha as [H1 H2]. split; auto. eapply nth_error_In; eauto. }
      split; auto. split.
      - intros u v Hu Hv'. apply In_nth_error in Hv' as [j Hj]. destruct (B u j v Hu Hj) as (a & H1 & H2 & H3 & H4). eauto.
      - intros a x Ha. apply A' in Ha as [H1 H2]. apply lval_edge; auto. eapply (F_lt' F HU1); eauto. }
    inversion HR as [U2 E|U2 sched E s Hfin|U2 B W M ebs sched out E HB HW HM s Hfin Eout]; subst.
    - rewrite Ec in E. injection E as -> ->.
      apply (@finish_round F U' V par' (lstart par' chg' []) [] (vs_empty n) []); auto; simpl.
      + easy.
      + intros u v Hu Hv'. exfalso. eapply Hc; eauto.
      + apply start_li with (ts := []); auto.
      + constructor.
      + constructor.
      + intros d. split; [easy|]. intros (a & [] & _).
      + split; [split; constructor|]. now left.
      + reflexivity.
    - rewrite Ec in E. injection E as -> ->.
      pose proof (@forward_edges n outn F U' HU1 Hc) as He. destruct (Hatt _ He) as (H1 & H2 & H3).
      assert (HI : LI flip largest q (flat_map todo (forward_threads n outn U')) lval s).
      { apply li_exec; auto. now apply start_li. }
      destruct (@forward_log n outn F U' HU1 Hout (llog s)) as (l & Hnd & Hl & HUl); auto; [apply (li_log HI)|].
      eapply finish_round; eauto. reflexivity.
    - rewrite Ec in E. injection E as -> ->. destruct Hc as [Hs Hne].
      pose proof (@chunk_edges n outn F U' HU1 B W M ebs HB HW HM Hs Hne) as He. destruct (Hatt _ He) as (H1 & H2 & H3).
      assert (HI : LI flip largest q (flat_map todo (chunk_threads outn U' B (plain_bdeg B) ebs)) lval s).
      { apply li_exec; auto. now apply start_li. }
      destruct (@chunk_log n outn F U' HU1 Hout B W M ebs HB HW HM Hs Hne (llog s)) as (l & Hnd & Hl & EO & HUl).
      { apply (li_log HI). }
      { apply (li_nd HI). }
      rewrite Eout in EO. injection EO as ->. eapply finish_round; eauto. reflexivity.
  Qed.

  Lemma label_progress F U q chg : Inv n U (plain F) -> (forall v, chg v = unemitted) -> (forall v, lval v (q v)) ->
    exists U' par' chg' next V, edgeMap_label flip largest n outn m U q chg U' par' chg' next /\ toSparse U' = Some V.
  Proof.
    intros HU Hchg Hv.
    destruct (choice_ok outn F m None lp_flags HU) as (c & U1 & Ec & HU1 & Hc).
    assert (Hout : forall s d, s < n -> In d (outn s) -> d < n) by (intros; eapply g_out; eauto).
    destruct (toSparse_inv HU1) as (V & EV & _ & _).
    destruct c.
    - exists U1. do 4 eexists. split; [eapply label_nothing; eauto|eauto].
    - exfalso. clear -Ec. unfold edgeMap_choice, dense_choice in Ec. simpl in Ec.
      destruct (vm U =? 0); [discriminate|]. destruct (_ && _); [discriminate|]. destruct (toSparse U); [|discriminate].
      destruct (_ =? 0); [discriminate|]. destruct (_ && _); discriminate.
    - destruct (lfinish_exists flip largest _ (le_n (lpotential (lstart q chg (forward_threads n outn U1))))) as [sched Hs].
      exists U1. do 4 eexists. split; [eapply label_forward; eauto|eauto].
    - destruct Hc as [Hs Hne].
      destruct (lfinish_exists flip largest _ (le_n (lpotential (lstart q chg (chunk_threads outn U1 1 (plain_bdeg 1) (fun _ => 1)))))) as [sched Hsc].
      set (s := lexec flip largest sched _) in Hsc.
      pose proof (@chunk_edges n outn F U1 HU1 1 1 1 (fun _ => 1) (le_n _) (le_n _) (le_n _) Hs Hne) as He.
      assert (HI : LI flip largest q (flat_map todo (chunk_threads outn U1 1 (plain_bdeg 1) (fun _ => 1))) lval s).
      { apply li_exec; [|now apply start_li]. intros a x Ha. destruct He as (A & _). apply A in Ha as [H1 H2].
        apply lval_edge; [eapply (F_lt' F HU1); eauto|eapply nth_error_In; eauto]. }
      destruct (@chunk_log n outn F U1 HU1 Hout 1 1 1 (fun _ => 1) (le_n _) (le_n _) (le_n _) Hs Hne (llog s)) as (l & Hnd & Hl & EO & HUl).
      { apply (li_log HI). }
      { apply (li_nd HI). }
      exists U1. do 4 eexists. split; [eapply label_sparse with (sched := sched); eauto|eauto].
  Qed.

  (* -- the rounds --------------------------------------------------------------------- *)
  Record PInv (k : nat) (par chg : nat -> nat) (U : vset unit) (F : list nat) : Prop := {
    p_inv : Inv n U (plain F);
    p_chg : forall v, chg v = unemitted;
    p_val : forall v, lval v (par v);
    p_rel : forall u v, u < n -> ~ In u F -> In v (outn u) -> key (par v) <= key (par u);
    p_bound : forall u j v, u < n -> walk outn u j v -> j <= k -> key (par v) <= key (par0 u);
    p_new : forall u j v, u < n -> In v F -> walk outn u j v -> j < k -> key (par v) < key (par0 u) }.

  Lemma start_pinv : PInv 0 par0 (fun _ => unemitted) (vs_dense n (repeat (true, tt) n)) (seq 0 n).
  Proof.
    split; auto.
    - apply (built_inv tt). split; [split|].
      + unfold plain. rewrite map_map. simpl. rewrite map_id. apply seq_NoDup.
      + unfold plain. apply Forall_map. apply Forall_forall. intros v Hv. simpl. apply in_seq in Hv. lia.
      + right. right. eexists. split; [|split; [|left; reflexivity]].
        * apply repeat_length.
        * intros v []. unfold stored. split.
          -- intros H. assert (Hv : v < n) by (rewrite <- (repeat_length (true, tt) n); apply nth_error_Some; congruence).
             unfold plain. apply in_map_iff. exists v. split; auto. apply in_seq. lia.
          -- intros H. unfold plain in H. apply in_map_iff in H as (u & E & Hu). injection E as ->. apply in_seq in Hu.
             destruct (nth_error (repeat (true, tt) n) v) as [e|] eqn:E.
             ++ apply nth_error_In, repeat_spec in E. now subst.
             ++ apply nth_error_None in E. rewrite repeat_length in E. lia.
    - intros v. exists v. split; auto. apply reach_refl.
    - intros u v Hu Hn. exfalso. apply Hn. apply in_seq. lia.
    - intros u j v Hu Hw Hj. assert (j = 0) by lia. subst. inversion Hw. subst. lia.
    - intros. lia.
  Qed.

  Lemma round_pinv k par chg U F U' par' chg' next V : PInv k par chg U F ->
    edgeMap_label flip largest n outn m U par chg U' par' chg' next -> toSparse U' = Some V ->
    exists F', PInv (S k) par' (unmark (add_to_vsubset next (new_vtxs V chg')) chg') (add_to_vsubset next (new_vtxs V chg')) F'.
  Proof.
    intros HI HR EV. destruct (label_round F (p_inv HI) (p_chg HI) (p_val HI) HR EV) as (F' & HO).
    exists F'. pose proof (s_mono HO) as Hm.
    assert (Hstep : forall u v, u < n -> In v (outn u) -> key (par' v) <= key (par u)).
    { intros u v Hu Hv. destruct (in_dec Nat.eq_dec u F) as [Hin|Hin]; [now apply (s_rel HO)|].
      pose proof (Hm v). pose proof (p_rel HI _ Hu Hin Hv). lia. }
    split.
    - apply (s_inv HO).
    - apply (s_chg HO).
    - apply (s_val HO).
    - intros u v Hu Hn Hv. assert (E : key (par' u) = key (par u)).
      { pose proof (Hm u). destruct (Nat.eq_dec (key (par' u)) (key (par u))); auto. exfalso. apply Hn, (s_F HO). lia. }
      rewrite E. auto.
    - intros u j v Hu Hw Hj. inversion Hw as [|i w ? Hw' Hin]; subst.
      + pose proof (Hm v). pose proof (p_bound HI Hu (walk_0 outn v) ltac:(lia)). lia.
      + pose proof (p_bound HI Hu Hw' ltac:(lia)). pose proof (Hstep w v (walk_lt G Hu Hw') Hin). lia.
    - intros u j v Hu Hv Hw Hj. apply (s_F HO) in Hv. pose proof (p_bound HI Hu Hw ltac:(lia)). lia.
  Qed.

  Lemma short_walk u v : u < n -> reachable outn u v -> exists j, j < n /\ walk outn u j v.
  Proof.
    intros Hu [k Hw].
    assert (H1 : exists p x, wwalk outn (fun _ _ => 0%Z) u p v x).
    { clear Hu. induction Hw as [|k v w Hw (p & x & IH) Hin]; [exists [u], 0%Z; constructor|].
      apply In_nth_error in Hin as [j Hj]. exists (w :: p), (x + 0)%Z. econstructor; eauto. exists j. auto. }
    destruct H1 as (p & x & H1).
    assert (H0 : forall u p v x, wwalk outn (fun _ _ => 0%Z) u p v x -> x = 0%Z).
    { intros u' p' v' x' H. induction H as [|p' v' x' w y H IH (j & _ & ->)]; lia. }
    destruct (shorten G Hu (le_n _) H1) as [(a & p1 & x1 & q & y & A & B & C)|(p' & x' & A & B & C)].
    - apply H0 in B. lia.
    - assert (H2 : forall p v x, wwalk outn (fun _ _ => 0%Z) u p v x -> exists j, length p = S j /\ walk outn u j v).
      { intros p2 v2 x2 H. induction H as [|p2 v2 x2 w y H (j & E & IH) He]; [exists 0; split; auto; constructor|].
        exists (S j). split; [simpl; lia|]. econstructor; eauto. destruct He as (i & Hi & _). eapply nth_error_In; eauto. }
      destruct (H2 _ _ _ A) as (j & E & Hj). exists j. split; auto. lia.
  Qed.

  Lemma frontier_round k par chg U F : PInv k par chg U F -> size U <> 0 -> k < n.
  Proof.
    intros HI Hs. unfold size in Hs. rewrite (i_m (p_inv HI)) in Hs. unfold plain in Hs. rewrite map_length in Hs.
    destruct F as [|v F]; [now contradiction Hs|].
    destruct (Nat.lt_ge_cases k n) as [|Hk]; auto. exfalso.
    assert (Hv : v < n).
    { destruct (i_sub (p_inv HI)) as [_ X]. rewrite Forall_forall in X. apply (X (v, tt)). now left. }
    destruct (p_val HI v) as (w & Hr & E). pose proof (reach_lt G Hv Hr) as Hw.
    destruct (@short_walk w v Hw (reach_sym G Hv Hr)) as (j & Hj & Hwk).
    assert (Hlt : key (par v) < key (par0 w)) by (eapply (p_new HI); eauto; [now left|lia]).
    rewrite E in Hlt. lia.
  Qed.

  Lemma loop_pinv k par chg U : lp_loop flip largest n outn m par0 k par chg U -> k <= n /\ exists F, PInv k par chg U F.
  Proof.
    intros H. induction H as [|k par chg U U' par' chg' next V H [Hk [F HI]] Hs HR EV next'].
    - split; [lia|]. exists (seq 0 n). apply start_pinv.
    - split; [now apply (frontier_round HI)|]. eapply round_pinv; eauto.
  Qed.

  Lemma end_labels k par chg U F : PInv k par chg U F -> size U = 0 -> forall v, v < n ->
    (exists u, reachable outn v u /\ par v = par0 u) /\ (forall u, reachable outn v u -> par u = par v /\ key (par v) <= key (par0 u)).
  Proof.
    intros HI Hs v Hv. unfold size in Hs. rewrite (i_m (p_inv HI)) in Hs. unfold plain in Hs. rewrite map_length in Hs.
    destruct F; [|discriminate]. split; [apply (p_val HI)|].
    assert (Heq : forall u, reachable outn v u -> par u = par v).
    { intros u [k' Hw]. induction Hw as [|k' u w Hw IH Hin]; auto. rewrite <- IH. apply lkey_inj with largest.
      pose proof (walk_lt G Hv Hw) as Hu. pose proof (@g_out _ _ _ G u w Hu Hin) as Hw'.
      pose proof (p_rel HI _ Hu (fun X => X) Hin). pose proof (p_rel HI _ Hw' (fun X => X) (proj1 (@g_dual _ _ _ G u w Hu Hw') Hin)). lia. }
    intros u Hu. split; auto. rewrite <- (Heq u Hu).
    apply (p_bound HI (reach_lt G Hv Hu) (walk_0 outn u)). lia.
  Qed.

  Lemma lp_ends : exists par, lp_returns flip largest n outn m par0 par.
  Proof.
    assert (H : forall j, j <= S n -> (exists par, lp_returns flip largest n outn m par0 par)
              \/ exists par chg U, lp_loop flip largest n outn m par0 j par chg U).
    { induction j as [|j IH]; intros Hj; [right; do 3 eexists; apply lp_start|].
      destruct IH as [H|(par & chg & U & H)]; [lia|auto|].
      destruct (Nat.eq_dec (size U) 0) as [E|E]; [left; exists par, j, chg, U; auto|].
      destruct (loop_pinv H) as [_ [F HI]].
      destruct (label_progress F par chg (p_inv HI) (p_chg HI) (p_val HI)) as (U' & par' & chg' & next & V & HR & EV).
      right. do 3 eexists. eapply lp_round; eauto. }
    destruct (H (S n) (le_n _)) as [X|(par & chg & U & X)]; auto. apply loop_pinv in X as [X _]. lia.
  Qed.
End Round.
