(* Proofs about the label propagation spanning forest: the two traversals of a round. *)
From Verif Require Import Base ListUtil VSModel EMModel LPModel LPProofs PFModel.
Unset Strict Implicit.

Section Mark.
  Variable largest : nat.
  Notation key := (lkey largest).
  Notation lp_less := (lp_less largest).
  Variable q : nat -> nat.             (* labels at the start of the round *)
  Variable atts : list attempt.

  (* x is the label of a vertex across a visited edge *)
  Definition near (v x : nat) : Prop :=
    x = q v \/ exists a, In a atts /\ (dst a = v /\ x = q (src a) \/ src a = v /\ x = q (dst a)).
  Definition mrelaxed (par : nat -> nat) (a : attempt) : Prop :=
    key (par (dst a)) <= key (q (src a)) /\ key (par (src a)) <= key (q (dst a)).
  Definition mlowered (par : nat -> nat) (v : nat) : Prop := key (par v) < key (q v).
  Definition mpc_ok (par : nat -> nat) (a : attempt) (pc : mpc) : Prop :=
    let s := src a in let d := dst a in
    match pc with
    | MTest => True
    | MLoadD => key (q s) < key (q d)
    | MCasD c => key (q s) < key (q d) /\ key (q s) < key c
    | MEmit | MEmitCas _ => key (q s) < key (q d) /\ key (par d) <= key (q s) /\ (match pc with MEmitCas c => c < emitted | _ => True end)
    | MLoadS => key (q d) < key (q s)
    | MCasS c => key (q d) < key (q s) /\ key (q d) < key c
    | MCheck | MNeed | MNeedCas _ => key (q d) < key (q s) /\ key (par s) <= key (q d) /\ (match pc with MNeedCas c => c < need_emit | _ => True end)
    end.
  Definition mowes (a : attempt) (pc : mpc) (v : nat) : Prop :=
    match pc with
    | MEmit | MEmitCas _ => dst a = v
    | MCheck | MNeed | MNeedCas _ => src a = v
    | _ => False
    end.
  Definition mth_ok (par : nat -> nat) (th : mthread) : Prop :=
    (forall a, In a (mtodo th) -> In a atts) /\
    match mtodo th with [] => True | a :: _ => mpc_ok par a (mpcs th) end.
  Definition mth_owes (th : mthread) (v : nat) : Prop := match mtodo th with [] => False | a :: _ => mowes a (mpcs th) v end.

  Record MI (s : mstate) : Prop := {
    mi_th : forall th, In th (mthr s) -> mth_ok (mpar s) th;
    mi_mono : forall v, key (mpar s v) <= key (q v);
    mi_val : forall v, near v (mpar s v);
    mi_low : forall v, mlowered (mpar s) v -> mchg s v <> unemitted \/ exists th, In th (mthr s) /\ mth_owes th v;
    mi_chg : forall v, mchg s v <> unemitted -> mlowered (mpar s) v;
    mi_two : forall v, mchg s v <= emitted;
    mi_need : forall v, mchg s v = need_emit -> exists a, In a atts /\ src a = v;
    mi_vis : forall v, mchg s v = emitted <-> exists a, In a (mlog s) /\ dst a = v;
    mi_log : forall a, In a (mlog s) -> In a atts;
    mi_nd : NoDup (map dst (mlog s));
    mi_cov : forall a, In a atts -> mrelaxed (mpar s) a \/ exists th, In th (mthr s) /\ In a (mtodo th) }.

  Lemma mlowered_mono par par' v : (forall v, key (par' v) <= key (par v)) -> mlowered par v -> mlowered par' v.
  Proof. unfold mlowered. intros H. specialize (H v). lia. Qed.
  Lemma mrelaxed_mono par par' a : (forall v, key (par' v) <= key (par v)) -> mrelaxed par a -> mrelaxed par' a.
  Proof. unfold mrelaxed. intros H. pose proof (H (dst a)). pose proof (H (src a)). lia. Qed.
  Lemma mpc_mono par par' a pc : (forall v, key (par' v) <= key (par v)) -> mpc_ok par a pc -> mpc_ok par' a pc.
  Proof.
    intros H. pose proof (H (src a)) as Hs. pose proof (H (dst a)) as Hd. unfold mpc_ok.
    destruct pc; auto; intuition lia.
  Qed.

  Lemma mi_step s t : MI s -> MI (mstep largest q s t).
  Proof.
    intros HI. unfold mstep. destruct (nth_error (mthr s) t) as [th|] eqn:Et; auto.
    assert (Hth : In th (mthr s)) by (eapply nth_error_In; eauto).
    destruct (nth_error_split' _ _ Et) as (l1 & l2 & El & Hl1).
    assert (Hset : forall x, lset (mthr s) t x = l1 ++ x :: l2).
    { intros x. rewrite El, <- Hl1. apply lset_app_mid. }
    destruct (mtodo th) as [|a rest] eqn:Etd; auto.
    destruct (@mi_th _ HI th Hth) as [Hsub Hpc]. rewrite Etd in Hsub, Hpc.
    assert (Ha : In a atts) by (apply Hsub; now left).
    assert (Hin : forall th' x, In x (l1 ++ th' :: l2) -> x = th' \/ In x (mthr s)).
    { intros th' x Hx. rewrite El. apply in_app_iff in Hx as [Hx|[Hx|Hx]]; auto; right; apply in_app_iff; auto. right. now right. }
    assert (Hout : forall th' x, In x (mthr s) -> x = th \/ In x (l1 ++ th' :: l2)).
    { intros th' x Hx. rewrite El in Hx. apply in_app_iff in Hx as [Hx|[Hx|Hx]]; auto; right; apply in_app_iff; auto. right. now right. }
    assert (Hmid : forall th', In th' (l1 ++ th' :: l2)) by (intros; apply in_app_iff; right; now left).
    assert (Hgen : forall par' chg' log' th',
       (forall v, key (par' v) <= key (mpar s v)) ->
       (forall v, mchg s v <> unemitted -> chg' v <> unemitted) ->
       mth_ok par' th' ->
       (forall v, near v (par' v)) ->
       (forall v, mlowered par' v -> mlowered (mpar s) v \/ mth_owes th' v) ->
       (forall v, mth_owes th v -> chg' v <> unemitted \/ mth_owes th' v) ->
       (forall v, chg' v <> unemitted -> mlowered par' v) ->
       (forall v, chg' v <= emitted) ->
       (forall v, chg' v = need_emit -> exists a, In a atts /\ src a = v) ->
       (forall v, chg' v = emitted <-> exists a, In a log' /\ dst a = v) ->
       (forall a, In a log' -> In a atts) -> NoDup (map dst log') ->
       (In a (mtodo th') \/ mrelaxed par' a) -> (forall x, In x rest -> In x (mtodo th')) ->
       MI {| mpar := par'; mchg := chg'; mlog := log'; mthr := lset (mthr s) t th' |}).
    { intros par' chg' log' th' Hm Hc H1 H2 H3 H4 H5 H6 H7 H8 H9 H10 H11 H12. rewrite Hset. split; simpl; auto.
      - intros x Hx. apply Hin in Hx as [->|Hx]; auto. destruct (@mi_th _ HI x Hx) as [A B]. split; auto.
        destruct (mtodo x); auto. eapply mpc_mono; eauto.
      - intros v. pose proof (Hm v). pose proof (mi_mono HI v). lia.
      - intros v Hv. destruct (H3 v Hv) as [X|X]; [|right; exists th'; auto].
        destruct (mi_low HI X) as [Y|(u & Hu & Hf)]; [left; auto|].
        destruct (Hout th' u Hu) as [->|Hu']; [|right; exists u; auto].
        destruct (H4 v Hf) as [Y|Y]; auto. right. exists th'. auto.
      - intros x Hx. destruct (mi_cov HI Hx) as [X|(u & Hu & Hxu)]; [left; eapply mrelaxed_mono; eauto|].
        destruct (Hout th' u Hu) as [->|Hu']; [|right; exists u; auto].
        rewrite Etd in Hxu. destruct Hxu as [<-|Hxu]; [|right; exists th'; auto].
        destruct H11 as [X|X]; auto. right. exists th'. auto. }
    assert (Howe : forall v, mth_owes th v <-> mowes a (mpcs th) v) by (intros v; unfold mth_owes; now rewrite Etd).
    assert (Hrest : forall x, In x rest -> In x atts) by (intros; apply Hsub; now right).
    assert (Hgo : forall pc, mpc_ok (mpar s) a pc -> (forall v, mowes a (mpcs th) v -> mchg s v <> unemitted \/ mowes a pc v) ->
       MI {| mpar := mpar s; mchg := mchg s; mlog := mlog s; mthr := lset (mthr s) t {| mtodo := a :: rest; mpcs := pc |} |}).
    { intros pc H1 H2. destruct HI as [I1 I2 I3 I4 I5 I6 I7 I8 I9 I10 I11].
      apply Hgen; auto; try (simpl; auto; fail).
      - split; simpl; auto.
      - intros v Hv. apply H2. now apply Howe. }
    assert (Hnext : mrelaxed (mpar s) a -> (forall v, mowes a (mpcs th) v -> mchg s v <> unemitted) ->
       MI {| mpar := mpar s; mchg := mchg s; mlog := mlog s; mthr := lset (mthr s) t {| mtodo := rest; mpcs := MTest |} |}).
    { intros H1 H2. destruct HI as [I1 I2 I3 I4 I5 I6 I7 I8 I9 I10 I11].
      apply Hgen; auto; try (simpl; auto; fail).
      - split; simpl; auto. destruct rest; simpl; auto.
      - intros v Hv. left. apply H2. now apply Howe. }
    assert (Hwrite : forall v b pc, key b < key (mpar s v) -> near v b ->
       (forall u, ~ mowes a (mpcs th) u) -> mowes a pc v ->
       mpc_ok (fset (mpar s) v b) a pc ->
       MI {| mpar := fset (mpar s) v b; mchg := mchg s; mlog := mlog s; mthr := lset (mthr s) t {| mtodo := a :: rest; mpcs := pc |} |}).
    { intros v b pc Hlt Hb Hno Hyes Hok.
      assert (Hm : forall u, key (fset (mpar s) v b u) <= key (mpar s u)).
      { intros u. destruct (Nat.eq_dec u v) as [->|Hu]; [rewrite fset_same; lia|now rewrite fset_other]. }
      destruct HI as [I1 I2 I3 I4 I5 I6 I7 I8 I9 I10 I11].
      apply Hgen; auto; try (simpl; auto; fail).
      - split; simpl; auto.
      - intros u. destruct (Nat.eq_dec u v) as [->|Hu]; [now rewrite fset_same|now rewrite fset_other].
      - intros u Hu. destruct (Nat.eq_dec u v) as [->|Hne]; [right; exact Hyes|].
        left. unfold mlowered in *. now rewrite fset_other in Hu.
      - intros u Hu. apply Howe in Hu. exfalso. eapply Hno; eauto.
      - intros u Hu. eapply mlowered_mono; eauto. }
    pose proof (mi_mono HI (src a)) as Ms. pose proof (mi_mono HI (dst a)) as Md.
    unfold maction. unfold mpc_ok in Hpc. destruct (mpcs th) as [| |c| |c| |c| | |c] eqn:Epc.
    - destruct (lp_less (q (src a)) _) eqn:E.
      + apply less_true in E. apply Hgo; [exact E|simpl; tauto].
      + apply less_false in E. destruct (lp_less (q (dst a)) _) eqn:E'.
        * apply less_true in E'. apply Hgo; [exact E'|simpl; tauto].
        * apply less_false in E'. apply Hnext; [unfold mrelaxed; lia|simpl; tauto].
    - destruct (lp_less (q (src a)) (mpar s (dst a))) eqn:E; apply Hgo; try (simpl; tauto).
      + apply less_true in E. split; auto.
      + apply less_false in E. unfold mpc_ok. split; [auto|]. split; [lia|auto].
    - destruct (Nat.eqb_spec (mpar s (dst a)) c) as [E|E]; [|apply Hgo; simpl; tauto].
      subst c. destruct Hpc as (H1 & H2). apply Hwrite; simpl; auto.
      + right. exists a. split; auto.
      + rewrite fset_same. auto.
    - destruct Hpc as (H1 & H2 & H3). destruct (Nat.ltb_spec (mchg s (dst a)) emitted) as [E|E].
      + apply Hgo; simpl; auto.
      + apply Hnext; [unfold mrelaxed; lia|]. simpl. intros v <-. unfold emitted, unemitted in *. lia.
    - destruct Hpc as (H1 & H2 & H3). destruct (Nat.eqb_spec (mchg s (dst a)) c) as [E|E]; [|apply Hgo; simpl; auto].
      destruct HI as [I1 I2 I3 I4 I5 I6 I7 I8 I9 I10 I11]. apply Hgen; auto; try (simpl; auto; fail).
      + intros v Hv. destruct (Nat.eq_dec v (dst a)) as [->|Hn]; [rewrite fset_same; discriminate|now rewrite fset_other].
      + split; simpl; auto. destruct rest; simpl; auto.
      + intros v Hv. apply Howe in Hv. simpl in Hv. subst v. left. rewrite fset_same. discriminate.
      + intros v. destruct (Nat.eq_dec v (dst a)) as [->|Hn]; [unfold mlowered; lia|rewrite fset_other by auto; auto].
      + intros v. destruct (Nat.eq_dec v (dst a)) as [->|Hn]; [rewrite fset_same; auto|rewrite fset_other by auto; auto].
      + intros v. destruct (Nat.eq_dec v (dst a)) as [->|Hn]; [rewrite fset_same; discriminate|rewrite fset_other by auto; auto].
      + intros v. destruct (Nat.eq_dec v (dst a)) as [->|Hn].
        * rewrite fset_same. split; auto. intros _. exists a. split; auto. now left.
        * rewrite fset_other by auto. rewrite I8. split; intros (y & Hy & Ey); [exists y; split; auto; now right|].
          destruct Hy as [->|Hy]; [congruence|eauto].
      + intros y [<-|Hy]; auto.
      + simpl. constructor; auto. rewrite in_map_iff. intros (y & Ey & Hy).
        assert (X : mchg s (dst a) = emitted) by (apply I8; eauto). lia.
      + right. unfold mrelaxed. lia.
    - destruct (lp_less (q (dst a)) (mpar s (src a))) eqn:E.
      + apply less_true in E. apply Hgo; [|simpl; tauto]. split; auto.
      + apply less_false in E. apply Hnext; [unfold mrelaxed; lia|]. simpl. tauto.
    - destruct (Nat.eqb_spec (mpar s (src a)) c) as [E|E]; [|apply Hgo; simpl; tauto].
      subst c. destruct Hpc as (H1 & H2). apply Hwrite; simpl; auto.
      + right. exists a. split; auto.
      + rewrite fset_same. auto.
    - destruct Hpc as (H1 & H2 & _). destruct (Nat.eqb_spec (mchg s (src a)) unemitted) as [E|E].
      + apply Hgo; simpl; auto.
      + apply Hnext; [unfold mrelaxed; lia|]. simpl. intros v <-. auto.
    - destruct Hpc as (H1 & H2 & _). destruct (Nat.ltb_spec (mchg s (src a)) need_emit) as [E|E].
      + apply Hgo; simpl; auto.
      + apply Hnext; [unfold mrelaxed; lia|]. simpl. intros v <-. unfold need_emit, unemitted in *. lia.
    - destruct Hpc as (H1 & H2 & H3). destruct (Nat.eqb_spec (mchg s (src a)) c) as [E|E]; [|apply Hgo; simpl; auto].
      destruct HI as [I1 I2 I3 I4 I5 I6 I7 I8 I9 I10 I11]. apply Hgen; auto; try (simpl; auto; fail).
      + intros v Hv. destruct (Nat.eq_dec v (src a)) as [->|Hn]; [rewrite fset_same; discriminate|now rewrite fset_other].
      + split; simpl; auto. destruct rest; simpl; auto.
      + intros v Hv. apply Howe in Hv. simpl in Hv. subst v. left. rewrite fset_same. discriminate.
      + intros v. destruct (Nat.eq_dec v (src a)) as [->|Hn]; [unfold mlowered; lia|rewrite fset_other by auto; auto].
      + intros v. destruct (Nat.eq_dec v (src a)) as [->|Hn]; [rewrite fset_same; unfold need_emit, emitted; lia|rewrite fset_other by auto; auto].
      + intros v. destruct (Nat.eq_dec v (src a)) as [->|Hn]; [intros _; exists a; auto|rewrite fset_other by auto; auto].
      + intros v. destruct (Nat.eq_dec v (src a)) as [->|Hn].
        * rewrite fset_same. rewrite <- I8. unfold need_emit, emitted in *. split; [discriminate|lia].
        * rewrite fset_other by auto. auto.
      + right. unfold mrelaxed. lia.
  Qed.
  Lemma mi_exec sched : forall s, MI s -> MI (mexec largest q sched s).
  Proof. unfold mexec. induction sched; simpl; intros s H; auto. apply IHsched. now apply mi_step. Qed.

  (* -- no interleaving goes on for ever --------------------------------------------- *)
  Definition mpc_live (pc : mpc) : nat :=
    match pc with MEmit | MEmitCas _ | MCheck | MNeed | MNeedCas _ => 1 | _ => 2 end.
  Definition mpc_cost (par chg : nat -> nat) (a : attempt) (pc : mpc) : nat :=
    match pc with
    | MTest => 10
    | MLoadD => 4 | MCasD c => if par (dst a) =? c then 3 else 5
    | MEmit => 2 | MEmitCas c => if chg (dst a) =? c then 1 else 3
    | MLoadS => 5 | MCasS c => if par (src a) =? c then 4 else 6
    | MCheck => 3 | MNeed => 2 | MNeedCas c => if chg (src a) =? c then 1 else 3
    end.
  Definition mcost (par chg : nat -> nat) (th : mthread) : nat :=
    match mtodo th with [] => 0 | a :: r => 10 * length r + mpc_cost par chg a (mpcs th) end.
  Definition mlive (th : mthread) : nat :=
    match mtodo th with [] => 0 | a :: r => 2 * length r + mpc_live (mpcs th) end.
  Definition mpot_of (par chg : nat -> nat) (l : list mthread) : nat :=
    list_sum (map (mcost par chg) l) + list_sum (map mlive l) * (2 * length l).
  Definition mpotential (s : mstate) : nat := mpot_of (mpar s) (mchg s) (mthr s).

  Lemma mcost_any par chg par' chg' th : mcost par' chg' th <= mcost par chg th + 2.
  Proof.
    unfold mcost. destruct (mtodo th) as [|a r]; [lia|]. unfold mpc_cost. destruct (mpcs th); try lia;
    match goal with |- context [(if ?x then _ else _)] => destruct x end; match goal with |- context [(if ?x then _ else _)] => destruct x end; lia.
  Qed.
  Lemma mcost_sum par chg par' chg' l : list_sum (map (mcost par' chg') l) <= list_sum (map (mcost par chg) l) + 2 * length l.
  Proof. induction l as [|th l IH]; simpl; [lia|]. pose proof (mcost_any par chg par' chg' th). lia. Qed.
  Lemma mpot_split par chg l1 th l2 : mpot_of par chg (l1 ++ th :: l2)
    = list_sum (map (mcost par chg) l1) + mcost par chg th + list_sum (map (mcost par chg) l2)
      + (list_sum (map mlive l1) + mlive th + list_sum (map mlive l2)) * (2 * S (length l1 + length l2)).
  Proof.
    unfold mpot_of. rewrite !map_app, !list_sum_app, app_length. simpl map. simpl list_sum. simpl length.
    replace (length l1 + S (length l2)) with (S (length l1 + length l2)) by lia. lia.
  Qed.
  Lemma mpot_decr s t th : nth_error (mthr s) t = Some th -> mtodo th <> [] ->
    mpotential (mstep largest q s t) < mpotential s.
  Proof.
    intros Et Hne. destruct (nth_error_split' _ _ Et) as (l1 & l2 & El & Hl1).
    assert (Hset : forall x, lset (mthr s) t x = l1 ++ x :: l2).
    { intros x. rewrite El, <- Hl1. apply lset_app_mid. }
    unfold mpotential at 2. rewrite El, mpot_split.
    assert (Hkeep : forall th' l, mcost (mpar s) (mchg s) th' < mcost (mpar s) (mchg s) th -> mlive th' <= mlive th ->
       mpotential {| mpar := mpar s; mchg := mchg s; mlog := l; mthr := lset (mthr s) t th' |} <
       list_sum (map (mcost (mpar s) (mchg s)) l1) + mcost (mpar s) (mchg s) th + list_sum (map (mcost (mpar s) (mchg s)) l2)
      + (list_sum (map mlive l1) + mlive th + list_sum (map mlive l2)) * (2 * S (length l1 + length l2))).
    { intros th' l H1 H2. unfold mpotential. cbn [mpar mchg mthr]. rewrite Hset, mpot_split.
      assert ((list_sum (map mlive l1) + mlive th' + list_sum (map mlive l2)) * (2 * S (length l1 + length l2))
           <= (list_sum (map mlive l1) + mlive th + list_sum (map mlive l2)) * (2 * S (length l1 + length l2))).
      { apply Nat.mul_le_mono_r. lia. }
      lia. }
    assert (Hchg : forall par' chg' th' l, mcost par' chg' th' < mcost (mpar s) (mchg s) th -> S (mlive th') <= mlive th ->
       mpotential {| mpar := par'; mchg := chg'; mlog := l; mthr := lset (mthr s) t th' |} <
       list_sum (map (mcost (mpar s) (mchg s)) l1) + mcost (mpar s) (mchg s) th + list_sum (map (mcost (mpar s) (mchg s)) l2)
      + (list_sum (map mlive l1) + mlive th + list_sum (map mlive l2)) * (2 * S (length l1 + length l2))).
    { intros par' chg' th' l H1 H2. unfold mpotential. cbn [mpar mchg mthr]. rewrite Hset, mpot_split.
      pose proof (mcost_sum (mpar s) (mchg s) par' chg' l1). pose proof (mcost_sum (mpar s) (mchg s) par' chg' l2).
      assert ((list_sum (map mlive l1) + S (mlive th') + list_sum (map mlive l2)) * (2 * S (length l1 + length l2))
           <= (list_sum (map mlive l1) + mlive th + list_sum (map mlive l2)) * (2 * S (length l1 + length l2))).
      { apply Nat.mul_le_mono_r. lia. }
      replace ((list_sum (map mlive l1) + S (mlive th') + list_sum (map mlive l2)) * (2 * S (length l1 + length l2)))
        with ((list_sum (map mlive l1) + mlive th' + list_sum (map mlive l2)) * (2 * S (length l1 + length l2)) + 2 * S (length l1 + length l2)) in H3 by lia.
      lia. }
    assert (Hc : forall p c r, mcost p c {| mtodo := r; mpcs := MTest |} = 10 * length r).
    { intros p c r. unfold mcost. destruct r; cbn [mtodo mpcs mpc_cost length]; lia. }
    assert (Hl : forall r, mlive {| mtodo := r; mpcs := MTest |} = 2 * length r).
    { intros r. unfold mlive. destruct r; cbn [mtodo mpcs mpc_live length]; lia. }
    unfold mstep. rewrite Et. destruct (mtodo th) as [|a rest] eqn:Etd; [congruence|].
    assert (E1 : mcost (mpar s) (mchg s) th = 10 * length rest + mpc_cost (mpar s) (mchg s) a (mpcs th)) by (unfold mcost; now rewrite Etd).
    assert (E2 : mlive th = 2 * length rest + mpc_live (mpcs th)) by (unfold mlive; now rewrite Etd).
    assert (E3 : forall p c pc, mcost p c {| mtodo := a :: rest; mpcs := pc |} = 10 * length rest + mpc_cost p c a pc) by reflexivity.
    assert (E4 : forall pc, mlive {| mtodo := a :: rest; mpcs := pc |} = 2 * length rest + mpc_live pc) by reflexivity.
    destruct (mpcs th) as [| |c| |c| |c| | |c] eqn:Epc; cbn [maction mpc_cost mpc_live] in *;
      repeat match goal with |- context [match (if ?x then _ else _) with _ => _ end] => destruct x eqn:? end;
      first [apply Hkeep|apply Hchg]; rewrite ?E1, ?E2, ?E3, ?E4, ?Hc, ?Hl; cbn [mpc_cost mpc_live]; rewrite ?Nat.eqb_refl; lia.
  Qed.

  Lemma mfinish_exists : forall k s, mpotential s <= k -> exists sched, mfinished (mexec largest q sched s).
  Proof.
    induction k as [|k IH]; intros s Hq.
    - exists []. unfold mfinished. simpl. apply Forall_forall. intros th Hth. apply In_nth_error in Hth as [t Ht].
      destruct (mtodo th) eqn:E; auto. assert (Hne : mtodo th <> []) by congruence. pose proof (mpot_decr Ht Hne). lia.
    - assert (Hdec : forall th : mthread, {mtodo th = []} + {mtodo th <> []}).
      { intros th. destruct (mtodo th); [left; auto|right; discriminate]. }
      destruct (Forall_Exists_dec (fun th => mtodo th = []) Hdec (mthr s)) as [H|H].
      + exists []. exact H.
      + apply Exists_exists in H as (th & Hth & Hne). apply In_nth_error in Hth as [t Ht].
        pose proof (mpot_decr Ht Hne) as Hd. destruct (IH (mstep largest q s t)) as [sched Hs]; [lia|].
        exists (t :: sched). exact Hs.
  Qed.
End Mark.

Lemma start_mi largest q par (chg0 : nat -> nat) ts : (forall v, q v = par v) -> (forall v, chg0 v = unemitted) ->
  MI largest q (flat_map todo ts) (mstart par chg0 ts).
Proof.
  intros Hq Hc. split; simpl.
  - intros th Hth. apply in_map_iff in Hth as (u & <- & Hu). split; simpl.
    + intros a Ha. apply in_flat_map. eauto.
    + destruct (todo u); simpl; auto.
  - intros v. now rewrite Hq.
  - intros v. now left.
  - intros v X. unfold mlowered in X. rewrite Hq in X. lia.
  - intros v X. now rewrite Hc in X.
  - intros v. rewrite Hc. unfold unemitted, emitted. lia.
  - intros v X. now rewrite Hc in X.
  - intros v. rewrite Hc. split; [discriminate|]. intros (a & [] & _).
  - easy.
  - constructor.
  - intros a Ha. right. apply in_flat_map in Ha as (u & Hu & Ha). eexists. split; [apply in_map; exact Hu|]. auto.
Qed.

(* -- the recording of the edges ------------------------------------------------------------ *)
Lemma eeqb_eq e f : eeqb e f = true <-> e = f.
Proof.
  destruct e as [[a b]|], f as [[c d]|]; simpl; try (split; congruence).
  rewrite andb_true_iff, !Nat.eqb_eq. split; [intros [-> ->]; auto|intros E; injection E as -> ->; auto].
Qed.
Section Rec.
  Variable largest : nat.
  Variables q par : nat -> nat.
  Variable atts : list attempt.
  Variable Ed0 : nat -> option (nat * nat).
  Definition wrote (Ed : nat -> option (nat * nat)) (v : nat) : Prop :=
    exists a, In a atts /\ target largest q par a = Some v /\ Ed v = Some (src a, dst a).
  Definition epc_ok (Ed : nat -> option (nat * nat)) (a : attempt) (pc : epc) : Prop :=
    match pc with
    | ETest => True
    | ELoad v => target largest q par a = Some v
    | ECas v c => target largest q par a = Some v /\ (Ed v = c \/ wrote Ed v)
    end.
  Record EI (s : estate) : Prop := {
    ei_th : forall th, In th (ethr s) -> (forall a, In a (etodo th) -> In a atts) /\
       match etodo th with [] => True | a :: _ => epc_ok (eedges s) a (epcs th) end;
    ei_val : forall v, eedges s v = Ed0 v \/ wrote (eedges s) v;
    ei_cov : forall a v, In a atts -> target largest q par a = Some v ->
       wrote (eedges s) v \/ exists th, In th (ethr s) /\ In a (etodo th) }.
  Lemma start_ei ts : atts = flat_map todo ts -> EI (estart Ed0 ts).
  Proof.
    intros E. split; simpl.
    - intros th Hth. apply in_map_iff in Hth as (u & <- & Hu). split; simpl.
      + intros a Ha. rewrite E. apply in_flat_map. eauto.
      + destruct (todo u); simpl; auto.
    - auto.
    - intros a v Ha _. right. rewrite E in Ha. apply in_flat_map in Ha as (u & Hu & Ha). eexists. split; [apply in_map; exact Hu|]. auto.
  Qed.
  Lemma ei_step s t : EI s -> EI (estep largest q par s t).
  Proof.
    intros HI. unfold estep. destruct (nth_error (ethr s) t) as [th|] eqn:Et; auto.
    assert (Hth : In th (ethr s)) by (eapply nth_error_In; eauto).
    destruct (nth_error_split' _ _ Et) as (l1 & l2 & El & Hl1).
    assert (Hset : forall x, lset (ethr s) t x = l1 ++ x :: l2).
    { intros x. rewrite El, <- Hl1. apply lset_app_mid. }
    destruct (etodo th) as [|a rest] eqn:Etd; auto.
    destruct (@ei_th _ HI th Hth) as [Hsub Hpc]. rewrite Etd in Hsub, Hpc.
    assert (Ha : In a atts) by (apply Hsub; now left).
    assert (Hin : forall th' x, In x (l1 ++ th' :: l2) -> x = th' \/ In x (ethr s)).
    { intros th' x Hx. rewrite El. apply in_app_iff in Hx as [Hx|[Hx|Hx]]; auto; right; apply in_app_iff; auto. right. now right. }
    assert (Hout : forall th' x, In x (ethr s) -> x = th \/ In x (l1 ++ th' :: l2)).
    { intros th' x Hx. rewrite El in Hx. apply in_app_iff in Hx as [Hx|[Hx|Hx]]; auto; right; apply in_app_iff; auto. right. now right. }
    assert (Hmid : forall th', In th' (l1 ++ th' :: l2)) by (intros; apply in_app_iff; right; now left).
    assert (Hgen : forall Ed' th', (forall v, eedges s v = Ed' v \/ wrote Ed' v) ->
       (forall v, wrote (eedges s) v -> wrote Ed' v) ->
       (forall x, In x (etodo th') -> In x atts) ->
       match etodo th' with [] => True | a :: _ => epc_ok Ed' a (epcs th') end ->
       (In a (etodo th') \/ forall v, target largest q par a = Some v -> wrote Ed' v) ->
       (forall x, In x rest -> In x (etodo th')) ->
       EI {| eedges := Ed'; ethr := lset (ethr s) t th' |}).
    { intros Ed' th' H1 H2 H3 H4 H5 H6. rewrite Hset. split; simpl.
      - intros x Hx. apply Hin in Hx as [->|Hx]; auto. destruct (@ei_th _ HI x Hx) as [A B]. split; auto.
        destruct (etodo x); auto. destruct (epcs x) as [|v|v c]; auto. simpl in *. destruct B as [B1 B2]. split; auto.
        destruct B2 as [<-|B2]; auto. destruct (H1 v); auto.
      - intros v. destruct (ei_val HI v) as [<-|X]; auto. destruct (H1 v); auto.
      - intros x v Hx Hv. destruct (ei_cov HI Hx Hv) as [X|(u & Hu & Hxu)]; auto.
        destruct (Hout th' u Hu) as [->|Hu']; [|right; exists u; auto].
        rewrite Etd in Hxu. destruct Hxu as [<-|Hxu]; [|right; exists th'; auto].
        destruct H5 as [X|X]; auto. right. exists th'. auto. }
    assert (Hrest : forall x, In x rest -> In x atts) by (intros; apply Hsub; now right).
    assert (Hbeg : forall Ed, match rest with [] => True | a :: _ => epc_ok Ed a ETest end) by (intros; destruct rest; simpl; auto).
    destruct (epcs th) as [|v|v c].
    - destruct (target largest q par a) as [v|] eqn:Ev; apply Hgen; simpl; auto; try (right; congruence).
      destruct rest; auto.
    - apply Hgen; simpl; auto.
    - destruct Hpc as [Hv Hc]. destruct (eeqb (eedges s v) c) eqn:E.
      + assert (W : wrote (fset (eedges s) v (Some (src a, dst a))) v) by (exists a; rewrite fset_same; auto).
        assert (Hk : forall w, w <> v -> fset (eedges s) v (Some (src a, dst a)) w = eedges s w) by (intros; now apply fset_other).
        apply Hgen; simpl; auto; try (destruct rest; exact I).
        * intros w. destruct (Nat.eq_dec w v) as [->|Hw]; auto. left. now rewrite Hk.
        * intros w Hw. destruct (Nat.eq_dec w v) as [->|Hne]; auto. destruct Hw as (b & B1 & B2 & B3). exists b. rewrite Hk; auto.
        * right. intros w Hw. rewrite Hv in Hw. now injection Hw as <-.
      + apply Hgen; simpl; auto; try (destruct rest; exact I). right. intros w Hw. rewrite Hv in Hw. injection Hw as <-. destruct Hc as [Hc|Hc]; auto.
        apply (proj2 (eeqb_eq _ _)) in Hc. congruence.
  Qed.
  Lemma ei_exec sched : forall s, EI s -> EI (eexec largest q par sched s).
  Proof. unfold eexec. induction sched; simpl; intros s H; auto. apply IHsched. now apply ei_step. Qed.

  Definition ecost (th : ethread) : nat :=
    match etodo th with [] => 0 | _ :: r => 3 * length r + match epcs th with ETest => 3 | ELoad _ => 2 | ECas _ _ => 1 end end.
  Definition epotential (s : estate) : nat := list_sum (map ecost (ethr s)).
  Lemma epot_decr s t th : nth_error (ethr s) t = Some th -> etodo th <> [] -> epotential (estep largest q par s t) < epotential s.
  Proof.
    intros Et Hne. destruct (nth_error_split' _ _ Et) as (l1 & l2 & El & Hl1).
    assert (Hset : forall x, lset (ethr s) t x = l1 ++ x :: l2).
    { intros x. rewrite El, <- Hl1. apply lset_app_mid. }
    assert (Hgen : forall Ed' th', ecost th' < ecost th -> epotential {| eedges := Ed'; ethr := lset (ethr s) t th' |} < epotential s).
    { intros Ed' th' H. unfold epotential. cbn [ethr]. rewrite Hset, El, !map_app, !list_sum_app. simpl. lia. }
    unfold estep. rewrite Et. destruct (etodo th) as [|a rest] eqn:Etd; [congruence|].
    assert (Hc : ecost {| etodo := rest; epcs := ETest |} = 3 * length rest).
    { unfold ecost. destruct rest; cbn [etodo epcs length]; lia. }
    assert (E1 : ecost th = 3 * length rest + match epcs th with ETest => 3 | ELoad _ => 2 | ECas _ _ => 1 end) by (unfold ecost; now rewrite Etd).
    destruct (epcs th) as [|v|v c].
    - destruct (target largest q par a); apply Hgen; rewrite ?Hc, E1; [unfold ecost; cbn [etodo epcs]|]; lia.
    - apply Hgen; rewrite E1; unfold ecost; cbn [etodo epcs]; lia.
    - apply Hgen; rewrite Hc, E1; lia.
  Qed.
  Lemma efinish_exists : forall k s, epotential s <= k -> exists sched, efinished (eexec largest q par sched s).
  Proof.
    induction k as [|k IH]; intros s Hq.
    - exists []. unfold efinished. simpl. apply Forall_forall. intros th Hth. apply In_nth_error in Hth as [t Ht].
      destruct (etodo th) eqn:E; auto. assert (Hne : etodo th <> []) by congruence. pose proof (epot_decr Ht Hne). lia.
    - assert (Hdec : forall th : ethread, {etodo th = []} + {etodo th <> []}).
      { intros th. destruct (etodo th); [left; auto|right; discriminate]. }
      destruct (Forall_Exists_dec (fun th => etodo th = []) Hdec (ethr s)) as [H|H].
      + exists []. exact H.
      + apply Exists_exists in H as (th & Hth & Hne). apply In_nth_error in Hth as [t Ht].
        pose proof (epot_decr Ht Hne) as Hd. destruct (IH (estep largest q par s t)) as [sched Hs]; [lia|].
        exists (t :: sched). exact Hs.
  Qed.
  Lemma ei_end s : EI s -> efinished s -> forall v,
    wrote (eedges s) v \/ eedges s v = Ed0 v /\ forall a, In a atts -> target largest q par a <> Some v.
  Proof.
    intros HI Hf v. unfold efinished in Hf. rewrite Forall_forall in Hf.
    assert (H : forall a, In a atts -> target largest q par a = Some v -> wrote (eedges s) v).
    { intros a Ha Hv. destruct (ei_cov HI Ha Hv) as [X|(th & Hth & Hx)]; auto. rewrite (Hf _ Hth) in Hx. destruct Hx. }
    destruct (ei_val HI v) as [E|W]; auto.
    destruct (existsb (fun a => match target largest q par a with Some w => w =? v | None => false end) atts) eqn:X.
    - apply existsb_exists in X as (a & Ha & E'). left. apply (H a Ha). destruct (target largest q par a); [|discriminate].
      apply Nat.eqb_eq in E'. now subst.
    - right. split; auto. intros a Ha Hv. assert (Y : existsb (fun a => match target largest q par a with Some w => w =? v | None => false end) atts = true).
      { apply existsb_exists. exists a. split; auto. rewrite Hv. apply Nat.eqb_refl. } congruence.
  Qed.
End Rec.
