(* BFS sampling. *)
From Coq Require Import Permutation.
From Verif Require Import Base EMSpec UFSpec UGModel UGSpec.
Unset Strict Implicit.

(* -- one round ---------------------------------------------------------------------------------- *)
Section Round.
  Variable src : nat.
  Variable l : nat -> nat.
  Variable ts : list (list attempt).
  Hypothesis Hl : forall v, l v = v \/ l v = src.

  Definition att (d : nat) : Prop := exists x a, In (x, d, a) (concat ts).
  Definition settled (s : bstate) (a : attempt) : Prop :=
    lab s (snd (fst a)) = src /\ (snd (fst a) = src -> snd a = true -> In src (log s)).
  Record rinv (s : bstate) : Prop := {
    r_lab : forall v, lab s v = l v \/ lab s v = src /\ l v = v /\ att v;
    r_log : forall d, In d (log s) -> l d = d /\ att d /\ (d = src -> exists x, In (x, src, true) (concat ts));
    r_new : forall d, lab s d = src -> d <> src -> l d = d -> In d (log s);
    r_att : forall a, In a (concat ts) -> settled s a \/ exists t th, nth_error (thr s) t = Some th /\ In a (todo th);
    r_sub : forall t th, nth_error (thr s) t = Some th -> incl (todo th) (concat ts) }.

  Lemma l_src : l src = src.
  Proof. destruct (Hl src); auto. Qed.
  Lemma r_two s : rinv s -> forall v, lab s v = v \/ lab s v = src.
  Proof. intros H v. destruct (r_lab H v) as [E|(E & _)]; auto. rewrite E. auto. Qed.
  Lemma r_src s : rinv s -> lab s src = src.
  Proof. intros H. destruct (r_two H src); auto. Qed.

  Lemma rinv_start : rinv (bstart l ts).
  Proof.
    constructor; simpl; auto; try tauto.
    - intros d H H1 H2. congruence.
    - intros a H. right. apply in_concat in H as (x & H1 & H2). apply In_nth_error in H1 as [t Ht].
      exists t. rewrite nth_error_map, Ht. simpl. eauto.
    - intros t th H. rewrite nth_error_map in H. destruct (nth_error ts t) as [x|] eqn:E; [|discriminate]. injection H as <-. simpl.
      intros a Ha. apply in_concat. exists x. split; auto. eapply nth_error_In; eauto.
  Qed.
  Lemma nth_lset (A : Type) (k : list A) t x u y : nth_error (lset k t x) u = Some y -> u = t /\ y = x \/ u <> t /\ nth_error k u = Some y.
  Proof.
    intros H. destruct (Nat.eq_dec u t) as [->|Hn].
    - left. split; auto. assert (Ht : t < length k) by (rewrite <- (length_lset k t x); apply nth_error_Some; congruence).
      rewrite nth_error_lset_same in H by auto. congruence.
    - right. rewrite nth_error_lset_other in H by auto. auto.
  Qed.
  Lemma rinv_step s t : rinv s -> rinv (bstep src s t).
  Proof.
    intros H. unfold bstep. destruct (nth_error (thr s) t) as [th|] eqn:Et; auto.
    destruct (todo th) as [|[[x d] at_] rest] eqn:Etd; auto.
    assert (Hlen : t < length (thr s)) by (apply nth_error_Some; congruence).
    assert (Hin : incl (todo th) (concat ts)) by (eapply r_sub; eauto). rewrite Etd in Hin.
    assert (Hd : In (x, d, at_) (concat ts)) by (apply Hin; left; auto).
    (* the attempts and tasks after an attempt has been dropped *)
    assert (Drop : forall s', thr s' = lset (thr s) t {| todo := rest; checked := false |} ->
      (forall a, settled s a -> settled s' a) -> settled s' (x, d, at_) ->
      (forall a, In a (concat ts) -> settled s' a \/ exists t' th', nth_error (thr s') t' = Some th' /\ In a (todo th')) /\
      (forall t' th', nth_error (thr s') t' = Some th' -> incl (todo th') (concat ts))).
    { intros s' Es Hmono Hset. split.
      - intros a Ha. destruct (r_att H Ha) as [Hs|(t' & th' & E1 & E2)]; [left; auto|].
        destruct (Nat.eq_dec t' t) as [->|Hn].
        + rewrite Et in E1. injection E1 as <-. rewrite Etd in E2. destruct E2 as [<-|E2]; [left; auto|].
          right. exists t, {| todo := rest; checked := false |}. rewrite Es, nth_error_lset_same by auto. auto.
        + right. exists t', th'. rewrite Es, nth_error_lset_other by auto. auto.
      - intros t' th' E. rewrite Es in E. apply nth_lset in E as [[-> ->]|[Hn E]].
        + simpl. intros a Ha. apply Hin. right; auto.
        + eapply r_sub; eauto. }
    destruct (checked th) eqn:Ec.
    - destruct (if at_ then lab s d =? d else negb (lab s d =? src)) eqn:Eu.
      + assert (Ed : lab s d = d).
        { destruct at_; [now apply Nat.eqb_eq|]. apply negb_true_iff, Nat.eqb_neq in Eu. destruct (r_two H d); congruence. }
        assert (Eld : l d = d) by (destruct (r_lab H d) as [E|(E & E' & _)]; congruence).
        assert (Esrc : d = src -> at_ = true).
        { intros ->. destruct at_; auto. rewrite (r_src H), Nat.eqb_refl in Eu. discriminate. }
        set (s' := {| lab := fset (lab s) d src; log := d :: log s; thr := lset (thr s) t {| todo := rest; checked := false |} |}).
        destruct (Drop s' eq_refl) as [A B].
        { intros [[x' d'] a'] [H1 H2]. unfold settled in *. simpl in *. split.
          - destruct (Nat.eq_dec d' d) as [->|Hn]; [apply fset_same|rewrite fset_other by auto; auto].
          - intros E1 E2. right. auto. }
        { unfold settled. simpl. split; [apply fset_same|]. intros E _. left. auto. }
        constructor; auto; unfold s'; simpl.
        * intros v. destruct (Nat.eq_dec v d) as [->|Hn].
          -- right. rewrite fset_same. repeat split; auto. exists x, at_. auto.
          -- rewrite fset_other by auto. apply (r_lab H).
        * intros d' [<-|Hd']; [|now apply (r_log H)]. split; auto. split; [exists x, at_; auto|]. intros E. exists x.
          rewrite <- (Esrc E), <- E. auto.
        * intros d' H1 H2 H3. destruct (Nat.eq_dec d' d) as [->|Hn]; auto. rewrite fset_other in H1 by auto. right. now apply (r_new H).
      + assert (Ed : lab s d = src).
        { destruct at_.
          - apply Nat.eqb_neq in Eu. destruct (r_two H d); congruence.
          - now apply negb_false_iff, Nat.eqb_eq in Eu. }
        destruct (Drop {| lab := lab s; log := log s; thr := lset (thr s) t {| todo := rest; checked := false |} |} eq_refl) as [A B]; auto.
        { unfold settled. simpl. split; auto. intros E1 E2. subst. apply Nat.eqb_neq in Eu. congruence. }
        destruct H. constructor; auto.
    - destruct (Nat.eqb_spec (lab s d) d) as [Ed|Ed].
      + destruct H. constructor; simpl; auto.
        * intros a Ha. destruct (r_att0 a Ha) as [Hs|(t' & th' & E1 & E2)]; [left; auto|]. right.
          destruct (Nat.eq_dec t' t) as [->|Hn].
          -- exists t, {| todo := todo th; checked := true |}. rewrite <- Etd, nth_error_lset_same by auto. split; auto. simpl. congruence.
          -- exists t', th'. rewrite nth_error_lset_other by auto. auto.
        * intros t' th' E. apply nth_lset in E as [[-> ->]|[Hn E]]; simpl; eauto.
      + assert (Ed' : lab s d = src) by (destruct (r_two H d); congruence).
        destruct (Drop {| lab := lab s; log := log s; thr := lset (thr s) t {| todo := rest; checked := false |} |} eq_refl) as [A B]; auto.
        { unfold settled. simpl. split; auto. intros E1 _. congruence. }
        destruct H. constructor; auto.
  Qed.
  Lemma rinv_exec sched : forall s, rinv s -> rinv (bexec src sched s).
  Proof. induction sched as [|t sched IH]; intros s H; simpl; auto. apply IH, rinv_step, H. Qed.

  Lemma round_result sched : let s := bexec src sched (bstart l ts) in bfinished s ->
    (forall v, lab s v = v \/ lab s v = src) /\
    (forall v, lab s v = src <-> l v = src \/ att v) /\
    (forall d, In d (log s) -> l d = d /\ att d) /\
    (forall d, l d = d -> d <> src -> att d -> In d (log s)) /\
    (In src (log s) <-> exists x, In (x, src, true) (concat ts)).
  Proof.
    intros s Hf. pose proof (rinv_exec sched rinv_start) as H. fold s in H.
    assert (Hs : forall a, In a (concat ts) -> settled s a).
    { intros a Ha. destruct (r_att H Ha) as [|(t & th & E1 & E2)]; auto. exfalso.
      apply nth_error_In in E1. unfold bfinished in Hf. rewrite Forall_forall in Hf. rewrite (Hf _ E1) in E2. destruct E2. }
    split; [exact (r_two H)|]. split; [|split; [|split]].
    - intros v. split.
      + intros E. destruct (r_lab H v) as [E'|(_ & _ & E')]; auto. left. congruence.
      + intros [E|(x & a & E)].
        * destruct (r_lab H v) as [E'|(E' & _)]; congruence.
        * apply (Hs _ E).
    - intros d Hd. destruct (r_log H Hd) as (H1 & H2 & _). auto.
    - intros d H1 H2 (x & a & H3). apply (r_new H); auto. apply (Hs _ H3).
    - split.
      + intros Hd. destruct (r_log H Hd) as (_ & _ & H3). auto.
      + intros [x Hx]. apply (Hs _ Hx); auto.
  Qed.
End Round.

(* the log is no longer than the list of attempts *)
Lemma bstep_size src s t : length (log (bstep src s t)) + list_sum (map (fun th => length (todo th)) (thr (bstep src s t)))
  <= length (log s) + list_sum (map (fun th => length (todo th)) (thr s)).
Proof.
  assert (G : forall (k : list bthread) t th th', nth_error k t = Some th ->
    list_sum (map (fun th => length (todo th)) (lset k t th')) + length (todo th) = list_sum (map (fun th => length (todo th)) k) + length (todo th')).
  { induction k as [|a k IH]; intros [|t'] th th' E; simpl in *; try discriminate.
    - injection E as ->. lia.
    - specialize (IH t' th th' E). lia. }
  unfold bstep. destruct (nth_error (thr s) t) as [th|] eqn:E; auto. destruct (todo th) as [|[[x d] a] rest] eqn:Et; auto.
  pose proof (G _ _ _ {| todo := rest; checked := false |} E) as G1. rewrite Et in G1. simpl in G1.
  pose proof (G _ _ _ {| todo := todo th; checked := true |} E) as G2. simpl in G2. rewrite Et in G2. simpl in G2.
  destruct (checked th).
  - destruct (if a then _ else _); simpl; lia.
  - destruct (lab s d =? d); simpl; rewrite ?Et; simpl; lia.
Qed.
Lemma bexec_size src sched : forall s, length (log (bexec src sched s)) <= length (log s) + list_sum (map (fun th => length (todo th)) (thr s)).
Proof.
  induction sched as [|t sched IH]; intros s; simpl; [lia|]. specialize (IH (bstep src s t)). pose proof (bstep_size src s t).
  unfold bexec in *. lia.
Qed.
Lemma start_size l ts : list_sum (map (fun th => length (todo th)) (thr (bstart l ts))) = length (concat ts).
Proof. simpl. rewrite map_map. simpl. induction ts as [|a ts IH]; simpl; auto. now rewrite app_length, IH. Qed.

(* one task alone ends *)
Lemma alone_ends src k : forall s, (exists c, thr s = [{| todo := k; checked := c |}]) -> exists sched, bfinished (bexec src sched s).
Proof.
  induction k as [|[[x d] a] k IH]; intros s [c Hs].
  - exists []. simpl. unfold bfinished. rewrite Hs. repeat constructor.
  - assert (T : forall s, thr s = [{| todo := (x, d, a) :: k; checked := true |}] -> exists sched, bfinished (bexec src sched s)).
    { intros s1 H1. destruct (IH (bstep src s1 0)) as [sched H].
      - exists false. unfold bstep. rewrite H1. simpl. destruct (if a then _ else _); reflexivity.
      - exists (0 :: sched). exact H. }
    destruct c; [now apply T|].
    destruct (lab s d =? d) eqn:E.
    + destruct (T (bstep src s 0)) as [sched H].
      * unfold bstep. rewrite Hs. simpl. rewrite E. reflexivity.
      * exists (0 :: sched). exact H.
    + destruct (IH (bstep src s 0)) as [sched H].
      * exists false. unfold bstep. rewrite Hs. simpl. rewrite E. reflexivity.
      * exists (0 :: sched). exact H.
Qed.

(* -- the search ----------------------------------------------------------------------------------- *)
Section Search.
  Variable n m : nat.
  Variable outn inn : nat -> list nat.
  Variable big : nat -> bool.
  Variable src : nat.
  Hypothesis Hg : graph_ok n outn inn.
  Hypothesis Hsrc : src < n.

  Lemma isIn_iff F v : isIn F v = true <-> In v F.
  Proof.
    unfold isIn. rewrite existsb_exists. split.
    - intros (x & H & E). apply Nat.eqb_eq in E. now subst.
    - intros H. exists v. split; auto. apply Nat.eqb_refl.
  Qed.
  Lemma att_iff dn F ts d : (forall x, In x F -> x < n) -> Permutation (concat ts) (attempts n outn inn big dn F) ->
    att ts d <-> exists x, In x F /\ In d (outn x).
  Proof.
    intros HF Hp. unfold att.
    assert (E : forall a, In a (concat ts) <-> In a (attempts n outn inn big dn F)).
    { intros a. split; apply Permutation_in; auto. now apply Permutation_sym. }
    split.
    - intros (x & a & H). apply E in H. exists x. destruct dn; simpl in H.
      + unfold pull in H. apply in_flat_map in H as (d' & Hd & H). apply in_map_iff in H as (x' & Ex & H). injection Ex as -> -> _.
        apply filter_In in H as [H1 H2]. apply isIn_iff in H2. apply in_seq in Hd. split; auto. apply (@g_dual _ _ _ Hg); auto. lia.
      + unfold push in H. apply in_flat_map in H as (x' & Hx & H). apply in_map_iff in H as (d' & Ex & H). injection Ex as -> -> _. auto.
    - intros (x & Hx & Hd). pose proof (HF x Hx). pose proof (@g_out _ _ _ Hg _ _ H Hd).
      destruct dn; simpl in E.
      + exists x, (big d). apply E. unfold pull. apply in_flat_map. exists d. split; [apply in_seq; lia|].
        apply in_map_iff. exists x. split; auto. apply filter_In. split; [now apply (@g_dual _ _ _ Hg)|now apply isIn_iff].
      + exists x, true. apply E. unfold push. apply in_flat_map. exists x. split; auto. apply in_map_iff. exists d. auto.
  Qed.

  Record binv (l : nat -> nat) (F : list nat) : Prop := {
    b_two : forall v, l v = v \/ l v = src;
    b_reach : forall v, l v = src -> reaches outn src v;
    b_front : forall v, In v F -> l v = src /\ v < n;
    b_closed : forall v w, l v = src -> In w (outn v) -> l w = src \/ In v F }.

  Lemma F'_in dn F' (s : bstate) : (if dn : bool then NoDup F' /\ forall d, In d F' <-> In d (log s) else Permutation F' (log s)) ->
    forall d, In d F' <-> In d (log s).
  Proof. destruct dn; [tauto|]. intros H d. split; apply Permutation_in; auto. now apply Permutation_sym. Qed.

  Lemma bfs_inv k l st F : bfs n m outn inn big src k l st F -> binv l F.
  Proof.
    intros H. induction H as [|k l st F ts sched F' H IH Hne dn Hp s Hf HF'].
    - constructor; auto.
      + intros v ->. apply rt_refl.
      + intros v [<-|[]]. auto.
      + intros v w -> _. right. simpl. auto.
    - pose proof (F'_in HF') as HI. destruct IH as [I1 I2 I3 I4].
      destruct (@round_result src l ts I1 sched Hf) as (R1 & R2 & R3 & R4 & R5). fold s in R1, R2, R3, R4, R5.
      assert (HA : forall d, att ts d <-> exists x, In x F /\ In d (outn x)) by (intros d; eapply att_iff; eauto; intros; now apply I3).
      constructor.
      + exact R1.
      + intros v E. apply R2 in E as [E|E]; auto. apply HA in E as (x & H1 & H2). eapply rt_trans; [apply I2, I3, H1|]. now apply rt_step.
      + intros v Hv. apply HI in Hv. destruct (R3 v Hv) as [H1 H2]. split; [apply R2; auto|].
        apply HA in H2 as (x & H2 & H3). eapply (@g_out _ _ _ Hg); [|exact H3]. now apply I3.
      + intros v w Ev Hw. apply R2 in Ev.
        destruct (Nat.eq_dec (l v) src) as [E|E].
        * left. apply R2. destruct (I4 v w E Hw) as [|Hv]; auto. right. apply HA. eauto.
        * right. destruct Ev as [Ev|Ev]; [congruence|]. apply HI. apply R4; auto; destruct (I1 v); congruence.
  Qed.

  Theorem bfs_labels k l st : bfs n m outn inn big src k l st [] ->
    forall v, (reaches outn src v -> l v = src) /\ (~ reaches outn src v -> l v = v).
  Proof.
    intros H. destruct (bfs_inv H) as [I1 I2 I3 I4].
    assert (C : forall v, reaches outn src v -> l v = src).
    { intros v Hv. apply clos_rt_rtn1 in Hv. induction Hv as [|y z Hy _ IH]; [destruct (I1 src); auto|].
      destruct (I4 _ _ IH Hy) as [|[]]; auto. }
    intros v. split; auto. intros Hn. destruct (I1 v) as [|E]; auto. now apply I2 in E.
  Qed.

  (* -- the number of rounds ------------------------------------------------------------------------ *)
  Definition unl (l : nat -> nat) : nat := length (filter (fun v => negb (l v =? src)) (seq 0 n)).
  Definition weight (F : list nat) : nat := if existsb (fun v => negb (v =? src)) F then 2 else match F with [] => 0 | _ => 1 end.
  Hypothesis Hloop : ~ In src (outn src).

  Lemma filter_shrinks (p q : nat -> bool) (L : list nat) : (forall x, q x = true -> p x = true) ->
    length (filter q L) <= length (filter p L) /\ ((exists x, In x L /\ p x = true /\ q x = false) -> length (filter q L) < length (filter p L)).
  Proof.
    intros Hpq. induction L as [|a L [IH1 IH2]]; simpl.
    - split; auto. intros (x & [] & _).
    - specialize (Hpq a). destruct (q a) eqn:Eq.
      + rewrite Hpq by auto. simpl. split; [lia|]. intros (x & [->|Hx] & H1 & H2); [congruence|].
        assert (length (filter q L) < length (filter p L)) by (apply IH2; eauto). lia.
      + destruct (p a) eqn:Ep; simpl.
        * split; lia.
        * split; auto. intros (x & [->|Hx] & H1 & H2); [congruence|]. apply IH2. eauto.
  Qed.

  Lemma unl_start : unl (fun i => i) <= n - 1.
  Proof.
    unfold unl. destruct (@filter_shrinks (fun _ => true) (fun v => negb (v =? src)) (seq 0 n) (fun _ _ => eq_refl)) as [_ H].
    assert (E : length (filter (fun _ : nat => true) (seq 0 n)) = n).
    { clear. transitivity (length (seq 0 n)); [|apply seq_length]. f_equal. induction (seq 0 n) as [|a k IH]; simpl; congruence. }
    rewrite E in H. assert (length (filter (fun v => negb (v =? src)) (seq 0 n)) < n); [|lia].
    apply H. exists src. rewrite Nat.eqb_refl. split; [apply in_seq; lia|auto].
  Qed.

  Theorem bfs_rounds k l st F : bfs n m outn inn big src k l st F -> k + 2 * unl l + weight F <= 2 * n - 1.
  Proof.
    intros H. induction H as [|k l st F ts sched F' H IH Hne dn Hp s Hf HF'].
    - pose proof unl_start. unfold weight. simpl. rewrite Nat.eqb_refl. simpl. lia.
    - pose proof (F'_in HF') as HI. destruct (bfs_inv H) as [I1 I2 I3 I4].
      destruct (@round_result src l ts I1 sched Hf) as (R1 & R2 & R3 & R4 & R5). fold s in R1, R2, R3, R4, R5.
      assert (HA : forall d, att ts d <-> exists x, In x F /\ In d (outn x)) by (intros d; eapply att_iff; eauto; intros; now apply I3).
      assert (Hmono : forall x, negb (lab s x =? src) = true -> negb (l x =? src) = true).
      { intros x Hx. apply negb_true_iff, Nat.eqb_neq in Hx. apply negb_true_iff, Nat.eqb_neq. intros E. apply Hx, R2. auto. }
      destruct (@filter_shrinks _ _ (seq 0 n) Hmono) as [S1 S2]. fold (unl (lab s)) (unl l) in S1, S2.
      assert (HwF : weight F = 1 \/ weight F = 2).
      { unfold weight. destruct (existsb _ F); auto. destruct F; [congruence|auto]. }
      destruct (existsb (fun v => negb (v =? src)) F') eqn:Ex.
      + (* a new vertex: it was not labelled *)
        assert (unl (lab s) < unl l).
        { apply S2. apply existsb_exists in Ex as (d & Hd & Hds). apply negb_true_iff, Nat.eqb_neq in Hds.
          apply HI in Hd. destruct (R3 d Hd) as [H1 H2]. exists d. split.
          - apply in_seq. apply HA in H2 as (x & H2 & H3). assert (d < n) by (eapply (@g_out _ _ _ Hg); [|exact H3]; now apply I3). lia.
          - split; [apply negb_true_iff, Nat.eqb_neq; congruence|]. apply negb_false_iff, Nat.eqb_eq. apply R2. auto. }
        unfold weight at 1. rewrite Ex. lia.
      + destruct F' as [|d F'']; [unfold weight at 1; simpl; lia|].
        (* only src is new: the frontier had another vertex, since src has no edge to itself *)
        assert (Hd : d = src).
        { simpl in Ex. apply orb_false_iff in Ex as [Ex _]. now apply negb_false_iff, Nat.eqb_eq in Ex. }
        subst d. assert (In src (log s)) by (apply HI; simpl; auto). destruct (R3 _ H0) as [_ H2]. apply HA in H2 as (x & H2 & H3).
        assert (weight F = 2).
        { unfold weight. assert (E : existsb (fun v => negb (v =? src)) F = true); [|now rewrite E].
          apply existsb_exists. exists x. split; auto. apply negb_true_iff, Nat.eqb_neq. intros ->. auto. }
        unfold weight at 1. rewrite Ex. lia.
  Qed.

  Lemma bfs_next k l st F : bfs n m outn inn big src k l st F -> F <> [] ->
    exists l' F', bfs n m outn inn big src (S k) l' (dense n m outn st F) F'.
  Proof.
    intros H Hne. set (dn := dense n m outn st F). set (ts := [attempts n outn inn big dn F]).
    destruct (@alone_ends src (attempts n outn inn big dn F) (bstart l ts)) as [sched Hf]; [exists false; reflexivity|].
    set (s := bexec src sched (bstart l ts)) in *.
    exists (lab s), (if dn then nodup Nat.eq_dec (log s) else log s).
    eapply bfs_round with (ts := ts) (sched := sched); eauto.
    - unfold ts. simpl. rewrite app_nil_r. apply Permutation_refl.
    - fold dn s. destruct dn; [|apply Permutation_refl]. split; [apply NoDup_nodup|]. intros d. apply nodup_In.
  Qed.
  Theorem bfs_ends : exists k l st, bfs n m outn inn big src k l st [].
  Proof.
    assert (G : forall j k l st F, bfs n m outn inn big src k l st F -> 2 * n <= k + j -> exists k l st, bfs n m outn inn big src k l st []).
    { induction j as [|j IH]; intros k l st F H Hk.
      - pose proof (bfs_rounds H). lia.
      - destruct F as [|v F]; [eauto|]. destruct (bfs_next H) as (l' & F' & H'); [discriminate|]. eapply IH; eauto. lia. }
    eapply (G (2 * n)); [apply bfs_start|]. lia.
  Qed.
End Search.

(* -- a source with an edge to itself ---------------------------------------------------------------- *)
Theorem bfs_loops n m outn inn big src : graph_ok n outn inn -> src < n -> outn src = [src] -> 40 <= m ->
  forall k l st F, bfs n m outn inn big src k l st F -> F = [src] /\ st = false.
Proof.
  intros Hg Hs Ho Hm k l st F H. induction H as [|k l st F ts sched F' H IH Hne dn Hp s Hf HF']; [auto|].
  destruct IH as [-> ->].
  assert (Ed : dn = false).
  { unfold dn, dense. cbn [andb orb length map]. rewrite Ho. apply Nat.ltb_ge.
    change (1 + list_sum [length [src]]) with 2. apply Nat.div_le_lower_bound; lia. }
  rewrite Ed in *. split; auto. destruct (bfs_inv Hg Hs H) as [I1 I2 I3 I4].
  destruct (@round_result src l ts I1 sched Hf) as (R1 & R2 & R3 & R4 & R5). fold s in R1, R2, R3, R4, R5.
  assert (Ea : attempts n outn inn big false [src] = [(src, src, true)]) by (simpl; rewrite Ho; reflexivity).
  rewrite Ea in Hp.
  assert (Hlen : length (log s) <= 1).
  { pose proof (bexec_size src sched (bstart l ts)) as B. rewrite start_size in B. simpl in B. rewrite (Permutation_length Hp) in B. exact B. }
  assert (Hin : In src (log s)).
  { apply R5. exists src. eapply Permutation_in; [apply Permutation_sym; exact Hp|]. left. auto. }
  destruct (log s) as [|a [|b k']] eqn:El; simpl in *; try lia; try tauto. destruct Hin as [->|[]]. apply Permutation_sym, Permutation_length_1_inv in HF'. exact HF'.
Qed.
