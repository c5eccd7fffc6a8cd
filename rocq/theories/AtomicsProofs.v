From Verif Require Import Base AtomicsModel AtomicsSpec.
From Coq Require Import ZArith.

Section Lin.
  Context {T R : Type} (eqT : forall x y : T, {x = y} + {x <> y}).
  Variable ops : list (rmw T R).

  (* the sequential meaning of a loop *)
  Definition op_seq (o : rmw T R) : seq_op T R :=
    fun v => if guard o v then (newv o v, ret_ok o v) else (v, ret_fail o v).

  Variable call : nat -> seq_op T R.
  Hypothesis Hcall : forall i o, nth_error ops i = Some o -> forall v, call i v = op_seq o v.

  Lemma replay_app v o1 o2 :
    replay call v (o1 ++ o2) =
    (fst (replay call (fst (replay call v o1)) o2),
     snd (replay call v o1) ++ snd (replay call (fst (replay call v o1)) o2)).
  Proof.
    revert v; induction o1 as [|i o1 IH]; intros v; simpl.
    - now destruct (replay call v o2).
    - destruct (call i v) as [v1 r] eqn:E. rewrite IH.
      destruct (replay call v1 o1) as [v2 rs]; simpl. reflexivity.
  Qed.

  (* replay of an order mentions exactly the calls of the order *)
  Lemma replay_dom v order : map fst (snd (replay call v order)) = order.
  Proof.
    revert v; induction order as [|i o IH]; intros v; simpl; auto.
    destruct (call i v) as [v1 r]. specialize (IH v1).
    destruct (replay call v1 o); simpl in *. now rewrite IH.
  Qed.

  (* ghost invariant: a prefix order explains a configuration *)
  Definition explains (v0 : T) (order : list nat) (s : cfg T R) : Prop :=
    NoDup order /\ fst (replay call v0 order) = fst s /\
    length (snd s) = length ops /\
    (forall i r, result s i = Some r <-> In (i, r) (snd (replay call v0 order))) /\
    (forall i c o, nth_error (snd s) i = Some (Cas c) -> nth_error ops i = Some o -> guard o c = true).

  Lemma result_lset_same (m : T) l i p :
    i < length l -> result (m, lset l i p) i = match p with Done r => Some r | _ => @None R end.
  Proof. intros H. unfold result; simpl. now rewrite nth_error_lset_same. Qed.
  Lemma result_lset_other (m : T) l i j p :
    i <> j -> @result T R (m, lset l i p) j = result (m, l) j.
  Proof. intros H. unfold result; simpl. now rewrite nth_error_lset_other. Qed.
  Lemma result_mem (m m' : T) l j : @result T R (m, l) j = result (m', l) j.
  Proof. reflexivity. Qed.

  Lemma step_explained v0 order s i :
    explains v0 order s ->
    explains v0 order (sys_step eqT ops s i) \/
    explains v0 (order ++ [i]) (sys_step eqT ops s i).
  Proof.
    intros (ND & Hv & Hlen & Hres & Hg).
    unfold sys_step.
    destruct (nth_error ops i) as [o|] eqn:Eo; [|now left].
    destruct (nth_error (snd s) i) as [p|] eqn:Ep; [|now left].
    destruct s as [m l]; simpl in *.
    assert (Hi : i < length l) by (apply nth_error_Some; congruence).
    assert (Hnot : (forall r, p <> Done r) -> ~ In i order).
    { intros Hp Hin. rewrite <- (replay_dom v0 order) in Hin.
      apply in_map_iff in Hin. destruct Hin as [[i' r] [E Hin]]; simpl in E; subst i'.
      apply Hres in Hin. unfold result in Hin; simpl in Hin. rewrite Ep in Hin.
      destruct p; try discriminate. eapply Hp; eauto. }
    (* a silent step keeps the order *)
    assert (Silent : forall p', (forall r, p <> Done r) -> (forall r, p' <> Done r) ->
              (forall c, p' = Cas c -> guard o c = true) ->
              explains v0 order (m, lset l i p')).
    { intros p' Hp Hp' Hc. repeat split; simpl; auto.
      - now rewrite length_lset.
      - destruct (Nat.eq_dec i i0) as [->|Hne].
        + rewrite result_lset_same by auto. intros Hr. destruct p'; try discriminate.
          exfalso; eapply Hp'; eauto.
        + rewrite result_lset_other by auto. apply Hres.
      - intros Hin. destruct (Nat.eq_dec i i0) as [->|Hne].
        + exfalso. apply Hnot; auto. rewrite <- (replay_dom v0 order).
          apply in_map_iff. exists (i0, r); auto.
        + rewrite result_lset_other by auto. now apply Hres.
      - intros j c o' Hj Ho'. destruct (Nat.eq_dec i j) as [->|Hne].
        + rewrite nth_error_lset_same in Hj by auto. injection Hj as ->.
          rewrite Eo in Ho'. injection Ho' as <-. now apply Hc.
        + rewrite nth_error_lset_other in Hj by auto. eapply Hg; eauto. }
    (* the linearization step appends i *)
    assert (LinS : forall m' r, (forall r, p <> Done r) -> op_seq o m = (m', r) ->
              explains v0 (order ++ [i]) (m', lset l i (Done r))).
    { intros m' r Hp Hop. specialize (Hnot Hp).
      assert (Hrep : replay call v0 (order ++ [i]) =
                     (m', snd (replay call v0 order) ++ [(i, r)])).
      { rewrite replay_app. rewrite Hv; simpl. rewrite (Hcall _ Eo m), Hop. reflexivity. }
      repeat split; simpl; auto.
      - apply NoDup_app_remove_l with (l := []) || idtac.
        apply (Permutation_NoDup (l := i :: order)).
        + apply Permutation_cons_append.
        + now constructor.
      - now rewrite Hrep.
      - now rewrite length_lset.
      - rewrite Hrep; simpl. rewrite in_app_iff; simpl.
        destruct (Nat.eq_dec i i0) as [->|Hne].
        + rewrite result_lset_same by auto. intros [= ->]. auto.
        + rewrite result_lset_other by auto. intros H; left; now apply Hres.
      - rewrite Hrep; simpl. rewrite in_app_iff; simpl.
        destruct (Nat.eq_dec i i0) as [->|Hne].
        + rewrite result_lset_same by auto. intros [H|[H|[]]].
          * exfalso. apply Hnot. rewrite <- (replay_dom v0 order).
            apply in_map_iff. exists (i0, r0); auto.
          * congruence.
        + rewrite result_lset_other by auto. intros [H|[H|[]]]; [|congruence].
          now apply Hres.
      - intros j c o' Hj Ho'. destruct (Nat.eq_dec i j) as [->|Hne].
        + rewrite nth_error_lset_same in Hj by auto. discriminate.
        + rewrite nth_error_lset_other in Hj by auto. eapply Hg; eauto. }
    destruct p as [|c|r]; simpl.
    - destruct (guard o m) eqn:Eg.
      + left. apply Silent; try congruence.
      + right. apply LinS; try congruence. unfold op_seq. now rewrite Eg.
    - destruct (eqT m c) as [->|Hne].
      + right. apply LinS; try congruence. unfold op_seq.
        rewrite (Hg _ _ _ Ep Eo). reflexivity.
      + left. apply Silent; try congruence.
    - left. repeat split; simpl; auto.
      + now rewrite length_lset.
      + destruct (Nat.eq_dec i i0) as [->|Hne].
        * rewrite result_lset_same by auto. intros H. apply Hres. unfold result; simpl. now rewrite Ep.
        * rewrite result_lset_other by auto. apply Hres.
      + intros Hin. destruct (Nat.eq_dec i i0) as [->|Hne].
        * rewrite result_lset_same by auto. apply Hres in Hin. unfold result in Hin; simpl in Hin.
          now rewrite Ep in Hin.
        * rewrite result_lset_other by auto. now apply Hres.
      + intros j c o' Hj Ho'. destruct (Nat.eq_dec i j) as [->|Hne].
        * rewrite nth_error_lset_same in Hj by auto. discriminate.
        * rewrite nth_error_lset_other in Hj by auto. eapply Hg; eauto.
  Qed.

  Lemma start_explained v0 : explains v0 [] (start ops v0).
  Proof.
    repeat split; simpl; auto using NoDup_nil.
    - now rewrite map_length.
    - unfold result, start; simpl. rewrite nth_error_map.
      destruct (nth_error ops i); simpl; discriminate.
    - easy.
    - intros i c o H. rewrite nth_error_map in H. destruct (nth_error ops i); discriminate.
  Qed.

  Lemma exec_snoc sched i s : exec eqT ops (sched ++ [i]) s = sys_step eqT ops (exec eqT ops sched s) i.
  Proof. unfold exec. now rewrite fold_left_app. Qed.

  (* all prefixes of a schedule are explained by prefixes of one order *)
  Lemma exec_explained v0 sched :
    exists order, explains v0 order (exec eqT ops sched (start ops v0)) /\
      forall k, exists j, explains v0 (firstn j order) (exec eqT ops (firstn k sched) (start ops v0)).
  Proof.
    induction sched as [|i sched IH] using rev_ind.
    - exists []. split. apply start_explained.
      intros k; exists 0. rewrite !firstn_nil. apply start_explained.
    - destruct IH as [order [He Hp]].
      rewrite exec_snoc.
      destruct (step_explained i He) as [H|H].
      + exists order. split; auto. intros k.
        destruct (le_lt_dec k (length sched)) as [Hk|Hk].
        * rewrite firstn_app. replace (k - length sched) with 0 by lia.
          simpl. rewrite app_nil_r. apply Hp.
        * exists (length order). rewrite firstn_all.
          rewrite firstn_all2 by (rewrite app_length; simpl; lia). now rewrite exec_snoc.
      + exists (order ++ [i]). split; auto. intros k.
        destruct (le_lt_dec k (length sched)) as [Hk|Hk].
        * rewrite firstn_app. replace (k - length sched) with 0 by lia.
          simpl. rewrite app_nil_r. destruct (Hp k) as [j Hj].
          exists (min j (length order)).
          assert (E : firstn (min j (length order)) (order ++ [i]) = firstn j order).
          { rewrite firstn_app. replace (min j (length order) - length order) with 0 by lia.
            simpl. rewrite app_nil_r. rewrite <- (firstn_all order) at 3.
            rewrite firstn_firstn. reflexivity. }
          now rewrite E.
        * exists (length (order ++ [i])). rewrite firstn_all.
          rewrite firstn_all2 by (rewrite app_length; simpl; lia). now rewrite exec_snoc.
  Qed.

  Theorem rmw_linearizable v0 sched :
    linearizable call v0
      (fun k => fst (exec eqT ops (firstn k sched) (start ops v0)))
      (fun k i => result (exec eqT ops (firstn k sched) (start ops v0)) i).
  Proof.
    destruct (exec_explained v0 sched) as [order [He Hp]].
    exists order. split. apply He. intros k. destruct (Hp k) as [j Hj]. exists j.
    destruct Hj as (_ & Hv & _ & Hr & _). split; auto.
  Qed.

  (* once all calls have returned, a permutation of all calls explains the end *)
  Lemma all_done_order v0 sched :
    (forall i, i < length ops -> result (exec eqT ops sched (start ops v0)) i <> None) ->
    exists order, Permutation order (seq 0 (length ops)) /\
      fst (replay call v0 order) = fst (exec eqT ops sched (start ops v0)) /\
      forall i r, result (exec eqT ops sched (start ops v0)) i = Some r <->
                  In (i, r) (snd (replay call v0 order)).
  Proof.
    intros Hall. destruct (exec_explained v0 sched) as [order [He _]].
    exists order. destruct He as (ND & Hv & Hlen & Hr & _).
    split; [|split; auto].
    apply NoDup_Permutation; auto using seq_NoDup.
    intros i. rewrite in_seq. split; intros H.
    - split; [lia|]. simpl.
      rewrite <- (replay_dom v0 order) in H. apply in_map_iff in H.
      destruct H as [[i' r] [E Hin]]; simpl in E; subst i'.
      apply Hr in Hin. unfold result in Hin.
      destruct (nth_error (snd _) i) eqn:En; [|discriminate].
      assert (i < length (snd (exec eqT ops sched (start ops v0)))) by (apply nth_error_Some; congruence).
      lia.
    - destruct H as [_ H]; simpl in H. specialize (Hall i H).
      destruct (result _ i) as [r|] eqn:Er; [|congruence].
      apply Hr in Er. rewrite <- (replay_dom v0 order). apply in_map_iff. exists (i, r); auto.
  Qed.

  (* ---- bounded number of own steps ---- *)
  Definition unfinished (l : list (pc T R)) : nat :=
    length (filter (fun p => match p with Done _ => false | _ => true end) l).

  Definition pot (s : cfg T R) (i : nat) : nat :=
    match nth_error (snd s) i with
    | Some Read => 2 * unfinished (snd s)
    | Some (Cas c) => if eqT (fst s) c then 2 * unfinished (snd s) - 1 else 2 * unfinished (snd s) + 1
    | _ => 0
    end.

  Lemma unfinished_lset l i p p' :
    nth_error l i = Some p ->
    unfinished (lset l i p') + (match p with Done _ => 0 | _ => 1 end) =
    unfinished l + (match p' with Done _ => 0 | _ => 1 end).
  Proof.
    unfold unfinished. revert i; induction l as [|q l IH]; destruct i; simpl; try discriminate.
    - intros [= ->]. destruct p, p'; simpl; lia.
    - intros H. specialize (IH _ H). destruct q; simpl; lia.
  Qed.

  Lemma unfinished_pos l i p : nth_error l i = Some p ->
    (forall r, p <> Done r) -> 0 < unfinished l.
  Proof.
    unfold unfinished. revert i; induction l as [|q l IH]; destruct i; simpl; try discriminate.
    - intros [= ->] H. destruct p; simpl; try lia. exfalso; eapply H; eauto.
    - intros H Hp. specialize (IH _ H Hp). destruct q; simpl; lia.
  Qed.

  Lemma unfinished_two l i j p q : i <> j -> nth_error l i = Some p -> nth_error l j = Some q ->
    (forall r, p <> Done r) -> (forall r, q <> Done r) -> 2 <= unfinished l.
  Proof.
    unfold unfinished. revert i j; induction l as [|x l IH]; destruct i, j; simpl; try discriminate; try congruence.
    - intros _ [= ->] H Hp Hq. pose proof (unfinished_pos _ _ H Hq). unfold unfinished in *.
      destruct p; simpl; try lia. exfalso; eapply Hp; eauto.
    - intros _ H [= ->] Hp Hq. pose proof (unfinished_pos _ _ H Hp). unfold unfinished in *.
      destruct q; simpl; try lia. exfalso; eapply Hq; eauto.
    - intros Hne H1 H2 Hp Hq. assert (i <> j) by congruence.
      specialize (IH _ _ H H1 H2 Hp Hq). destruct x; simpl; lia.
  Qed.

  Lemma pot_other s i j : i <> j -> length (snd s) = length ops ->
    pot (sys_step eqT ops s i) j <= pot s j.
  Proof.
    intros Hne Hlen. unfold sys_step.
    destruct (nth_error ops i) as [o|] eqn:Eo; auto.
    destruct (nth_error (snd s) i) as [p|] eqn:Ep; auto.
    destruct s as [m l]; simpl in *.
    destruct (tstep eqT o m p) as [m' p'] eqn:Et.
    unfold pot; simpl. rewrite nth_error_lset_other by auto.
    pose proof (unfinished_lset l i p' Ep) as Hu.
    destruct (nth_error l j) as [q|] eqn:Ej; auto.
    destruct p as [|c|r]; simpl in Et.
    - destruct (guard o m); injection Et as <- <-; simpl in Hu; destruct q; auto; try lia.
      + destruct (eqT m c); lia.
      + destruct (eqT m c); lia.
    - destruct (eqT m c) as [->|Hm]; injection Et as <- <-; simpl in Hu; destruct q as [|c'|]; auto; try lia.
      + assert (2 <= unfinished l) by (eapply unfinished_two with (i := i) (j := j); eauto; congruence).
        destruct (eqT c c'); destruct (eqT (newv o c) c'); lia.
      + destruct (eqT m c'); lia.
    - injection Et as <- <-. simpl in Hu. destruct q; auto; try lia. destruct (eqT m c); lia.
  Qed.

  Lemma pot_self s i : length (snd s) = length ops ->
    pot (sys_step eqT ops s i) i <= pot s i - 1.
  Proof.
    intros Hlen. unfold sys_step.
    destruct (nth_error ops i) as [o|] eqn:Eo.
    2:{ unfold pot. assert (nth_error (snd s) i = None) as ->; auto.
        apply nth_error_None. apply nth_error_None in Eo. lia. }
    destruct (nth_error (snd s) i) as [p|] eqn:Ep; [|unfold pot; now rewrite Ep].
    destruct s as [m l]; simpl in *.
    assert (Hi : i < length l) by (apply nth_error_Some; congruence).
    destruct (tstep eqT o m p) as [m' p'] eqn:Et.
    unfold pot; simpl. rewrite nth_error_lset_same by auto. rewrite Ep.
    pose proof (unfinished_lset l i p' Ep) as Hu.
    destruct p as [|c|r]; simpl in Et.
    - assert (0 < unfinished l) by (eapply unfinished_pos; eauto; congruence).
      destruct (guard o m); injection Et as <- <-; simpl in Hu; try lia.
      destruct (eqT m m); [lia|congruence].
    - assert (0 < unfinished l) by (eapply unfinished_pos; eauto; congruence).
      destruct (eqT m c) as [->|Hm]; injection Et as <- <-; simpl in Hu; try lia.
    - injection Et as <- <-. lia.
  Qed.

  Lemma sys_step_length s i : length (snd (sys_step eqT ops s i)) = length (snd s).
  Proof.
    unfold sys_step. destruct (nth_error ops i); auto. destruct (nth_error (snd s) i); auto.
    destruct (tstep eqT _ _ _). simpl. now rewrite length_lset.
  Qed.

  Lemma pot_exec sched : forall s i, length (snd s) = length ops ->
    pot (exec eqT ops sched s) i <= pot s i - count_occ Nat.eq_dec sched i.
  Proof.
    induction sched as [|a sched IH]; intros s i Hlen; simpl; [lia|].
    assert (Hlen' : length (snd (sys_step eqT ops s a)) = length ops) by now rewrite sys_step_length.
    specialize (IH (sys_step eqT ops s a) i Hlen').
    destruct (Nat.eq_dec a i) as [->|Hne].
    - pose proof (@pot_self s i Hlen). lia.
    - pose proof (@pot_other s a i Hne Hlen). lia.
  Qed.

  Lemma exec_length sched : forall s, length (snd (exec eqT ops sched s)) = length (snd s).
  Proof.
    induction sched as [|a sched IH]; intros s; simpl; auto. rewrite IH. apply sys_step_length.
  Qed.

  (* a call that is scheduled 2 * (number of calls) times has returned *)
  Lemma returns_after sched v0 i : i < length ops ->
    2 * length ops <= count_occ Nat.eq_dec sched i ->
    result (exec eqT ops sched (start ops v0)) i <> None.
  Proof.
    intros Hi Hc.
    assert (Hlen : length (snd (start ops v0)) = length ops) by (simpl; now rewrite map_length).
    pose proof (pot_exec sched (start ops v0) i Hlen) as Hp.
    assert (H0 : pot (start ops v0) i = 2 * length ops).
    { unfold pot, start; simpl. rewrite nth_error_map.
      destruct (nth_error ops i) eqn:E; [|apply nth_error_None in E; lia]. simpl.
      assert (forall l : list (rmw T R), unfinished (map (fun _ => @Read T R) l) = length l) as ->; [|lia].
      intros l; induction l; simpl; auto. unfold unfinished in *; simpl; lia. }
    rewrite H0 in Hp.
    set (s := exec eqT ops sched (start ops v0)) in *.
    assert (Hz : pot s i = 0) by lia.
    assert (Hs : length (snd s) = length ops) by (unfold s; now rewrite exec_length).
    unfold result. unfold pot in Hz.
    destruct (nth_error (snd s) i) as [p|] eqn:Ep; [|apply nth_error_None in Ep; lia].
    destruct p as [|c|r]; try discriminate.
    - assert (0 < unfinished (snd s)) by (eapply unfinished_pos; eauto; congruence). lia.
    - assert (0 < unfinished (snd s)) by (eapply unfinished_pos; eauto; congruence).
      destruct (eqT (fst s) c); lia.
  Qed.
End Lin.
