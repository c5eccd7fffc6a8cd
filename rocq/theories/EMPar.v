(* Proofs about the visit-once traversals under interleaving (part 2). *)
From Verif Require Import Base ListUtil VSModel VSSpec EMModel EMSpec EMProofs.

Section Inv.
  Variable par0 : pstate.
  Variable atts : list attempt.

  Record EInv (s : estate) : Prop := {
    e_sub : forall th a, In th (ethr s) -> In a (todo th) -> In a atts;
    e_pc : forall th, In th (ethr s) -> pcs th = DoCas -> exists a r, todo th = a :: r /\ active a = true;
    e_brk : forall th a b, In th (ethr s) -> breaks th = true -> In a (todo th) -> In b (todo th) -> dst a = dst b;
    e_log : forall a, In a (elog s) -> In a atts /\ active a = true /\ par0 (dst a) = None /\ epar s (dst a) = Some (src a);
    e_nd : NoDup (map dst (elog s));
    e_par : forall d, epar s d = par0 d \/ exists a, In a (elog s) /\ dst a = d;
    e_cov : forall a, In a atts -> active a = true ->
              epar s (dst a) <> None \/ exists th, In th (ethr s) /\ In a (todo th) }.

  Lemma step_inv s t : EInv s -> EInv (estep s t).
  Proof.
    intros HI. unfold estep. destruct (nth_error (ethr s) t) as [th|] eqn:Et; auto.
    assert (Hth : In th (ethr s)) by (eapply nth_error_In; eauto).
    assert (Hlt : t < length (ethr s)) by (apply nth_error_Some; congruence).
    destruct (nth_error_split' _ _ Et) as (l1 & l2 & El & Hl1).
    assert (Hset : forall x, lset (ethr s) t x = l1 ++ x :: l2).
    { intros x. rewrite El, <- Hl1. apply lset_app_mid. }
    unfold tstep. destruct (todo th) as [|a rest] eqn:Etd.
    { assert (Es : {| epar := epar s; elog := elog s; ethr := lset (ethr s) t th |} = s).
      { rewrite Hset, <- El. now destruct s. }
      now rewrite Es. }
    (* a step that only changes the thread *)
    assert (Hkeep : forall th', (forall x, In x (todo th') -> In x (todo th)) ->
              breaks th' = breaks th ->
              (pcs th' = DoCas -> exists a r, todo th' = a :: r /\ active a = true) ->
              (forall x, In x (todo th) -> active x = true -> In x (todo th') \/ epar s (dst x) <> None) ->
              EInv {| epar := epar s; elog := elog s; ethr := lset (ethr s) t th' |}).
    { intros th' H1 H2 H3 H4. rewrite Hset. destruct HI as [I1 I2 I3 I4 I5 I6 I7].
      assert (Hin : forall x, In x (l1 ++ th' :: l2) -> x = th' \/ In x (ethr s)).
      { intros x Hx. rewrite El. apply in_app_iff in Hx as [Hx|[Hx|Hx]]; auto; right; apply in_app_iff; auto. right. now right. }
      split; simpl; auto.
      - intros x y Hx Hy. apply Hin in Hx as [->|Hx]; [apply (I1 th); auto|eauto].
      - intros x Hx Hp. apply Hin in Hx as [->|Hx]; eauto.
      - intros x y z Hx Hb Hy Hz. apply Hin in Hx as [->|Hx]; [apply (I3 th); auto; congruence|eauto].
      - intros x Hx Ha. destruct (I7 x Hx Ha) as [H|(u & Hu & Hxu)]; auto.
        rewrite El in Hu. apply in_app_iff in Hu as [Hu|[<-|Hu]].
        + right. exists u. split; auto. apply in_app_iff. auto.
        + destruct (H4 x) as [H|H]; auto. right. exists th'. split; auto. apply in_app_iff. right. now left.
        + right. exists u. split; auto. apply in_app_iff. right. now right. }
    destruct (pcs th) eqn:Epc.
    - destruct (epar s (dst a)) as [p|] eqn:Ep.
      + apply Hkeep; simpl; auto; try discriminate.
        * intros x. rewrite Etd. destruct (breaks th); simpl; tauto.
        * intros x. rewrite Etd. intros [<-|Hx] Ha; [right; congruence|].
          destruct (breaks th) eqn:Eb; auto. right.
          rewrite (e_brk HI th x a Hth Eb) by (rewrite Etd; simpl; auto). congruence.
      + destruct (active a) eqn:Ea.
        * apply Hkeep; simpl; auto; rewrite ?Etd; eauto.
        * apply Hkeep; simpl; auto; try discriminate; rewrite ?Etd; simpl; auto.
          intros x [<-|Hx] Hx'; [congruence|auto].
    - destruct (e_pc HI th Hth Epc) as (a' & r & E' & Ha). rewrite Etd in E'. injection E' as <- <-.
      destruct (epar s (dst a)) as [p|] eqn:Ep.
      + apply Hkeep; simpl; auto; try discriminate; rewrite ?Etd; simpl; auto.
        intros x [<-|Hx] Hx'; [right; congruence|auto].
      + destruct HI as [I1 I2 I3 I4 I5 I6 I7]. rewrite Hset.
        set (th' := {| breaks := breaks th; todo := rest; pcs := Test |}).
        assert (Hin : forall x, In x (l1 ++ th' :: l2) -> x = th' \/ In x (ethr s)).
        { intros x Hx. rewrite El. apply in_app_iff in Hx as [Hx|[Hx|Hx]]; auto; right; apply in_app_iff; auto. right. now right. }
        assert (Hfresh : ~ In (dst a) (map dst (elog s))).
        { rewrite in_map_iff. intros (b & E & Hb). destruct (I4 b Hb) as (_ & _ & _ & H). congruence. }
        assert (H0 : par0 (dst a) = None).
        { destruct (I6 (dst a)) as [H|(b & Hb & E)]; [congruence|]. exfalso. apply Hfresh. apply in_map_iff. eauto. }
        split; simpl.
        * intros x y Hx Hy. apply Hin in Hx as [->|Hx]; [|eauto]. apply (I1 th); auto. rewrite Etd. now right.
        * intros x Hx Hp. apply Hin in Hx as [->|Hx]; [discriminate|eauto].
        * intros x y z Hx Hb Hy Hz. apply Hin in Hx as [->|Hx]; [|eauto].
          apply (I3 th); auto; rewrite Etd; now right.
        * intros b [<-|Hb].
          -- split; [apply (I1 th); auto; rewrite Etd; now left|]. repeat split; auto. apply fset_same.
          -- destruct (I4 b Hb) as (A1 & A2 & A3 & A4). repeat split; auto.
             rewrite fset_other; auto. intros E. apply Hfresh. apply in_map_iff. eauto.
        * constructor; auto.
        * intros d. destruct (Nat.eq_dec d (dst a)) as [->|Hd]; [right; eauto|].
          rewrite fset_other by auto. destruct (I6 d) as [H|(b & Hb & E)]; eauto.
        * intros x Hx Hact. destruct (Nat.eq_dec (dst x) (dst a)) as [E|E].
          { left. rewrite E, fset_same. discriminate. }
          rewrite fset_other by auto. destruct (I7 x Hx Hact) as [H|(u & Hu & Hxu)]; auto.
          rewrite El in Hu. apply in_app_iff in Hu as [Hu|[<-|Hu]].
          -- right. exists u. split; auto. apply in_app_iff. auto.
          -- right. exists th'. split; [apply in_app_iff; right; now left|].
             rewrite Etd in Hxu. destruct Hxu as [->|Hxu]; auto. congruence.
          -- right. exists u. split; auto. apply in_app_iff. right. now right.
  Qed.

  Lemma exec_inv sched : forall s, EInv s -> EInv (eexec sched s).
  Proof. unfold eexec. induction sched; simpl; intros s H; auto. apply IHsched. now apply step_inv. Qed.
End Inv.

(* threads as they start *)
Definition fresh_threads (ts : list tthread) : Prop :=
  forall th, In th ts -> pcs th = Test /\ (breaks th = true -> forall a b, In a (todo th) -> In b (todo th) -> dst a = dst b).

Lemma start_inv par0 ts : fresh_threads ts -> EInv par0 (flat_map todo ts) (estart par0 ts).
Proof.
  intros H. split; simpl.
  - intros th a H1 H2. apply in_flat_map. eauto.
  - intros th H1 H2. apply H in H1. destruct H1. congruence.
  - intros th a b H1 H2 H3 H4. apply H in H1 as [_ H1]. auto.
  - easy.
  - constructor.
  - auto.
  - intros a Ha _. right. now apply in_flat_map in Ha.
Qed.

Section Finish.
  Variable par0 : pstate.
  Variable ts : list tthread.
  Hypothesis Hts : fresh_threads ts.
  Variable sched : list nat.
  Notation s' := (eexec sched (estart par0 ts)).
  Hypothesis Hfin : finished s'.

  Lemma fin_inv : EInv par0 (flat_map todo ts) s'.
  Proof. apply exec_inv. now apply start_inv. Qed.

  Lemma fin_cov a : In a (flat_map todo ts) -> active a = true -> epar s' (dst a) <> None.
  Proof.
    intros H1 H2. destruct (e_cov fin_inv a H1 H2) as [H|(th & Hth & Ha)]; auto.
    unfold finished in Hfin. rewrite Forall_forall in Hfin. rewrite (Hfin _ Hth) in Ha. destruct Ha.
  Qed.

  (* d gets logged iff it is unvisited and some active attempt targets it *)
  Lemma fin_logged d : (exists a, In a (elog s') /\ dst a = d) <->
    (par0 d = None /\ exists a, In a (flat_map todo ts) /\ active a = true /\ dst a = d).
  Proof.
    split.
    - intros (a & Ha & <-). destruct (e_log fin_inv a Ha) as (A1 & A2 & A3 & A4). split; auto. eauto.
    - intros (H0 & a & H1 & H2 & <-). destruct (e_par fin_inv (dst a)) as [H|H]; auto.
      exfalso. apply (fin_cov a H1 H2). congruence.
  Qed.
  Lemma fin_par d : (forall a, In a (elog s') -> dst a <> d) -> epar s' d = par0 d.
  Proof. intros H. destruct (e_par fin_inv d) as [E|(a & Ha & E)]; auto. exfalso. eapply H; eauto. Qed.
End Finish.

(* termination: a thread scheduled twice per remaining attempt has finished *)
Definition fuel (th : tthread) : nat :=
  match todo th with [] => 0 | _ :: r => 2 * length r + (match pcs th with Test => 2 | DoCas => 1 end) end.
Lemma tstep_fuel par log th : fuel (snd (tstep par log th)) <= fuel th - 1.
Proof.
  unfold tstep. destruct (todo th) as [|a r] eqn:Et; [simpl; unfold fuel; rewrite Et; lia|].
  unfold fuel at 2. rewrite Et.
  destruct (pcs th).
  - destruct (par (dst a)); simpl.
    + destruct (breaks th); unfold fuel; simpl; [lia|]. destruct r; simpl; lia.
    + destruct (active a); unfold fuel; simpl; [rewrite ?Et; simpl; lia|]. destruct r; simpl; lia.
  - destruct (par (dst a)); simpl; unfold fuel; simpl; destruct r; simpl; lia.
Qed.

Lemma thread_finishes sched : forall s t th, nth_error (ethr s) t = Some th ->
  exists th', nth_error (ethr (eexec sched s)) t = Some th' /\ fuel th' <= fuel th - count_occ Nat.eq_dec sched t.
Proof.
  unfold eexec. induction sched as [|u sched IH]; intros s t th Ht; simpl.
  - exists th. split; auto. lia.
  - destruct (Nat.eq_dec u t) as [->|Hut].
    + destruct (tstep (epar s) (elog s) th) as [[p l] th1] eqn:E.
      pose proof (tstep_fuel (epar s) (elog s) th) as Hf. rewrite E in Hf. simpl in Hf.
      assert (Hn : nth_error (ethr (estep s t)) t = Some th1).
      { unfold estep. rewrite Ht, E. simpl. apply nth_error_lset_same. apply nth_error_Some. congruence. }
      destruct (IH _ _ _ Hn) as (th' & E' & Hf'). exists th'. split; [exact E'|]. lia.
    + assert (Hn : nth_error (ethr (estep s u)) t = Some th).
      { unfold estep. destruct (nth_error (ethr s) u) as [tu|] eqn:Eu; auto.
        destruct (tstep (epar s) (elog s) tu) as [[p l] th1]. simpl. now rewrite nth_error_lset_other. }
      destruct (IH _ _ _ Hn) as (th' & E' & Hf'). exists th'. split; [exact E'|]. exact Hf'.
Qed.
Lemma fuel_zero th : fuel th = 0 -> todo th = [].
Proof. unfold fuel. destruct (todo th); auto. destruct (pcs th); lia. Qed.
