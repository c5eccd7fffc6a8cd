(* wBFS: the calls of one round, and the loop. *)
From Coq Require Import Permutation.
From Verif Require Import Base ListUtil BKModel BKSpec BKProofs BKProps KCProofs WBModel WBSpec WBProofs.

Section Round.
  Variable outw : nat -> list (nat * nat).
  Variable src half k : nat.
  Variable L : list nat.
  Variable D : nat -> nat.
  Hypothesis Hhalf : 1 < half.
  Hypothesis HD : forall v, D v < half.
  Hypothesis HL : forall s, In s L -> D s = k.
  Hypothesis Hfit : forall s u w, In s L -> In (u, w) (outw s) -> k + w < half.
  Local Notation cs := (calls outw L).
  Local Notation fl := (flagged half).

  Definition pc_ok (m : nat -> nat) (c : call) (p : wpc) : Prop :=
    let nd := k + c_wgh c + half in let d := c_dst c in
    match p with
    | WStart => True
    | WSource oval => if oval <? half then oval = D d else half <= m d /\ m d <= oval /\ oval < D d + half
    | WCas oval x => x = nd /\ oval = D d /\ k + c_wgh c < D d
    | WLoad x => x = nd /\ half <= m d /\ k + c_wgh c < D d
    | WMin x v => x = nd /\ half <= m d /\ k + c_wgh c < D d /\ half <= v /\ nd < v
    | WDone (Some p) => p = D d /\ half <= m d /\ m d <= nd
    | WDone None => fl (m d) <= nd
    end.
  Definition mem_ok (m : nat -> nat) (v : nat) : Prop :=
    if m v <? half then m v = D v
    else m v < D v + half /\ exists c, In c cs /\ c_dst c = v /\ m v = k + c_wgh c + half.
  Definition reported (pcs : list wpc) (v i : nat) : Prop :=
    exists c p, nth_error cs i = Some c /\ nth_error pcs i = Some (WDone (Some p)) /\ c_dst c = v.
  Record WI (st : (nat -> nat) * list wpc) : Prop := {
    w_len : length (snd st) = length cs;
    w_mem : forall v, mem_ok (fst st) v;
    w_pc : forall i c p, nth_error cs i = Some c -> nth_error (snd st) i = Some p -> pc_ok (fst st) c p;
    w_rep : forall v, half <= fst st v -> exists i, reported (snd st) v i;
    w_one : forall v i j, reported (snd st) v i -> reported (snd st) v j -> i = j }.

  Lemma source_val m v : mem_ok m v -> In v L -> m v = k.
  Proof.
    intros H Hv. unfold mem_ok in H. destruct (m v <? half) eqn:E; [now rewrite H, HL|]. apply Nat.ltb_ge in E.
    rewrite (HL _ Hv) in H. destruct H as (H & c & _ & _ & E'). lia.
  Qed.

  (* stores only ever lower a flagged value, or flag *)
  Definition lower (m m' : nat -> nat) : Prop := forall v, m' v = m v \/ (half <= m' v /\ m' v <= fl (m v)).
  Lemma flag_ge x : half <= fl x.
  Proof. unfold flagged. destruct (x <? half) eqn:E; [lia|now apply Nat.ltb_ge in E]. Qed.
  Lemma flag_big x : half <= x -> fl x = x.
  Proof. intros H. unfold flagged. now rewrite (proj2 (Nat.ltb_ge _ _) H). Qed.
  Lemma flag_small x : x < half -> fl x = x + half.
  Proof. intros H. unfold flagged. now rewrite (proj2 (Nat.ltb_lt _ _) H). Qed.
  Lemma lower_big m m' v : lower m m' -> half <= m v -> half <= m' v /\ m' v <= m v.
  Proof. intros H Hv. destruct (H v) as [->|[A B]]; [lia|]. rewrite flag_big in B by auto. lia. Qed.
  Lemma lower_fl m m' v : lower m m' -> fl (m' v) <= fl (m v).
  Proof. intros H. destruct (H v) as [->|[A B]]; auto. now rewrite (flag_big A). Qed.
  Lemma pc_lower m m' c p : lower m m' -> pc_ok m c p -> pc_ok m' c p.
  Proof.
    intros H. unfold pc_ok. pose proof (@lower_big m m' (c_dst c) H) as B. pose proof (@lower_fl m m' (c_dst c) H) as F.
    destruct p as [|ov|ov x|x|x y|[p|]]; auto; try (intuition lia).
    destruct (ov <? half); auto. intros (P & Q & R). specialize (B P). lia.
  Qed.

  Lemma WI_step m pcs i c p : WI (m, pcs) -> nth_error cs i = Some c -> nth_error pcs i = Some p ->
    WI (fst (wact half m c p), lset pcs i (snd (wact half m c p))).
  Proof.
    intros HI Hc Hp. pose proof (w_pc HI _ Hc Hp) as Hpc. pose proof (w_mem HI) as Hm. cbn [fst snd] in *.
    assert (Hi : i < length pcs) by (apply nth_error_Some; congruence).
    assert (Hin : In c cs) by (apply nth_error_In with (1 := Hc)). pose proof (proj1 (calls_In _ _ _) Hin) as [HcL HcE].
    pose proof (Hfit _ _ _ HcL HcE) as Hf. set (d := c_dst c) in *. set (nd := k + c_wgh c + half) in *.
    assert (Hsrcv : m (c_src c) = k) by (apply source_val; auto).
    (* a step without a store and without reporting *)
    assert (Hquiet : forall p', (forall x, p' <> WDone (Some x)) -> (forall x, p <> WDone (Some x)) -> pc_ok m c p' -> WI (m, lset pcs i p')).
    { intros p' Hno Hnop Hok. assert (Hrep : forall v j, reported (lset pcs i p') v j <-> reported pcs v j).
      { intros v j. unfold reported. destruct (Nat.eq_dec i j) as [<-|Hne].
        - rewrite nth_error_lset_same by auto. split; intros (c' & x & A & B & C); [injection B as ->; exfalso; eapply Hno; eauto|].
          rewrite Hp in B. injection B as ->. exfalso. eapply Hnop; eauto.
        - now rewrite nth_error_lset_other. }
      split; cbn [fst snd]; auto.
      - rewrite length_lset. apply (w_len HI).
      - intros j c' q Hc' Hq. destruct (Nat.eq_dec i j) as [<-|Hne].
        + rewrite nth_error_lset_same in Hq by auto. injection Hq as <-. rewrite Hc in Hc'. injection Hc' as <-. auto.
        + rewrite nth_error_lset_other in Hq by auto. apply (w_pc HI _ Hc' Hq).
      - intros v Hv. destruct (w_rep HI v Hv) as (j & Hj). exists j. now apply Hrep.
      - intros v j1 j2. rewrite !Hrep. apply (w_one HI). }
    (* a step with a store *)
    assert (Hstore : forall r, (forall x, p <> WDone (Some x)) -> k + c_wgh c < D d -> nd <= fl (m d) ->
       (r = None /\ half <= m d \/ r = Some (D d) /\ m d < half) -> WI (fset m d nd, lset pcs i (WDone r))).
    { intros r Hnop HltD Hle Hr. assert (Hlow : lower m (fset m d nd)).
      { intros v. unfold fset. destruct (Nat.eqb_spec v d) as [->|]; [right; split; auto; unfold nd; lia|auto]. }
      assert (Hrep : forall v j, reported (lset pcs i (WDone r)) v j <-> reported pcs v j \/ (j = i /\ v = d /\ r <> None)).
      { intros v j. unfold reported. destruct (Nat.eq_dec i j) as [<-|Hne].
        - rewrite nth_error_lset_same by auto. split.
          + intros (c' & x & A & B & C). injection B as ->. right. rewrite Hc in A. injection A as <-. repeat split; auto. discriminate.
          + intros [(c' & x & A & B & C)|(_ & -> & Hr')]; [rewrite Hp in B; injection B as ->; exfalso; eapply Hnop; eauto|].
            destruct r as [x|]; [|congruence]. exists c, x. auto.
        - rewrite nth_error_lset_other by auto. split; [auto|]. intros [A|(A & _)]; [auto|congruence]. }
      split; cbn [fst snd].
      - rewrite length_lset. apply (w_len HI).
      - intros v. unfold mem_ok, fset. destruct (Nat.eqb_spec v d) as [->|Hne]; [|apply Hm].
        rewrite (proj2 (Nat.ltb_ge nd half)) by (unfold nd; lia). split; [unfold nd; lia|]. exists c. auto.
      - intros j c' q Hc' Hq. destruct (Nat.eq_dec i j) as [<-|Hne].
        + rewrite nth_error_lset_same in Hq by auto. injection Hq as <-. rewrite Hc in Hc'. injection Hc' as <-. unfold pc_ok. fold d. fold nd.
          rewrite fset_same. destruct Hr as [[-> Hr]|[-> Hr]]; [rewrite flag_big; unfold nd; lia|]. unfold nd. repeat split; auto; lia.
        + rewrite nth_error_lset_other in Hq by auto. eapply pc_lower; [exact Hlow|]. apply (w_pc HI _ Hc' Hq).
      - intros v Hv. unfold fset in Hv. destruct (Nat.eqb_spec v d) as [Ev|Hne].
        + rewrite Ev in *. clear Hv. destruct Hr as [[-> Hr]|[-> Hr]].
          * destruct (w_rep HI d Hr) as (j & Hj). exists j. apply Hrep. auto.
          * exists i. apply Hrep. right. repeat split; auto. discriminate.
        + destruct (w_rep HI v Hv) as (j & Hj). exists j. apply Hrep. auto.
      - assert (Hnone : forall v j, reported pcs v j -> half <= m v).
        { intros v j (c' & x & A & B & C). pose proof (w_pc HI _ A B) as X. simpl in X. rewrite C in X. tauto. }
        intros v j1 j2 H1 H2. apply Hrep in H1, H2. destruct H1 as [H1|(-> & -> & H1)], H2 as [H2|(-> & E2 & H2)]; auto.
        + eapply (w_one HI); eauto.
        + apply Hnone in H1. rewrite E2 in H1. destruct Hr as [[-> _]|[_ Hr]]; [congruence|lia].
        + apply Hnone in H2. destruct Hr as [[-> _]|[_ Hr]]; [congruence|lia]. }
    assert (Hmd : m d < half -> m d = D d) by (intros X; specialize (Hm d); unfold mem_ok in Hm; now rewrite (proj2 (Nat.ltb_lt _ _) X) in Hm).
    destruct p as [|ov|ov x|x|x y|r]; cbn [wact]; fold d.
    - apply Hquiet; try discriminate. simpl. fold d. destruct (m d <? half) eqn:E.
      + apply Nat.ltb_lt in E. auto.
      + specialize (Hm d). unfold mem_ok in Hm. rewrite E in Hm. apply Nat.ltb_ge in E. destruct Hm as [Hm _]. auto.
    - rewrite Hsrcv. assert (Hk : k < half) by lia. rewrite (flag_small Hk), Nat.mod_small by lia. replace (k + half + c_wgh c) with nd by (unfold nd; lia).
      unfold pc_ok in Hpc. fold d in Hpc. fold nd in Hpc.
      destruct (nd <? fl ov) eqn:E; [apply Nat.ltb_lt in E|apply Nat.ltb_ge in E].
      + destruct (ov <? half) eqn:E2; [apply Nat.ltb_lt in E2|apply Nat.ltb_ge in E2].
        * apply Hquiet; try discriminate. rewrite (flag_small E2) in E. unfold pc_ok. fold d. fold nd. unfold nd in E. repeat split; auto. lia.
        * rewrite (flag_big E2) in E. destruct Hpc as (P & Q & R). apply Hquiet; try discriminate. unfold pc_ok. fold d. fold nd. unfold nd in E. repeat split; auto. lia.
      + apply Hquiet; try discriminate. unfold pc_ok. cbn [fst snd]. fold d. fold nd. destruct (ov <? half) eqn:E2; [apply Nat.ltb_lt in E2|apply Nat.ltb_ge in E2].
        * rewrite (flag_small E2) in E. subst ov. pose proof (Hm d) as X. unfold mem_ok in X. destruct (m d <? half) eqn:E3; [apply Nat.ltb_lt in E3; rewrite X, flag_small; auto|].
          apply Nat.ltb_ge in E3. rewrite flag_big by auto. destruct X as [X _]. lia.
        * rewrite (flag_big E2) in E. destruct Hpc as (P & Q & R). rewrite flag_big by auto. lia.
    - unfold pc_ok in Hpc. fold d in Hpc. fold nd in Hpc. destruct Hpc as (-> & -> & Hlt). destruct (Nat.eqb_spec (m d) (D d)) as [E|E].
      + apply Hstore; try discriminate; auto. rewrite E, (flag_small (HD d)). unfold nd. lia. right. split; auto. rewrite E. apply HD.
      + apply Hquiet; try discriminate. unfold pc_ok. fold d. fold nd. repeat split; auto. destruct (Nat.lt_ge_cases (m d) half); auto. exfalso. auto.
    - unfold pc_ok in Hpc. fold d in Hpc. fold nd in Hpc. destruct Hpc as (-> & Hbig & Hlt). destruct (nd <? m d) eqn:E; [apply Nat.ltb_lt in E|apply Nat.ltb_ge in E].
      + apply Hquiet; try discriminate. unfold pc_ok. cbn [fst snd]. fold d. fold nd. repeat split; auto.
      + apply Hquiet; try discriminate. unfold pc_ok. cbn [fst snd]. fold d. fold nd. now rewrite flag_big.
    - unfold pc_ok in Hpc. fold d in Hpc. fold nd in Hpc. destruct Hpc as (-> & Hbig & Hlt & Hy & Hny). destruct (Nat.eqb_spec (m d) y) as [E|E].
      + apply Hstore; try discriminate; auto. rewrite flag_big by auto. lia.
      + apply Hquiet; try discriminate. unfold pc_ok. cbn [fst snd]. fold d. fold nd. repeat split; auto.
    - cbn [fst snd]. replace (lset pcs i (WDone r)) with pcs; auto. apply list_ext_nth_error. intros j. destruct (Nat.eq_dec i j) as [<-|Hne].
      + now rewrite nth_error_lset_same.
      + now rewrite nth_error_lset_other.
  Qed.

  Lemma WI_start : WI (D, repeat WStart (length cs)).
  Proof.
    assert (Hno : forall v i, ~ reported (repeat WStart (length cs)) v i).
    { intros v i (c & p & _ & H & _). apply nth_error_In, repeat_spec in H. discriminate. }
    split; cbn [fst snd].
    - apply repeat_length.
    - intros v. unfold mem_ok. now rewrite (proj2 (Nat.ltb_lt _ _) (HD v)).
    - intros i c p _ H. apply nth_error_In, repeat_spec in H. subst p. exact I.
    - intros v Hv. specialize (HD v). lia.
    - intros v i j H. now apply Hno in H.
  Qed.
  Lemma WI_exec sched : WI (exec (wact half) cs sched (D, repeat WStart (length cs))).
  Proof. apply (exec_inv (wact half)); [|apply WI_start]. intros m pcs i c p. apply WI_step. Qed.

  (* alone, a call is over after five steps *)
  Lemma alone m c : exists r, snd (iter (wact half) 5 m c WStart) = WDone r.
  Proof.
    unfold iter, wact. destruct (_ <? flagged half (m (c_dst c))); [|simpl; eauto].
    destruct (m (c_dst c) <? half).
    - rewrite Nat.eqb_refl. simpl. eauto.
    - destruct (_ <? m (c_dst c)); [rewrite Nat.eqb_refl|]; simpl; eauto.
  Qed.
  Lemma finishes : exists sched, all_done wresult (snd (exec (wact half) cs sched (D, repeat WStart (length cs)))).
  Proof.
    assert (H : forall j, j <= length cs -> exists sched, let st := exec (wact half) cs sched (D, repeat WStart (length cs)) in
      (forall i, i < j -> exists r, nth_error (snd st) i = Some (WDone r)) /\ (forall i, j <= i -> i < length cs -> nth_error (snd st) i = Some WStart)).
    { induction j as [|j IH]; intros Hj.
      - exists []. split; [lia|]. intros i _ Hi. cbn [exec fold_left snd]. destruct (nth_error (repeat WStart (length cs)) i) eqn:E.
        + apply nth_error_In, repeat_spec in E. congruence.
        + apply nth_error_None in E. rewrite repeat_length in E. lia.
      - destruct IH as (sched & H1 & H2); [lia|]. exists (sched ++ repeat j 5). cbv zeta. rewrite exec_app.
        destruct (exec (wact half) cs sched (D, repeat WStart (length cs))) as [m pcs] eqn:E. cbn [fst snd] in *.
        assert (Hlen : length pcs = length cs).
        { pose proof (exec_length (wact half) cs sched (D, repeat WStart (length cs))) as X. rewrite E in X. simpl in X. now rewrite repeat_length in X. }
        destruct (nth_error cs j) as [c|] eqn:Ec; [|apply nth_error_None in Ec; lia].
        rewrite (exec_iter (wact half) cs j Ec 5 m pcs (H2 j ltac:(lia) ltac:(lia))). cbn [fst snd]. split.
        + intros i Hi. destruct (Nat.eq_dec j i) as [<-|Hne].
          * destruct (alone m c) as (r & Er). exists r. rewrite nth_error_lset_same by lia. now rewrite Er.
          * rewrite nth_error_lset_other by auto. apply H1. lia.
        + intros i Hi1 Hi2. rewrite nth_error_lset_other by lia. apply H2; lia. }
    destruct (H (length cs) (le_n _)) as (sched & H1 & _). exists sched. apply Forall_forall. intros p Hp.
    apply In_nth_error in Hp as (i & Hi). destruct (H1 i) as (r & Er).
    { assert (i < length (snd (exec (wact half) cs sched (D, repeat WStart (length cs))))) by (apply nth_error_Some; congruence).
      rewrite exec_length in H0. simpl in H0. now rewrite repeat_length in H0. }
    cbv zeta in Er. rewrite Hi in Er. injection Er as ->. discriminate.
  Qed.

  (* 99-106 *)
  Lemma applied_ok o s res : forall m l, NoDup (map fst res) ->
    (forall v, fst (fold_left (wb_apply o half s) res (m, l)) v = if in_dec Nat.eq_dec v (map fst res) then masked half (m v) else m v) /\
    snd (fold_left (wb_apply o half s) res (m, l)) =
      l ++ map (fun vp => (fst vp, get_bucket2 true o (null half) s (wb_bkt half (snd vp)) (wb_bkt half (masked half (m (fst vp)))))) res.
  Proof.
    induction res as [|[u x] res IH]; intros m l Hnd.
    - cbn. split; auto. now rewrite app_nil_r.
    - cbn [fold_left wb_apply map fst snd] in *. inversion Hnd as [|? ? Hnot Hnd']; subst.
      destruct (IH (fset m u (masked half (m u))) (l ++ [(u, get_bucket2 true o (null half) s (wb_bkt half x) (wb_bkt half (masked half (m u))))]) Hnd') as [A B].
      split.
      + intros v. rewrite A. destruct (in_dec Nat.eq_dec v (map fst res)) as [H1|H1]; destruct (in_dec Nat.eq_dec v (u :: map fst res)) as [H2|H2].
        * rewrite fset_other; auto. intros ->. auto.
        * exfalso. apply H2. now right.
        * destruct H2 as [<-|H2]; [now rewrite fset_same|contradiction].
        * rewrite fset_other; auto. intros ->. apply H2. now left.
      + rewrite B, <- app_assoc. f_equal. simpl. f_equal. apply map_ext_in. intros [v y] Hin. cbn [fst snd]. f_equal. f_equal. f_equal. f_equal. apply fset_other.
        intros ->. apply Hnot. apply in_map_iff. now exists (u, y).
  Qed.

  Hypothesis HLpath : forall s, In s L -> wpath outw src s k.
  Lemma round_done sched res : let st := exec (wact half) cs sched (D, repeat WStart (length cs)) in
    all_done wresult (snd st) -> Permutation res (outputs wresult cs (snd st)) ->
    forall o s, let X := fold_left (wb_apply o half s) res (fst st, []) in
      round_ok outw src (null half) (half - 1) (fun x => x) k L D (fst X) res /\
      snd X = dests o (null half) (half - 1) (fun x => x) s (fst X) res.
  Proof.
    intros st Hdone Hres o s X. pose proof (WI_exec sched) as HI. fold st in HI.
    assert (Hout : forall v x, In (v, x) res <-> exists i c, nth_error cs i = Some c /\ nth_error (snd st) i = Some (WDone (Some x)) /\ c_dst c = v).
    { intros v x. split.
      - intros H. apply (Permutation_in _ Hres) in H. apply outputs_In in H as (i & c & p & A & B & C & E). exists i, c. destruct p; try discriminate. injection C as ->. auto.
      - intros (i & c & A & B & C). apply (Permutation_in _ (Permutation_sym Hres)). apply outputs_In. exists i, c, (WDone (Some x)). auto. }
    assert (Hnd : NoDup (map fst res)).
    { apply (Permutation_NoDup (Permutation_map fst (Permutation_sym Hres))). apply outputs_NoDup.
      intros i j c c' p p' x y A B A' B' C C' E. destruct p; try discriminate. destruct p'; try discriminate. injection C as ->. injection C' as ->.
      apply (w_one HI (v := c_dst c)); [exists c, x|exists c', y]; auto. }
    assert (Hin : forall v, In v (map fst res) <-> half <= fst st v).
    { intros v. rewrite in_map_iff. split.
      - intros ([u x] & <- & H). apply Hout in H as (i & c & A & B & C). pose proof (w_pc HI _ A B) as Y. simpl in Y. rewrite C in Y. tauto.
      - intros H. destruct (w_rep HI v H) as (i & c & p & A & B & C). exists (v, p). split; auto. apply Hout. eauto. }
    destruct (@applied_ok o s res (fst st) [] Hnd) as [HA HB]. fold X in HA, HB.
    assert (Hval : forall v, (half <= fst st v /\ fst X v = fst st v - half /\ fst st v < D v + half /\
                      (exists c, In c cs /\ c_dst c = v /\ fst X v = k + c_wgh c)) \/ (fst st v < half /\ fst X v = D v)).
    { intros v. pose proof (w_mem HI v) as Hm. unfold mem_ok in Hm. rewrite HA. destruct (in_dec Nat.eq_dec v (map fst res)) as [H|H]; rewrite Hin in H.
      - left. rewrite (proj2 (Nat.ltb_ge _ _) H) in Hm. destruct Hm as (Hm & c & Hc & Hd & Ec).
        assert (E : masked half (fst st v) = fst st v - half).
        { unfold masked. specialize (HD v). replace (fst st v) with (fst st v - half + 1 * half) at 1 by lia. rewrite Nat.mod_add, Nat.mod_small; lia. }
        repeat split; auto. exists c. repeat split; auto. lia.
      - right. apply Nat.nle_gt in H. rewrite (proj2 (Nat.ltb_lt _ _) H) in Hm. auto. }
    assert (Hlow : forall v, In v (map fst res) <-> fst X v < D v).
    { intros v. rewrite Hin. specialize (HD v). destruct (Hval v) as [(A & B & C & _)|(A & B)]; lia. }
    split; [split; auto|].
    - intros v. specialize (HD v). destruct (Hval v) as [(A & B & C & _)|(A & B)]; lia.
    - intros v p H. apply Hout in H as (i & c & A & B & C). pose proof (w_pc HI _ A B) as Y. simpl in Y. rewrite C in Y. destruct Y as [-> _]. reflexivity.
    - intros v H. destruct (Hval v) as [(_ & _ & _ & c & Hc & Hd & E)|(_ & E)]; [|lia]. rewrite E. apply calls_In in Hc as [H1 H2]. rewrite <- Hd.
      eapply wpath_S; eauto.
    - intros s0 u w Hs Hu. rewrite (HL _ Hs). assert (Hc : @In call (s0, u, w) cs) by (apply calls_In; auto).
      apply In_nth_error in Hc as (i & Hi). destruct (nth_error (snd st) i) as [p|] eqn:Ep.
      2:{ apply nth_error_None in Ep. rewrite (w_len HI) in Ep. assert (i < length cs) by (apply nth_error_Some; congruence). lia. }
      pose proof (w_pc HI _ Hi Ep) as Y. assert (Hp : wresult p <> None) by (exact (proj1 (Forall_forall _ _) Hdone p (nth_error_In _ _ Ep))).
      destruct p as [| | | | |r]; try (now destruct Hp). unfold pc_ok in Y. unfold c_dst, c_wgh in Y. cbn [fst snd] in Y.
      assert (Hfl : flagged half (fst st u) <= k + w + half).
      { destruct r as [p|]; auto. destruct Y as (_ & Y1 & Y2). now rewrite flag_big. }
      destruct (Hval u) as [(A & B & _)|(A & B)]; [rewrite (flag_big A) in Hfl; lia|].
      rewrite (flag_small A) in Hfl. pose proof (w_mem HI u) as Hm. unfold mem_ok in Hm. rewrite (proj2 (Nat.ltb_lt _ _) A) in Hm. lia.
    - intros v H. destruct (Hval v) as [(_ & _ & _ & c & Hc & Hd & E)|(_ & E)]; lia.
    - rewrite HB. simpl. unfold dests. apply map_ext_in. intros [v p] H. cbn [fst snd].
      assert (Hv : In v (map fst res)) by (apply in_map_iff; now exists (v, p)).
      rewrite HA. destruct (in_dec Nat.eq_dec v (map fst res)); [reflexivity|contradiction].
  Qed.
End Round.

Section WBLoop.
  Variable n : nat.
  Variable outw : nat -> list (nat * nat).
  Variable src o half : nat.
  Hypothesis Hsrc : src < n.
  Hypothesis Hg : wgraph_ok n outw.
  Hypothesis Ho : 0 < o.
  Hypothesis Hhalf : 1 < half.
  Hypothesis Hfit : forall s x u w, wdist outw src s x -> In (u, w) (outw s) -> x + w < half.
  Local Notation INV := (LI n outw src o (null half) (half - 1) (fun x => x)).

  Let Htop : 0 < half - 1.
  Proof. lia. Qed.
  Let Hnull : forall x, x < half - 1 -> x < null half.
  Proof. unfold null. lia. Qed.

  Lemma frontier_facts D s d due last fuel k L s' : INV D s d due last ->
    next_bucket true o fuel (wb_ring n half D) s = Ret (Some (k, L)) s' ->
    (forall v, D v < half) /\ (forall v, In v L -> D v = k) /\ (forall v u w, In v L -> In (u, w) (outw v) -> k + w < half) /\
    (forall v, In v L -> wpath outw src v k).
  Proof.
    intros HI En. destruct (@LI_next n outw src o (null half) (half - 1) (fun x => x) Hsrc Hg Ho Htop (fun x y H => H) D s d due last fuel k L s' HI En) as (_ & HL & _ & _ & HLv).
    assert (Hk : forall v, In v L -> D v = k) by (intros v Hv; now apply HL).
    assert (Hp : forall v, In v L -> wpath outw src v k).
    { intros v Hv. rewrite <- (Hk v Hv). apply (l_path HI). now apply HLv. }
    split; [intros v; pose proof (l_le HI v); lia|]. split; auto. split; auto.
    intros v u w Hv Hu. apply (@Hfit v k u w); auto. split; auto. intros y Hy. rewrite <- (Hk v Hv). now apply HLv.
  Qed.

  Lemma wb_inv r D s : wb_loop n outw src o half r D s ->
    exists d due last S, INV D s d due last /\ NoDup S /\ length S = r /\ (forall v, In v S -> v < n /\ due v = false /\ D v <= last).
  Proof.
    induction 1 as [|r D s fuel k L s' sched res H (d & due & last & S & HI & HS & Hlen & HSv) En st Hdone Hres X].
    - pose proof (@LI_start n outw src o (null half) (half - 1) (fun x => x) Hsrc Ho Htop Hnull) as HI.
      do 3 eexists. exists []. split; [exact HI|]. split; [constructor|]. split; [reflexivity|]. intros v [].
    - destruct (frontier_facts fuel HI En) as (HD & HL & Hf & HLp).
      destruct (@round_done outw src half k L D Hhalf HD HL Hf HLp sched res Hdone Hres o s') as [R E]. fold st in R, E. fold X in R, E.
      destruct (@LI_next n outw src o (null half) (half - 1) (fun x => x) Hsrc Hg Ho Htop (fun x y H => H) D s d due last fuel k L s' HI En) as (Hne & HLd & _ & Hlast & HLv).
      destruct (@LI_round n outw src o (null half) (half - 1) (fun x => x) Hsrc Hg Ho Htop Hnull (fun x y H => H) D s d due last fuel k L s' (fst X) res HI En R) as (d' & due' & HI' & Hdue').
      rewrite E. destruct L as [|v0 L']; [congruence|]. exists d', due', k, (v0 :: S). split; auto.
      assert (Hnot : ~ In v0 S).
      { intros Hv. destruct (HSv v0 Hv) as (_ & A & _). destruct (proj1 (HLd v0) (or_introl eq_refl)). congruence. }
      split; [now constructor|]. split; [simpl; congruence|].
      assert (Hst : forall v, D v <= k -> ~ (fst X v < D v)).
      { intros v Hv Hlt. pose proof (r_k R v Hlt). lia. }
      intros v [<-|Hv].
      + assert (Dv : D v0 = k) by (apply HL; now left). split; [apply HLv; now left|]. split; [|pose proof (r_le R v0); lia].
        destruct (due' v0) eqn:E2; auto. apply Hdue' in E2 as [[_ E2]|E2]; [exfalso; apply E2; now left|]. exfalso. apply (Hst v0); auto. lia.
      + destruct (HSv v Hv) as (A & B & C). split; auto. split; [|pose proof (r_le R v); lia].
        destruct (due' v) eqn:E2; auto. apply Hdue' in E2 as [[E2 _]|E2]; [congruence|]. exfalso. apply (Hst v); auto. lia.
  Qed.

  Lemma wb_correct D : wb_returns n outw src o half D -> distances_are n outw src (half - 1) D.
  Proof.
    intros (r & s & fuel & s' & H & En). destruct (wb_inv H) as (d & due & last & S & HI & _). eapply (@LI_end n outw src o (null half) (half - 1) (fun x => x)); eauto; lia.
  Qed.
  Lemma wb_rounds r D s : wb_loop n outw src o half r D s -> r <= n.
  Proof.
    intros H. destruct (wb_inv H) as (d & due & last & S & _ & HS & <- & HSv).
    rewrite <- (seq_length n 0). apply NoDup_incl_length; auto. intros v Hv. apply in_seq. destruct (HSv v Hv). lia.
  Qed.
  Lemma wb_progress r D s : wb_loop n outw src o half r D s ->
    wb_returns n outw src o half D \/ exists D' s', wb_loop n outw src o half (S r) D' s'.
  Proof.
    intros H. destruct (wb_inv H) as (d & due & last & S & HI & _). destruct (LI_answers Ho HI) as (fuel & [[k L]|] & s' & En).
    - right. destruct (frontier_facts fuel HI En) as (HD & HL & Hf & _). assert (Hfin : exists sched, all_done wresult (snd (exec (wact half) (calls outw L) sched (D, repeat WStart (length (calls outw L)))))) by (eapply finishes; eauto).
      destruct Hfin as (sched & Hs).
      do 2 eexists. eapply wb_round; [exact H|exact En|exact Hs|apply Permutation_refl].
    - left. exists r, s, fuel, s'. auto.
  Qed.
  Lemma wb_exists : exists D, wb_returns n outw src o half D.
  Proof.
    assert (H : forall j r D s, n - r < j -> wb_loop n outw src o half r D s -> exists D', wb_returns n outw src o half D').
    { induction j as [|j IH]; intros r D s Hj H; [lia|]. destruct (wb_progress H) as [Hr|(D' & s' & H')]; [eauto|].
      pose proof (wb_rounds H'). apply (IH (S r) D' s'); auto. lia. }
    eapply (H (S n) 0); [lia|apply wb_start].
  Qed.
End WBLoop.
