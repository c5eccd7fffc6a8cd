(* SSWidestPath: the calls of one round, and the loop. *)
From Coq Require Import ZArith Permutation.
From Verif Require Import Base ListUtil BKModel BKSpec BKProofs BKProps KCProofs WBModel WBSpec WBProofs WPModel WPSpec WPLoop.
Local Open Scope nat_scope.

Section Round.
  Variable outw : nat -> list (nat * nat).
  Variable half k : nat.
  Variable L : list nat.
  Variable D : nat -> nat.
  Hypothesis Hhalf : 1 < half.
  Hypothesis HD : forall v, D v < half.
  Hypothesis HL : forall s, In s L -> D s = k.
  Hypothesis Hk : k < half.
  Hypothesis Hfit : forall s u w, In s L -> In (u, w) (outw s) -> w < half.
  Local Notation nw c := (Nat.min k (c_wgh c)).
  Local Notation cs := (calls outw L).
  Local Notation fl := (flagged half).

  Definition pc_ok (m : nat -> nat) (c : call) (p : ppc) : Prop :=
    let nd := nw c + half in let d := c_dst c in
    match p with
    | PStart => True
    | PSource oval => if oval <? half then oval = D d else half <= m d /\ oval <= m d /\ D d + half < oval
    | PCas oval x => x = nd /\ oval = D d /\ D d < nw c
    | PLoad x => x = nd /\ half <= m d /\ D d < nw c
    | PMax x v => x = nd /\ half <= m d /\ D d < nw c /\ half <= v /\ v < nd
    | PDone (Some p) => p = D d /\ half <= m d /\ nd <= m d
    | PDone None => nd <= fl (m d)
    end.
  Definition mem_ok (m : nat -> nat) (v : nat) : Prop :=
    if m v <? half then m v = D v
    else D v + half < m v /\ exists c, In c cs /\ c_dst c = v /\ m v = nw c + half.
  Definition reported (pcs : list ppc) (v i : nat) : Prop :=
    exists c p, nth_error cs i = Some c /\ nth_error pcs i = Some (PDone (Some p)) /\ c_dst c = v.
  Record WI (st : (nat -> nat) * list ppc) : Prop := {
    w_len : length (snd st) = length cs;
    w_mem : forall v, mem_ok (fst st) v;
    w_pc : forall i c p, nth_error cs i = Some c -> nth_error (snd st) i = Some p -> pc_ok (fst st) c p;
    w_rep : forall v, half <= fst st v -> exists i, reported (snd st) v i;
    w_one : forall v i j, reported (snd st) v i -> reported (snd st) v j -> i = j }.

  Lemma source_val m v : mem_ok m v -> In v L -> m v = k.
  Proof.
    intros H Hv. unfold mem_ok in H. destruct (m v <? half) eqn:E; [now rewrite H, HL|]. apply Nat.ltb_ge in E.
    rewrite (HL _ Hv) in H. destruct H as (H & c & _ & _ & E'). lia.
  Qed.

  (* stores only ever raise a flagged value, or flag *)
  Definition lower (m m' : nat -> nat) : Prop := forall v, m' v = m v \/ (half <= m' v /\ fl (m v) <= m' v).
  Lemma flag_ge x : half <= fl x.
  Proof. unfold flagged. destruct (x <? half) eqn:E; [lia|now apply Nat.ltb_ge in E]. Qed.
  Lemma flag_big x : half <= x -> fl x = x.
  Proof. intros H. unfold flagged. now rewrite (proj2 (Nat.ltb_ge _ _) H). Qed.
  Lemma flag_small x : x < half -> fl x = x + half.
  Proof. intros H. unfold flagged. now rewrite (proj2 (Nat.ltb_lt _ _) H). Qed.
  Lemma lower_big m m' v : lower m m' -> half <= m v -> half <= m' v /\ m v <= m' v.
  Proof. intros H Hv. destruct (H v) as [->|[A B]]; [lia|]. rewrite flag_big in B by auto. lia. Qed.
  Lemma lower_fl m m' v : lower m m' -> fl (m v) <= fl (m' v).
  Proof. intros H. destruct (H v) as [->|[A B]]; auto. now rewrite (flag_big A). Qed.
  Lemma pc_lower m m' c p : lower m m' -> pc_ok m c p -> pc_ok m' c p.
  Proof.
    intros H. unfold pc_ok. pose proof (@lower_big m m' (c_dst c) H) as B. pose proof (@lower_fl m m' (c_dst c) H) as F.
    destruct p as [|ov|ov x|x|x y|[p|]]; auto; try (intuition lia).
    destruct (ov <? half); auto. intros (P & Q & R). specialize (B P). lia.
  Qed.

  Lemma WI_step m pcs i c p : WI (m, pcs) -> nth_error cs i = Some c -> nth_error pcs i = Some p ->
    WI (fst (pact half m c p), lset pcs i (snd (pact half m c p))).
  Proof.
    intros HI Hc Hp. pose proof (w_pc HI _ Hc Hp) as Hpc. pose proof (w_mem HI) as Hm. cbn [fst snd] in *.
    assert (Hi : i < length pcs) by (apply nth_error_Some; congruence).
    assert (Hin : In c cs) by (apply nth_error_In with (1 := Hc)). pose proof (proj1 (calls_In _ _ _) Hin) as [HcL HcE].
    pose proof (Hfit _ _ _ HcL HcE) as Hf. set (d := c_dst c) in *. set (nd := nw c + half) in *.
    assert (Hsrcv : m (c_src c) = k) by (apply source_val; auto).
    (* a step without a store and without reporting *)
    assert (Hquiet : forall p', (forall x, p' <> PDone (Some x)) -> (forall x, p <> PDone (Some x)) -> pc_ok m c p' -> WI (m, lset pcs i p')).
    { intros p' Hno Hnop Hok. assert (Hrep : forall v j, reported (lset pcs i p') v j <-> reported pcs v j).
      { intros v j. unfold reported. destruct (Nat.eq_dec i j) as [<-|Hne].
        - rewrite nth_error_lset_same by auto. split; intros (c' & x & A & B & C); [injection B as ->; exfalso; eapply Hno; eauto|].
          rewrite Hp in B. injection B as ->. exfalso. eapply Hnop; eauto.
        - now rewrite nth_error_lset_other. }
      split; cbn [fst snd]; auto.
      - rewrite length_lset. apply (w_len HI).
      - intros j c' q Hc' Hq. destruct (Nat.eq_dec i j) as [<-|Hne].
        + rewrite nth_error_lset_same in Hq by auto. injection Hq as <-. rewrite Hc in Hc'. injection Hc' as <-. auto.
        + rewrite nth_error_lset_other in Hq by auto. apply (w_pc HI _ Hc' Hq).
      - intros v Hv. destruct (w_rep HI v Hv) as (j & Hj). exists j. now apply Hrep.
      - intros v j1 j2. rewrite !Hrep. apply (w_one HI). }
    (* a step with a store *)
    assert (Hstore : forall r, (forall x, p <> PDone (Some x)) -> D d < nw c -> fl (m d) <= nd ->
       (r = None /\ half <= m d \/ r = Some (D d) /\ m d < half) -> WI (fset m d nd, lset pcs i (PDone r))).
    { intros r Hnop HltD Hle Hr. assert (Hlow : lower m (fset m d nd)).
      { intros v. unfold fset. destruct (Nat.eqb_spec v d) as [->|]; [right; split; auto; unfold nd; lia|auto]. }
      assert (Hrep : forall v j, reported (lset pcs i (PDone r)) v j <-> reported pcs v j \/ (j = i /\ v = d /\ r <> None)).
      { intros v j. unfold reported. destruct (Nat.eq_dec i j) as [<-|Hne].
        - rewrite nth_error_lset_same by auto. split.
          + intros (c' & x & A & B & C). injection B as ->. right. rewrite Hc in A. injection A as <-. repeat split; auto. discriminate.
          + intros [(c' & x & A & B & C)|(_ & -> & Hr')]; [rewrite Hp in B; injection B as ->; exfalso; eapply Hnop; eauto|].
            destruct r as [x|]; [|congruence]. exists c, x. auto.
        - rewrite nth_error_lset_other by auto. split; [auto|]. intros [A|(A & _)]; [auto|congruence]. }
      split; cbn [fst snd].
      - rewrite length_lset. apply (w_len HI).
      - intros v. unfold mem_ok, fset. destruct (Nat.eqb_spec v d) as [->|Hne]; [|apply Hm].
        rewrite (proj2 (Nat.ltb_ge nd half)) by (unfold nd; lia). split; [unfold nd; lia|]. exists c. auto.
      - intros j c' q Hc' Hq. destruct (Nat.eq_dec i j) as [<-|Hne].
        + rewrite nth_error_lset_same in Hq by auto. injection Hq as <-. rewrite Hc in Hc'. injection Hc' as <-. unfold pc_ok. fold d. fold nd.
          rewrite fset_same. destruct Hr as [[-> Hr]|[-> Hr]]; [rewrite flag_big; unfold nd; lia|]. unfold nd. repeat split; auto; lia.
        + rewrite nth_error_lset_other in Hq by auto. eapply pc_lower; [exact Hlow|]. apply (w_pc HI _ Hc' Hq).
      - intros v Hv. unfold fset in Hv. destruct (Nat.eqb_spec v d) as [Ev|Hne].
        + rewrite Ev in *. clear Hv. destruct Hr as [[-> Hr]|[-> Hr]].
          * destruct (w_rep HI d Hr) as (j & Hj). exists j. apply Hrep. auto.
          * exists i. apply Hrep. right. repeat split; auto. discriminate.
        + destruct (w_rep HI v Hv) as (j & Hj). exists j. apply Hrep. auto.
      - assert (Hnone : forall v j, reported pcs v j -> half <= m v).
        { intros v j (c' & x & A & B & C). pose proof (w_pc HI _ A B) as X. simpl in X. rewrite C in X. tauto. }
        intros v j1 j2 H1 H2. apply Hrep in H1, H2. destruct H1 as [H1|(-> & -> & H1)], H2 as [H2|(-> & E2 & H2)]; auto.
        + eapply (w_one HI); eauto.
        + apply Hnone in H1. rewrite E2 in H1. destruct Hr as [[-> _]|[_ Hr]]; [congruence|lia].
        + apply Hnone in H2. destruct Hr as [[-> _]|[_ Hr]]; [congruence|lia]. }
    assert (Hmd : m d < half -> m d = D d) by (intros X; specialize (Hm d); unfold mem_ok in Hm; now rewrite (proj2 (Nat.ltb_lt _ _) X) in Hm).
    destruct p as [|ov|ov x|x|x y|r]; cbn [pact]; fold d.
    - apply Hquiet; try discriminate. simpl. fold d. destruct (m d <? half) eqn:E.
      + apply Nat.ltb_lt in E. auto.
      + specialize (Hm d). unfold mem_ok in Hm. rewrite E in Hm. apply Nat.ltb_ge in E. destruct Hm as [Hm _]. auto.
    - rewrite Hsrcv. rewrite (flag_small Hk), (flag_small Hf). replace (Nat.min (k + half) (c_wgh c + half)) with nd by (unfold nd; lia).
      unfold pc_ok in Hpc. fold d in Hpc. fold nd in Hpc.
      destruct (fl ov <? nd) eqn:E; [apply Nat.ltb_lt in E|apply Nat.ltb_ge in E].
      + destruct (ov <? half) eqn:E2; [apply Nat.ltb_lt in E2|apply Nat.ltb_ge in E2].
        * apply Hquiet; try discriminate. rewrite (flag_small E2) in E. unfold pc_ok. fold d. fold nd. unfold nd in E. repeat split; auto. lia.
        * rewrite (flag_big E2) in E. destruct Hpc as (P & Q & R). apply Hquiet; try discriminate. unfold pc_ok. fold d. fold nd. unfold nd in E. repeat split; auto. lia.
      + apply Hquiet; try discriminate. unfold pc_ok. cbn [fst snd]. fold d. fold nd. destruct (ov <? half) eqn:E2; [apply Nat.ltb_lt in E2|apply Nat.ltb_ge in E2].
        * rewrite (flag_small E2) in E. subst ov. pose proof (Hm d) as X. unfold mem_ok in X. destruct (m d <? half) eqn:E3; [apply Nat.ltb_lt in E3; rewrite X, flag_small; auto|].
          apply Nat.ltb_ge in E3. rewrite flag_big by auto. destruct X as [X _]. lia.
        * rewrite (flag_big E2) in E. destruct Hpc as (P & Q & R). rewrite flag_big by auto. lia.
    - unfold pc_ok in Hpc. fold d in Hpc. fold nd in Hpc. destruct Hpc as (-> & -> & Hlt). destruct (Nat.eqb_spec (m d) (D d)) as [E|E].
      + apply Hstore; try discriminate; auto. rewrite E, (flag_small (HD d)). unfold nd. lia. right. split; auto. rewrite E. apply HD.
      + apply Hquiet; try discriminate. unfold pc_ok. fold d. fold nd. repeat split; auto. destruct (Nat.lt_ge_cases (m d) half); auto. exfalso. auto.
    - unfold pc_ok in Hpc. fold d in Hpc. fold nd in Hpc. destruct Hpc as (-> & Hbig & Hlt). destruct (m d <? nd) eqn:E; [apply Nat.ltb_lt in E|apply Nat.ltb_ge in E].
      + apply Hquiet; try discriminate. unfold pc_ok. cbn [fst snd]. fold d. fold nd. repeat split; auto.
      + apply Hquiet; try discriminate. unfold pc_ok. cbn [fst snd]. fold d. fold nd. now rewrite flag_big.
    - unfold pc_ok in Hpc. fold d in Hpc. fold nd in Hpc. destruct Hpc as (-> & Hbig & Hlt & Hy & Hny). destruct (Nat.eqb_spec (m d) y) as [E|E].
      + apply Hstore; try discriminate; auto. rewrite flag_big by auto. lia.
      + apply Hquiet; try discriminate. unfold pc_ok. cbn [fst snd]. fold d. fold nd. repeat split; auto.
    - cbn [fst snd]. replace (lset pcs i (PDone r)) with pcs; auto. apply list_ext_nth_error. intros j. destruct (Nat.eq_dec i j) as [<-|Hne].
      + now rewrite nth_error_lset_same.
      + now rewrite nth_error_lset_other.
  Qed.

  Lemma WI_start : WI (D, repeat PStart (length cs)).
  Proof.
    assert (Hno : forall v i, ~ reported (repeat PStart (length cs)) v i).
    { intros v i (c & p & _ & H & _). apply nth_error_In, repeat_spec in H. discriminate. }
    split; cbn [fst snd].
    - apply repeat_length.
    - intros v. unfold mem_ok. now rewrite (proj2 (Nat.ltb_lt _ _) (HD v)).
    - intros i c p _ H. apply nth_error_In, repeat_spec in H. subst p. exact I.
    - intros v Hv. specialize (HD v). lia.
    - intros v i j H. now apply Hno in H.
  Qed.
  Lemma WI_exec sched : WI (exec (pact half) cs sched (D, repeat PStart (length cs))).
  Proof. apply (exec_inv (pact half)); [|apply WI_start]. intros m pcs i c p. apply WI_step. Qed.

  (* alone, a call is over after five steps *)
  Lemma alone m c : exists r, snd (iter (pact half) 5 m c PStart) = PDone r.
  Proof.
    unfold iter, pact. destruct (flagged half (m (c_dst c)) <? _); [|simpl; eauto].
    destruct (m (c_dst c) <? half).
    - rewrite Nat.eqb_refl. simpl. eauto.
    - destruct (m (c_dst c) <? _); [rewrite Nat.eqb_refl|]; simpl; eauto.
  Qed.
  Lemma finishes : exists sched, all_done presult (snd (exec (pact half) cs sched (D, repeat PStart (length cs)))).
  Proof.
    assert (H : forall j, j <= length cs -> exists sched, let st := exec (pact half) cs sched (D, repeat PStart (length cs)) in
      (forall i, i < j -> exists r, nth_error (snd st) i = Some (PDone r)) /\ (forall i, j <= i -> i < length cs -> nth_error (snd st) i = Some PStart)).
    { induction j as [|j IH]; intros Hj.
      - exists []. split; [lia|]. intros i _ Hi. cbn [exec fold_left snd]. destruct (nth_error (repeat PStart (length cs)) i) eqn:E.
        + apply nth_error_In, repeat_spec in E. congruence.
        + apply nth_error_None in E. rewrite repeat_length in E. lia.
      - destruct IH as (sched & H1 & H2); [lia|]. exists (sched ++ repeat j 5). cbv zeta. rewrite exec_app.
        destruct (exec (pact half) cs sched (D, repeat PStart (length cs))) as [m pcs] eqn:E. cbn [fst snd] in *.
        assert (Hlen : length pcs = length cs).
        { pose proof (exec_length (pact half) cs sched (D, repeat PStart (length cs))) as X. rewrite E in X. simpl in X. now rewrite repeat_length in X. }
        destruct (nth_error cs j) as [c|] eqn:Ec; [|apply nth_error_None in Ec; lia].
        rewrite (exec_iter (pact half) cs j Ec 5 m pcs (H2 j ltac:(lia) ltac:(lia))). cbn [fst snd]. split.
        + intros i Hi. destruct (Nat.eq_dec j i) as [<-|Hne].
          * destruct (alone m c) as (r & Er). exists r. rewrite nth_error_lset_same by lia. now rewrite Er.
          * rewrite nth_error_lset_other by auto. apply H1. lia.
        + intros i Hi1 Hi2. rewrite nth_error_lset_other by lia. apply H2; lia. }
    destruct (H (length cs) (le_n _)) as (sched & H1 & _). exists sched. apply Forall_forall. intros p Hp.
    apply In_nth_error in Hp as (i & Hi). destruct (H1 i) as (r & Er).
    { assert (i < length (snd (exec (pact half) cs sched (D, repeat PStart (length cs))))) by (apply nth_error_Some; congruence).
      rewrite exec_length in H0. simpl in H0. now rewrite repeat_length in H0. }
    cbv zeta in Er. rewrite Hi in Er. injection Er as ->. discriminate.
  Qed.

  (* 124-132 *)
  Variable n : nat.
  Local Notation bkt := (wp_bkt n outw).
  Lemma applied_ok o s res : forall m l, NoDup (map fst res) ->
    (forall v, fst (fold_left (wp_apply n outw o half s) res (m, l)) v = if in_dec Nat.eq_dec v (map fst res) then masked half (m v) else m v) /\
    snd (fold_left (wp_apply n outw o half s) res (m, l)) =
      l ++ map (fun vp => (fst vp, get_bucket2 true o (null half) s (bkt (snd vp)) (bkt (masked half (m (fst vp)))))) res.
  Proof.
    induction res as [|[u x] res IH]; intros m l Hnd.
    - cbn. split; auto. now rewrite app_nil_r.
    - cbn [fold_left wp_apply map fst snd] in *. inversion Hnd as [|? ? Hnot Hnd']; subst.
      destruct (IH (fset m u (masked half (m u))) (l ++ [(u, get_bucket2 true o (null half) s (bkt x) (bkt (masked half (m u))))]) Hnd') as [A B].
      split.
      + intros v. rewrite A. destruct (in_dec Nat.eq_dec v (map fst res)) as [H1|H1]; destruct (in_dec Nat.eq_dec v (u :: map fst res)) as [H2|H2].
        * rewrite fset_other; auto. intros ->. auto.
        * exfalso. apply H2. now right.
        * destruct H2 as [<-|H2]; [now rewrite fset_same|contradiction].
        * rewrite fset_other; auto. intros ->. apply H2. now left.
      + rewrite B, <- app_assoc. f_equal. simpl. f_equal. apply map_ext_in. intros [v y] Hin. cbn [fst snd]. f_equal. f_equal. f_equal. f_equal. apply fset_other.
        intros ->. apply Hnot. apply in_map_iff. now exists (u, y).
  Qed.

  Lemma round_done sched res : let st := exec (pact half) cs sched (D, repeat PStart (length cs)) in
    all_done presult (snd st) -> Permutation res (outputs presult cs (snd st)) ->
    forall o s, let X := fold_left (wp_apply n outw o half s) res (fst st, []) in let Dn := fst X in
      NoDup (map fst res) /\ (forall v, D v <= Dn v) /\ (forall v, In v (map fst res) <-> D v < Dn v) /\
      (forall v p, In (v, p) res -> p = D v) /\
      (forall v, D v < Dn v -> exists s w, In s L /\ In (v, w) (outw s) /\ Dn v = Nat.min k w) /\
      (forall s u w, In s L -> In (u, w) (outw s) -> Nat.min k w <= Dn u) /\
      snd X = map (fun vp => (fst vp, get_bucket2 true o (null half) s (bkt (snd vp)) (bkt (Dn (fst vp))))) res.
  Proof.
    intros st Hdone Hres o s X Dn. pose proof (WI_exec sched) as HI. fold st in HI.
    assert (Hout : forall v x, In (v, x) res <-> exists i c, nth_error cs i = Some c /\ nth_error (snd st) i = Some (PDone (Some x)) /\ c_dst c = v).
    { intros v x. split.
      - intros H. apply (Permutation_in _ Hres) in H. apply outputs_In in H as (i & c & p & A & B & C & E). exists i, c. destruct p; try discriminate. injection C as ->. auto.
      - intros (i & c & A & B & C). apply (Permutation_in _ (Permutation_sym Hres)). apply outputs_In. exists i, c, (PDone (Some x)). auto. }
    assert (Hnd : NoDup (map fst res)).
    { apply (Permutation_NoDup (Permutation_map fst (Permutation_sym Hres))). apply outputs_NoDup.
      intros i j c c' p p' x y A B A' B' C C' E. destruct p; try discriminate. destruct p'; try discriminate. injection C as ->. injection C' as ->.
      apply (w_one HI (v := c_dst c)); [exists c, x|exists c', y]; auto. }
    assert (Hin : forall v, In v (map fst res) <-> half <= fst st v).
    { intros v. rewrite in_map_iff. split.
      - intros ([u x] & <- & H). apply Hout in H as (i & c & A & B & C). pose proof (w_pc HI _ A B) as Y. simpl in Y. rewrite C in Y. tauto.
      - intros H. destruct (w_rep HI v H) as (i & c & p & A & B & C). exists (v, p). split; auto. apply Hout. eauto. }
    destruct (@applied_ok o s res (fst st) [] Hnd) as [HA HB]. fold X in HA, HB. fold Dn in HA.
    assert (Hval : forall v, (half <= fst st v /\ Dn v = fst st v - half /\ D v + half < fst st v /\
                      (exists c, In c cs /\ c_dst c = v /\ Dn v = nw c)) \/ (fst st v < half /\ Dn v = D v)).
    { intros v. pose proof (w_mem HI v) as Hm. unfold mem_ok in Hm. rewrite HA. destruct (in_dec Nat.eq_dec v (map fst res)) as [H|H]; rewrite Hin in H.
      - left. rewrite (proj2 (Nat.ltb_ge _ _) H) in Hm. destruct Hm as (Hm & c & Hc & Hd & Ec).
        assert (E : masked half (fst st v) = fst st v - half).
        { unfold masked. replace (fst st v) with (fst st v - half + 1 * half) at 1 by lia. rewrite Nat.mod_add, Nat.mod_small; lia. }
        repeat split; auto. exists c. repeat split; auto. lia.
      - right. apply Nat.nle_gt in H. rewrite (proj2 (Nat.ltb_lt _ _) H) in Hm. auto. }
    assert (Hlow : forall v, In v (map fst res) <-> D v < Dn v).
    { intros v. rewrite Hin. destruct (Hval v) as [(A & B & C & _)|(A & B)]; lia. }
    split; auto. split; [|split; [|split; [|split; [|split]]]]; auto.
    - intros v. destruct (Hval v) as [(A & B & C & _)|(A & B)]; lia.
    - intros v p H. apply Hout in H as (i & c & A & B & C). pose proof (w_pc HI _ A B) as Y. simpl in Y. rewrite C in Y. tauto.
    - intros v H. destruct (Hval v) as [(_ & _ & _ & c & Hc & Hd & E)|(_ & E)]; [|lia]. apply calls_In in Hc as [H1 H2]. rewrite Hd in H2. eauto.
    - intros s0 u w Hs Hu. assert (Hc : @In call (s0, u, w) cs) by (apply calls_In; auto).
      apply In_nth_error in Hc as (i & Hi). destruct (nth_error (snd st) i) as [p|] eqn:Ep.
      2:{ apply nth_error_None in Ep. rewrite (w_len HI) in Ep. assert (i < length cs) by (apply nth_error_Some; congruence). lia. }
      pose proof (w_pc HI _ Hi Ep) as Y. assert (Hp : presult p <> None) by (exact (proj1 (Forall_forall _ _) Hdone p (nth_error_In _ _ Ep))).
      destruct p as [| | | | |r]; try (now destruct Hp). unfold pc_ok in Y. unfold c_dst, c_wgh in Y. cbn [fst snd] in Y.
      assert (Hfl : Nat.min k w + half <= flagged half (fst st u)).
      { destruct r as [p|]; auto. destruct Y as (_ & Y1 & Y2). now rewrite flag_big. }
      destruct (Hval u) as [(A & B & _)|(A & B)]; [rewrite (flag_big A) in Hfl; lia|].
      rewrite (flag_small A) in Hfl. pose proof (w_mem HI u) as Hm. unfold mem_ok in Hm. rewrite (proj2 (Nat.ltb_lt _ _) A) in Hm. lia.
    - rewrite HB. simpl. apply map_ext_in. intros [v p] H. cbn [fst snd].
      assert (Hv : In v (map fst res)) by (apply in_map_iff; now exists (v, p)).
      rewrite HA. destruct (in_dec Nat.eq_dec v (map fst res)); [reflexivity|contradiction].
  Qed.
End Round.

(* with enough buckets nothing ever lies in the overflow bucket *)
Section Flat.
  Variable o null : nat.
  Definition flat (s : bst) : Prop := range s = 0 /\ bucket s o = [].
  Lemma bucket_lset s b x : b <> o -> nth o (lset (bk s) b x) [] = bucket s o.
  Proof. intros H. now apply nth_lset_other. Qed.
  Lemma push_flat s vb : flat s -> snd vb <> Some o -> flat (push s vb).
  Proof.
    intros [A B] H. unfold push. destruct (snd vb) as [b|]; [|split; auto]. split; auto. unfold bucket at 1. cbn [bk]. now rewrite bucket_lset by congruence.
  Qed.
  Lemma update_flat l : forall s, flat s -> (forall vb, In vb l -> snd vb <> Some o) -> flat (update_seq l s).
  Proof. induction l as [|vb l IH]; intros s Hs H; auto. cbn. apply IH; [apply push_flat; auto; apply H; now left|]. intros x Hx. apply H. now right. Qed.
  Lemma next_flat d fuel : forall s r s', flat s -> next_bucket true o fuel d s = Ret r s' -> flat s'.
  Proof.
    induction fuel as [|fuel IH]; intros s r s' [A B] H; [discriminate|]. cbn [next_bucket] in H. destruct ((_ =? 0) && _) eqn:E.
    - apply andb_prop in E as [_ E]. apply Nat.ltb_lt in E. unfold advance in H. destruct (cur s + 1 =? o); [|apply IH in H; auto; split; auto].
      unfold unpack, bucket in H. cbn [bk nelm] in H. change (nth o (bk s) []) with (bucket s o) in H. rewrite B in H. cbn [length] in H.
      destruct (Nat.eqb_spec 0 (nelm s)); [lia|]. discriminate.
    - destruct (nelm s =? 0); [injection H as _ <-; split; auto|].
      assert (F : flat {| bk := lset (bk s) (cur s) []; cur := cur s; range := range s; nelm := nelm s - length (bucket s (cur s)) |}).
      { split; auto. unfold bucket. cbn [bk]. destruct (Nat.eq_dec (cur s) o) as [Ec|Ec]; [|now rewrite bucket_lset]. rewrite Ec.
        destruct (Nat.lt_ge_cases o (length (bk s))) as [Hl|Hl]; [|rewrite nth_overflow; auto; now rewrite length_lset].
        now apply nth_lset_same. }
      destruct (filter _ _); [apply IH in H; auto|]. now injection H as _ <-.
  Qed.
  Lemma flat_range s b : flat s -> b < o -> to_range true o (range s) b = Some b.
  Proof. intros [A _] H. unfold to_range. rewrite A. cbn [Nat.mul Nat.add]. rewrite (proj2 (Nat.ltb_ge b 0)) by lia. rewrite Nat.add_0_r, (proj2 (Nat.ltb_lt _ _) H), Nat.mod_small; auto. Qed.
  Lemma flat_bucket s prev next : flat s -> 0 < o -> next < prev -> next < o -> get_bucket2 true o null s prev next = Some next.
  Proof.
    intros Hs Ho Hlt Hn. unfold get_bucket2. rewrite (flat_range Hs Hn). assert (E : match to_range true o (range s) prev with Some p => p =? next | None => false end = false).
    { destruct (Nat.lt_ge_cases prev o) as [Hp|Hp]; [rewrite (flat_range Hs Hp); apply Nat.eqb_neq; lia|].
      destruct Hs as [A _]. unfold to_range. rewrite A. cbn [Nat.mul Nat.add]. rewrite (proj2 (Nat.ltb_ge prev 0)) by lia. rewrite Nat.add_0_r, (proj2 (Nat.ltb_ge _ _) Hp). apply Nat.eqb_neq. lia. }
    rewrite E. now rewrite Bool.orb_true_r.
  Qed.
End Flat.

Section WPLoop.
  Variable n : nat.
  Variable outw : nat -> list (nat * nat).
  Variable src o half : nat.
  Hypothesis Hsrc : src < n.
  Hypothesis Hg : wgraph_ok n outw.
  Hypothesis Ho : 0 < o.
  Local Notation mw := (max_weight n outw).
  Local Notation inf := (wp_inf half).
  Hypothesis Hmo : mw + 1 <= o.
  Hypothesis Hminf : mw < inf.
  Lemma weight_le v u w : v < n -> In (u, w) (outw v) -> w <= mw.
  Proof.
    intros Hv H. unfold max_weight. assert (Hin : In w (map snd (flat_map outw (seq 0 n)))).
    { apply in_map_iff. exists (u, w). split; auto. apply in_flat_map. exists v. split; auto. apply in_seq. lia. }
    revert Hin. generalize (map snd (flat_map outw (seq 0 n))). intros l. induction l as [|a l IH]; simpl; [tauto|]. intros [->|Hin]; [lia|]. apply IH in Hin. lia.
  Qed.

  (* widths as distances: 0 is the best *)
  Definition key (x : nat) : nat := if x =? inf then 0 else mw + 1 - x.
  Definition valid (x : nat) : Prop := x = inf \/ x <= mw.
  Definition kop (x w : nat) : nat := Nat.max x (mw + 1 - w).
  Lemma key_le x y : valid x -> valid y -> (key y <= key x <-> x <= y).
  Proof. unfold valid, key. intros Hx Hy. destruct (Nat.eqb_spec x inf), (Nat.eqb_spec y inf); lia. Qed.
  Lemma key_lt x y : valid x -> valid y -> (key y < key x <-> x < y).
  Proof. unfold valid, key. intros Hx Hy. destruct (Nat.eqb_spec x inf), (Nat.eqb_spec y inf); lia. Qed.
  Lemma key_inj x y : valid x -> valid y -> key x = key y -> x = y.
  Proof. unfold valid, key. intros Hx Hy. destruct (Nat.eqb_spec x inf), (Nat.eqb_spec y inf); lia. Qed.
  Lemma key_min x w : valid x -> w <= mw -> key (Nat.min x w) = kop (key x) w.
  Proof. unfold valid, key, kop. intros Hx Hy. destruct (Nat.eqb_spec x inf), (Nat.eqb_spec (Nat.min x w) inf); lia. Qed.
  Lemma valid_min x w : valid x -> w <= mw -> valid (Nat.min x w).
  Proof. unfold valid. lia. Qed.
  Local Notation path := (gpath outw src kop).
  Local Notation INV D := (LI n outw src o (null half) (mw + 1) (fun x => x) kop (fun v => key (D v))).
  Let Htop : 0 < mw + 1. Proof. lia. Qed.
  Let Hnull : forall x, x < mw + 1 -> x < null half. Proof. unfold null. unfold wp_inf in Hminf. lia. Qed.
  Let kop_ge : forall x w, x <= kop x w. Proof. unfold kop. lia. Qed.
  Let kop_mono : forall x y w, x <= y -> kop x w <= kop y w. Proof. unfold kop. lia. Qed.
  Lemma ring_key D v : (forall v, valid (D v)) -> wp_ring n outw half D v = ring_of n (null half) (mw + 1) (fun x => x) (fun v => key (D v)) v.
  Proof.
    intros HD. unfold wp_ring, ring_of, bk_of, key, wp_bkt. destruct (v <? n); auto. specialize (HD v). unfold valid in HD.
    destruct (Nat.eqb_spec (D v) 0) as [E|E]; destruct (Nat.eqb_spec (D v) inf) as [E2|E2]; try lia.
    - rewrite E, Nat.sub_0_r, Nat.eqb_refl. auto.
    - destruct (Nat.eqb_spec 0 (mw + 1)); [lia|auto].
    - destruct (Nat.eqb_spec (mw + 1 - D v) (mw + 1)); lia.
  Qed.
  Lemma init_key v : key (wp_init src half v) = D_init src (mw + 1) v.
  Proof. unfold wp_init, D_init, key. destruct (v =? src); [now rewrite Nat.eqb_refl|]. destruct (Nat.eqb_spec 0 inf); lia. Qed.
  Lemma walk_lt v x : wide_walk (zout outw) src (Z.of_nat inf) v x -> v < n.
  Proof. induction 1 as [|v x u w _ IH Hin]; auto. apply in_map_iff in Hin as ([a b] & E & Hin). injection E as <- <-. eapply Hg; eauto. Qed.
  Lemma path_walk v y : path v y -> exists x, wide_walk (zout outw) src (Z.of_nat inf) v (Z.of_nat x) /\ valid x /\ y = key x.
  Proof.
    induction 1 as [|v y u w Hp (x & Hw & Hv & ->) Hin].
    - exists inf. split; [constructor|]. split; [now left|]. unfold key. now rewrite Nat.eqb_refl.
    - pose proof (weight_le _ _ (walk_lt Hw) Hin) as Hwt. exists (Nat.min x w). split; [|split; [now apply valid_min|now rewrite key_min]].
      rewrite Nat2Z.inj_min. eapply wide_S; [exact Hw|]. apply in_map_iff. exists (u, w). auto.
  Qed.
  Lemma walk_path v z : wide_walk (zout outw) src (Z.of_nat inf) v z -> exists x, z = Z.of_nat x /\ valid x /\ path v (key x).
  Proof.
    induction 1 as [|v z u w Hp (x & -> & Hv & Hw) Hin].
    - exists inf. split; auto. split; [now left|]. unfold key. rewrite Nat.eqb_refl. constructor.
    - apply in_map_iff in Hin as ([a b] & E & Hin). injection E as <- <-. pose proof (weight_le _ _ (walk_lt Hp) Hin) as Hwt. exists (Nat.min x b).
      split; [now rewrite Nat2Z.inj_min|]. split; [now apply valid_min|]. rewrite key_min by auto. econstructor; eauto.
  Qed.

  (* what is known in the loop *)
  Definition wp_ok (D : nat -> nat) (s : bst) (r : nat) : Prop :=
    (forall v, valid (D v)) /\ flat o s /\
    exists d due last S, INV D s d due last /\ NoDup S /\ length S = r /\ (forall v, In v S -> v < n /\ due v = false /\ key (D v) <= last).
  Lemma frontier_facts D s d due last fuel k L s' : (forall v, valid (D v)) -> INV D s d due last ->
    next_bucket true o fuel (wp_ring n outw half D) s = Ret (Some (k, L)) s' ->
    next_bucket true o fuel (ring_of n (null half) (mw + 1) (fun x => x) (fun v => key (D v))) s = Ret (Some (k, L)) s' /\
    exists kw, valid kw /\ key kw = k /\ kw <= inf /\ (forall v, In v L -> D v = kw) /\ (forall v, In v L -> v < n) /\ (forall v, In v L -> path v k).
  Proof.
    intros HD HI En0. assert (En : next_bucket true o fuel (ring_of n (null half) (mw + 1) (fun x => x) (fun v => key (D v))) s = Ret (Some (k, L)) s').
    { rewrite <- En0. symmetry. apply next_ext. intros v. now apply ring_key. }
    split; auto.
    destruct (@LI_next n outw src o (null half) (mw + 1) (fun x => x) Hsrc Hg Ho Htop (fun x y H => H) kop kop_ge kop_mono _ s d due last fuel k L s' HI En) as (Hne & HL & _ & _ & HLv).
    destruct L as [|v0 L']; [congruence|]. exists (D v0). assert (E0 : key (D v0) = k) by (apply HL; now left).
    split; auto. split; auto. split; [specialize (HD v0); unfold valid in HD; lia|].
    split; [intros v Hv; apply key_inj; auto; rewrite E0; now apply HL|]. split; [intros v Hv; now apply HLv|].
    intros v Hv. replace k with (key (D v)) by (now apply HL). apply (l_path HI). now apply HLv.
  Qed.
  Lemma make_ext d d' : (forall v, d v = d' v) -> make true o (null half) n d = make true o (null half) n d'.
  Proof.
    intros H. unfold make. rewrite (map_ext d d') by auto.
    rewrite (map_ext (fun i => (i, if d i =? null half then None else to_range true o (min_bucket (null half) (map d' (seq 0 n)) / o) (d i)))
                     (fun i => (i, if d' i =? null half then None else to_range true o (min_bucket (null half) (map d' (seq 0 n)) / o) (d' i)))); auto.
    intros i. now rewrite H.
  Qed.
  Lemma LI_ext D D' s d due last : (forall v, D v = D' v) -> LI n outw src o (null half) (mw + 1) (fun x => x) kop D s d due last ->
    LI n outw src o (null half) (mw + 1) (fun x => x) kop D' s d due last.
  Proof.
    intros E [A B C F G I J]. split; auto.
    - intros v. rewrite <- B. unfold ring_of. now rewrite E.
    - intros v. rewrite <- E. auto.
    - now rewrite <- E.
    - intros v. rewrite <- E. auto.
    - intros v Hv. rewrite <- E. auto.
    - intros v u w. rewrite <- !E. auto.
  Qed.
  Lemma wp_inv r D s : wp_loop n outw src o half r D s -> wp_ok D s r.
  Proof.
    induction 1 as [|r D s fuel k L s' sched res H (HD & HF & d & due & last & S & HI & HS & Hlen & HSv) En0 st Hdone Hres X].
    - assert (HD : forall v, valid (wp_init src half v)) by (intros v; unfold wp_init, valid; destruct (v =? src); [now left|right; lia]).
      assert (Ering : forall v, wp_ring n outw half (wp_init src half) v = ring_of n (null half) (mw + 1) (fun x => x) (D_init src (mw + 1)) v).
      { intros v. rewrite ring_key by auto. unfold ring_of. now rewrite init_key. }
      assert (R0 : forall v, wp_ring n outw half (wp_init src half) v = if v =? src then 0 else null half).
      { intros v. unfold wp_ring, wp_init. destruct (Nat.eqb_spec v src) as [->|].
        - rewrite (proj2 (Nat.ltb_lt _ _) Hsrc), Nat.eqb_refl. destruct (Nat.eqb_spec inf 0); auto. lia.
        - now destruct (v <? n). }
      split; auto. split.
      + assert (E : min_bucket (null half) (map (wp_ring n outw half (wp_init src half)) (seq 0 n)) = 0).
        { assert (Hin : In 0 (map (wp_ring n outw half (wp_init src half)) (seq 0 n))).
          { apply in_map_iff. exists src. split; [|apply in_seq; lia]. now rewrite R0, Nat.eqb_refl. }
          revert Hin. generalize (map (wp_ring n outw half (wp_init src half)) (seq 0 n)). intros l. unfold min_bucket. induction l as [|a l IH]; simpl; [tauto|]. intros [->|Hin]; [lia|]. rewrite IH; auto. lia. }
        unfold make. rewrite E, Nat.div_0_l by lia. apply update_flat.
        * split; auto. unfold bucket. cbn [bk]. apply nth_repeat.
        * intros vb Hvb. apply in_map_iff in Hvb as (v & <- & Hv). cbn [snd]. rewrite R0. destruct (v =? src); [|rewrite Nat.eqb_refl; discriminate].
          destruct (0 =? null half); [discriminate|]. unfold to_range. cbn [Nat.mul Nat.add]. destruct (0 <? 0); [discriminate|]. rewrite Nat.add_0_r, (proj2 (Nat.ltb_lt _ _) Ho), Nat.mod_0_l by lia.
          intros Y. injection Y as Y. lia.
      + pose proof (@LI_start n outw src o (null half) (mw + 1) (fun x => x) Hsrc Ho Htop Hnull kop kop_ge) as HI.
        rewrite (make_ext _ _ Ering). do 3 eexists. exists []. split; [|split; [constructor|split; [reflexivity|intros v []]]].
        eapply LI_ext; [|exact HI]. intros v. now rewrite init_key.
    - destruct (@frontier_facts D s d due last fuel k L s' HD HI En0) as (En & kw & Vk & Ek & Hki & HL & HLn & HLp).
      assert (Hwl : forall s u w, In s L -> In (u, w) (outw s) -> w <= mw) by (intros s0 u w Hs Hu; apply (weight_le _ _ (HLn _ Hs) Hu)).
      assert (HDh : forall v, D v < half) by (intros v; specialize (HD v); unfold valid, wp_inf in *; lia).
      assert (Hh1 : 1 < half) by (unfold wp_inf in *; lia).
      assert (Hkh : kw < half) by (unfold wp_inf in *; lia).
      assert (Hfit : forall s u w, In s L -> In (u, w) (outw s) -> w < half) by (intros s0 u w Hs Hu; pose proof (weight_le _ _ (HLn _ Hs) Hu); unfold wp_inf in *; lia).
      destruct (@round_done outw half kw L D Hh1 HDh HL Hkh Hfit n sched res Hdone Hres o s') as (R1 & R2 & R3 & R4 & R5 & R6 & R7). fold st in R2, R3, R5, R6, R7. fold X in R2, R3, R5, R6, R7.
      set (Dn := fst X) in *.
      assert (HDn : forall v, valid (Dn v)).
      { intros v. destruct (Nat.eq_dec (Dn v) (D v)) as [->|Hne]; auto. assert (Hlt : D v < Dn v) by (specialize (R2 v); lia).
        destruct (R5 v Hlt) as (s0 & w & Hs & Hu & ->). apply valid_min; auto. eapply Hwl; eauto. }
      assert (HFs : flat o s') by (eapply next_flat; eauto).
      set (res' := map (fun vp => (fst vp, key (snd vp))) res).
      assert (Efst : map fst res' = map fst res) by (unfold res'; now rewrite map_map).
      assert (R : round_ok outw src (null half) (mw + 1) (fun x => x) kop k L (fun v => key (D v)) (fun v => key (Dn v)) res').
      { split.
        - now rewrite Efst.
        - intros v. apply key_le; auto.
        - intros v. rewrite Efst, R3. symmetry. now apply key_lt.
        - intros v p Hin. apply in_map_iff in Hin as ([u q] & E & Hin). injection E as <- <-. now rewrite (R4 _ _ Hin).
        - intros v Hlt. apply (proj1 (key_lt (HD v) (HDn v))) in Hlt. destruct (R5 v Hlt) as (s0 & w & Hs & Hu & ->). rewrite key_min, Ek; auto; [|eapply Hwl; eauto]. econstructor; eauto.
        - intros s0 u w Hs Hu. pose proof (Hwl _ _ _ Hs Hu) as Hw. rewrite (HL _ Hs), <- key_min by auto. apply (proj2 (key_le (valid_min Vk Hw) (HDn u))). eapply R6; eauto.
        - intros v Hlt. apply (proj1 (key_lt (HD v) (HDn v))) in Hlt. destruct (R5 v Hlt) as (s0 & w & Hs & Hu & ->). rewrite key_min by (auto; eapply Hwl; eauto). rewrite Ek. apply kop_ge. }
      assert (Hbk : forall vp, In vp res -> D (fst vp) < Dn (fst vp) /\ Dn (fst vp) <= mw /\ snd vp = D (fst vp)).
      { intros [v p] Hin. cbn [fst snd]. assert (Hlt : D v < Dn v) by (apply R3, in_map_iff; now exists (v, p)). split; auto. split; [|now apply R4].
        destruct (R5 v Hlt) as (s0 & w & Hs & Hu & ->). pose proof (weight_le _ _ (HLn _ Hs) Hu). lia. }
      assert (Hgb : forall vp, In vp res -> get_bucket2 true o (null half) s' (wp_bkt n outw (snd vp)) (wp_bkt n outw (Dn (fst vp))) = Some (mw + 1 - Dn (fst vp))).
      { intros vp Hin. destruct (Hbk vp Hin) as (A & B & ->). unfold wp_bkt. replace (mw - Dn (fst vp) + 1) with (mw + 1 - Dn (fst vp)) by lia. apply flat_bucket; auto; lia. }
      assert (E : snd X = dests o (null half) (mw + 1) (fun x => x) s' (fun v => key (Dn v)) res').
      { rewrite R7. unfold dests, res'. rewrite map_map. apply map_ext_in. intros vp Hin. cbn [fst snd]. f_equal. rewrite (Hgb vp Hin). destruct (Hbk vp Hin) as (A & B & C).
        unfold bk_of, key. destruct (Nat.eqb_spec (Dn (fst vp)) inf); [lia|]. destruct (Nat.eqb_spec (mw + 1 - Dn (fst vp)) (mw + 1)); [lia|]. symmetry. apply flat_bucket; auto; [|lia].
        rewrite C. destruct (Nat.eqb_spec (D (fst vp)) inf); [lia|]. destruct (Nat.eqb_spec (mw + 1 - D (fst vp)) (mw + 1)); [|lia]. unfold null. unfold wp_inf in *. lia. }
      split; auto. split.
      + apply update_flat; auto. rewrite R7. intros vb Hvb. apply in_map_iff in Hvb as (vp & <- & Hin). cbn [snd]. rewrite (Hgb vp Hin). destruct (Hbk vp Hin) as (A & B & C). intros Y. injection Y as Y. lia.
      + destruct (@LI_next n outw src o (null half) (mw + 1) (fun x => x) Hsrc Hg Ho Htop (fun x y H => H) kop kop_ge kop_mono _ s d due last fuel k L s' HI En) as (Hne & HLd & _ & Hlast & HLv).
        destruct (@LI_round n outw src o (null half) (mw + 1) (fun x => x) Hsrc Hg Ho Htop Hnull (fun x y H => H) kop kop_ge kop_mono _ s d due last fuel k L s' (fun v => key (Dn v)) res' HI En R) as (d' & due' & HI' & Hdue').
        rewrite E. destruct L as [|v0 L']; [congruence|]. exists d', due', k, (v0 :: S). split; auto.
        assert (Hnot : ~ In v0 S).
        { intros Hv. destruct (HSv v0 Hv) as (_ & A & _). destruct (proj1 (HLd v0) (or_introl eq_refl)). congruence. }
        split; [now constructor|]. split; [simpl; congruence|].
        assert (Hst : forall v, key (D v) <= k -> ~ (key (Dn v) < key (D v))).
        { intros v Hv Hlt. pose proof (r_k R v Hlt). cbv beta in *. lia. }
        intros v [<-|Hv].
        * assert (Dv : key (D v0) = k) by (now apply HLd; left). split; [apply HLv; now left|]. split; [|pose proof (r_le R v0); cbv beta in *; lia].
          destruct (due' v0) eqn:E2; auto. apply Hdue' in E2 as [[_ E2]|E2]; [exfalso; apply E2; now left|]. exfalso. apply (Hst v0); auto. lia.
        * destruct (HSv v Hv) as (A & B & C). split; auto. split; [|pose proof (r_le R v); cbv beta in *; lia].
          destruct (due' v) eqn:E2; auto. apply Hdue' in E2 as [[E2 _]|E2]; [congruence|]. exfalso. apply (Hst v); auto. lia.
  Qed.

  Lemma wp_correct D : wp_returns n outw src o half D -> widths_are n (zout outw) src (Z.of_nat inf) 0 (fun v => Z.of_nat (D v)).
  Proof.
    intros (r & s & fuel & s' & H & En0). destruct (wp_inv H) as (HD & _ & d & due & last & S & HI & _).
    assert (En : next_bucket true o fuel (ring_of n (null half) (mw + 1) (fun x => x) (fun v => key (D v))) s = Ret None s').
    { rewrite <- En0. symmetry. apply next_ext. intros v. now apply ring_key. }
    pose proof (@LI_end n outw src o (null half) (mw + 1) (fun x => x) Hsrc Hg Ho Htop kop kop_ge kop_mono _ s d due last fuel s' HI En) as HO.
    intros v Hv. destruct (HO v Hv) as [A B]. split; [|split; [lia|]].
    - destruct (Nat.eq_dec (D v) 0) as [->|Hne]; [now left|]. right. destruct (path_walk (A ltac:(unfold key; specialize (HD v); unfold valid in HD; destruct (Nat.eqb_spec (D v) inf); lia))) as (x & Hx & Vx & E).
      apply key_inj in E; auto. now rewrite E.
    - intros z Hz. destruct (walk_path Hz) as (x & -> & Vx & Hp). apply B in Hp. apply (proj1 (key_le Vx (HD v))) in Hp. lia.
  Qed.
  Lemma wp_rounds r D s : wp_loop n outw src o half r D s -> r <= n.
  Proof.
    intros H. destruct (wp_inv H) as (_ & _ & d & due & last & S & _ & HS & <- & HSv).
    rewrite <- (seq_length n 0). apply NoDup_incl_length; auto. intros v Hv. apply in_seq. destruct (HSv v Hv). lia.
  Qed.
  Lemma wp_progress r D s : wp_loop n outw src o half r D s ->
    wp_returns n outw src o half D \/ exists D' s', wp_loop n outw src o half (S r) D' s'.
  Proof.
    intros H. destruct (wp_inv H) as (HD & _ & d & due & last & S & HI & _). destruct (LI_answers Ho HI) as (fuel & [[k L]|] & s' & En).
    - right. destruct (@finishes outw half 0 L D ltac:(unfold wp_inf in *; lia) ltac:(unfold wp_inf in *; lia)) as (sched & Hs).
      do 2 eexists. eapply wp_round; [exact H| |exact Hs|apply Permutation_refl]. rewrite <- En. apply next_ext. intros v. now apply ring_key.
    - left. exists r, s, fuel, s'. split; auto. rewrite <- En. apply next_ext. intros v. now apply ring_key.
  Qed.
  Lemma wp_exists : exists D, wp_returns n outw src o half D.
  Proof.
    assert (H : forall j r D s, n - r < j -> wp_loop n outw src o half r D s -> exists D', wp_returns n outw src o half D').
    { induction j as [|j IH]; intros r D s Hj H; [lia|]. destruct (wp_progress H) as [Hr|(D' & s' & H')]; [eauto|].
      pose proof (wp_rounds H'). apply (IH (S r) D' s'); auto. lia. }
    eapply (H (S n) 0); [lia|apply wp_start].
  Qed.
End WPLoop.
