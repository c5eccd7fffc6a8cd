(* DeltaStepping: the calls of one round, and the loop. *)
From Coq Require Import Permutation.
From Verif Require Import Base ListUtil BKModel BKSpec BKProofs BKProps KCProofs WBModel WBSpec WBProofs.

Section Round.
  Variable outw : nat -> list (nat * nat).
  Variable src top k : nat.
  Variable bkt : nat -> nat.
  Variable L : list nat.
  Variable D : nat -> nat.
  Hypothesis Hmono : forall x y, x <= y -> bkt x <= bkt y.
  Hypothesis HD : forall v, D v <= top.
  Hypothesis HL : forall s, In s L -> k <= bkt (D s).
  Hypothesis HP : forall v, D v < top -> wpath outw src v (D v).
  Local Notation cs := (calls outw L).

  Definition dpc_ok (m : dmem) (c : call) (p : dpc) : Prop :=
    let d := c_dst c in let b := D (c_src c) + c_wgh c in
    let good nd := nd <= b /\ wpath outw src d nd /\ k <= bkt nd in
    match p with
    | DStart | DOverflow => True
    | DSource dist => fst m d <= dist /\ dist <= D d
    | DLoad dist nd => good nd /\ nd < dist /\ dist <= D d
    | DMin dist nd v => good nd /\ nd < dist /\ dist <= D d /\ nd < v
    | DFlag dist | DCas dist => fst m d <= b /\ fst m d < dist /\ dist <= D d
    | DDone (Some dist) => fst m d <= b /\ fst m d < dist /\ dist <= D d /\ snd m d = true
    | DDone None => fst m d <= b
    end.
  Definition dreported (pcs : list dpc) (v i : nat) : Prop :=
    exists c p, nth_error cs i = Some c /\ nth_error pcs i = Some (DDone (Some p)) /\ c_dst c = v.
  Definition pending (pcs : list dpc) (v i : nat) : Prop :=
    exists c p, nth_error cs i = Some c /\ (nth_error pcs i = Some (DFlag p) \/ nth_error pcs i = Some (DCas p)) /\ c_dst c = v.
  Record DI (st : dmem * list dpc) : Prop := {
    d_len : length (snd st) = length cs;
    d_le : forall v, fst (fst st) v <= D v;
    d_low : forall v, fst (fst st) v < D v -> wpath outw src v (fst (fst st) v) /\ k <= bkt (fst (fst st) v);
    d_pc : forall i c p, nth_error cs i = Some c -> nth_error (snd st) i = Some p -> dpc_ok (fst st) c p;
    d_flag : forall v, snd (fst st) v = true -> exists i, dreported (snd st) v i;
    d_one : forall v i j, dreported (snd st) v i -> dreported (snd st) v j -> i = j;
    d_mark : forall v, fst (fst st) v < D v -> snd (fst st) v = true \/ exists i, pending (snd st) v i }.

  Lemma dpc_lower m m' c p : (forall v, fst m' v <= fst m v) -> (forall v, snd m v = true -> snd m' v = true) ->
    dpc_ok m c p -> dpc_ok m' c p.
  Proof.
    intros H1 H2. specialize (H1 (c_dst c)). specialize (H2 (c_dst c)). destruct p as [|x|x nd|x nd v|x|x|[r|]|]; simpl; intros; intuition lia.
  Qed.

  Lemma DI_step m pcs i c p : DI (m, pcs) -> nth_error cs i = Some c -> nth_error pcs i = Some p ->
    DI (fst (dact top m c p), lset pcs i (snd (dact top m c p))).
  Proof.
    intros HI Hc Hp. pose proof (d_pc HI _ Hc Hp) as Hpc. cbn [fst snd] in *.
    assert (Hi : i < length pcs) by (apply nth_error_Some; congruence).
    assert (Hin : In c cs) by (apply nth_error_In with (1 := Hc)). pose proof (proj1 (calls_In _ _ _) Hin) as [HcL HcE].
    set (d := c_dst c) in *.
    assert (Hone : nth_error (lset pcs i (snd (dact top m c p))) i = Some (snd (dact top m c p))) by now apply nth_error_lset_same.
    (* reports and pending calls of the others stay *)
    assert (Hother : forall v j q, j <> i -> dreported (lset pcs i q) v j <-> dreported pcs v j).
    { intros v j q Hne. unfold dreported. rewrite nth_error_lset_other by auto. tauto. }
    assert (Hothp : forall v j q, j <> i -> pending (lset pcs i q) v j <-> pending pcs v j).
    { intros v j q Hne. unfold pending. rewrite nth_error_lset_other by auto. tauto. }
    assert (Hself : forall v q, dreported (lset pcs i q) v i <-> v = d /\ exists x, q = DDone (Some x)).
    { intros v q. unfold dreported. rewrite nth_error_lset_same by auto. split.
      - intros (c' & x & A & B & C). rewrite Hc in A. injection A as <-. split; auto. exists x. congruence.
      - intros (-> & x & ->). exists c, x. auto. }
    assert (Hselfp : forall v q, pending (lset pcs i q) v i <-> v = d /\ exists x, q = DFlag x \/ q = DCas x).
    { intros v q. unfold pending. rewrite nth_error_lset_same by auto. split.
      - intros (c' & x & A & B & C). rewrite Hc in A. injection A as <-. split; auto. exists x. destruct B as [B|B]; injection B as ->; auto.
      - intros (-> & x & [->| ->]); exists c, x; auto. }
    assert (Hownr : forall v, dreported pcs v i <-> v = d /\ exists x, p = DDone (Some x)).
    { intros v. unfold dreported. rewrite Hp. split.
      - intros (c' & x & A & B & C). rewrite Hc in A. injection A as <-. split; auto. exists x. congruence.
      - intros (-> & x & ->). exists c, x. auto. }
    assert (Hownp : forall v, pending pcs v i -> v = d /\ exists x, p = DFlag x \/ p = DCas x).
    { intros v (c' & x & A & B & C). rewrite Hc in A. injection A as <-. split; auto. exists x. rewrite Hp in B. destruct B as [B|B]; injection B as ->; auto. }
    (* a general step: memory m', next pc q *)
    assert (Hgen : forall m' q,
      (forall v, fst m' v <= fst m v) -> (forall v, snd m v = true -> snd m' v = true) ->
      (forall v, v <> d -> fst m' v = fst m v /\ snd m' v = snd m v) ->
      dpc_ok m' c q ->
      (fst m' d < D d -> wpath outw src d (fst m' d) /\ k <= bkt (fst m' d)) ->
      (* reports *)
      ((exists x, q = DDone (Some x)) -> (exists x, p = DDone (Some x)) \/ snd m d = false) ->
      ((exists x, p = DDone (Some x)) -> q = p) ->
      (snd m' d = true -> snd m d = true \/ exists x, q = DDone (Some x)) ->
      (fst m' d < D d -> snd m' d = true \/ (exists x, q = DFlag x \/ q = DCas x) \/ (fst m d < D d /\ forall x, p <> DFlag x /\ p <> DCas x)) ->
      DI (m', lset pcs i q)).
    { intros m' q Hle Hfl Hframe Hok Hlow Hrep1 Hrep2 Hflag Hmark.
      assert (Hnof : snd m d = false -> forall j, ~ dreported pcs d j).
      { intros E j (c' & x & A & B & C). pose proof (d_pc HI _ A B) as Y. simpl in Y. rewrite C in Y. destruct Y as (_ & _ & _ & Y). congruence. }
      split; cbn [fst snd].
      - rewrite length_lset. apply (d_len HI).
      - intros v. etransitivity; [apply Hle|apply (d_le HI)].
      - intros v Hv. destruct (Nat.eq_dec v d) as [->|Hne]; [auto|]. destruct (Hframe v Hne) as [E _]. rewrite E in *. now apply (d_low HI).
      - intros j c' q' Hc' Hq. destruct (Nat.eq_dec j i) as [->|Hne].
        + rewrite nth_error_lset_same in Hq by auto. injection Hq as <-. rewrite Hc in Hc'. injection Hc' as <-. auto.
        + rewrite nth_error_lset_other in Hq by auto. eapply dpc_lower; [exact Hle|exact Hfl|]. apply (d_pc HI _ Hc' Hq).
      - intros v Hv. destruct (Nat.eq_dec v d) as [->|Hne].
        + destruct (Hflag Hv) as [H|H]; [|exists i; now apply Hself]. destruct (d_flag HI d H) as (j & Hj). exists j.
          destruct (Nat.eq_dec j i) as [->|Hne]; [|now apply Hother]. apply Hself. split; auto. apply Hownr in Hj as [_ (x & Hj)]. exists x. rewrite <- Hj. apply Hrep2. eauto.
        + destruct (Hframe v Hne) as [_ E]. rewrite E in Hv. destruct (d_flag HI v Hv) as (j & Hj). exists j.
          destruct (Nat.eq_dec j i) as [->|Hne2]; [|now apply Hother]. apply Hownr in Hj as [-> _]. congruence.
      - intros v j1 j2 H1 H2. destruct (Nat.eq_dec j1 i) as [->|N1], (Nat.eq_dec j2 i) as [->|N2]; auto.
        + apply Hself in H1 as [-> H1]. apply Hother in H2; auto. destruct (Hrep1 H1) as [(x & X)|X]; [|exfalso; eapply Hnof; eauto].
          eapply (d_one HI); eauto. apply Hownr. eauto.
        + apply Hself in H2 as [-> H2]. apply Hother in H1; auto. destruct (Hrep1 H2) as [(x & X)|X]; [|exfalso; eapply Hnof; eauto].
          eapply (d_one HI); eauto. apply Hownr. eauto.
        + apply Hother in H1, H2; auto. eapply (d_one HI); eauto.
      - intros v Hv. destruct (Nat.eq_dec v d) as [->|Hne].
        + destruct (Hmark Hv) as [H|[H|[H Hq]]]; [auto|right; exists i; now apply Hselfp|].
          destruct (d_mark HI H) as [F|(j & Hj)]; [left; auto|]. right. exists j. destruct (Nat.eq_dec j i) as [->|Hne]; [|now apply Hothp].
          apply Hownp in Hj as [_ (x & [Hj|Hj])]; exfalso; destruct (Hq x); congruence.
        + destruct (Hframe v Hne) as [E1 E2]. rewrite E1 in Hv. rewrite E2. destruct (d_mark HI Hv) as [F|(j & Hj)]; [auto|].
          right. exists j. destruct (Nat.eq_dec j i) as [->|Hne2]; [|now apply Hothp]. apply Hownp in Hj as [-> _]. congruence. }
    pose proof (d_le HI d) as Hled. pose proof (fun X => d_low HI (v := d) X) as Hlowd. cbn [fst snd] in Hled, Hlowd.
    destruct p as [|x|x nd|x nd y|x|x|r|]; cbn [dact]; fold d.
    - apply Hgen; auto; try (intros (? & ?); discriminate). simpl. fold d. lia.
      intros H. right. right. split; auto. intros; split; discriminate.
    - cbn [snd fst]. simpl in Hpc. fold d in Hpc. set (nd := fst m (c_src c) + c_wgh c).
      assert (Hsv : fst m (c_src c) <= D (c_src c)) by (apply (d_le HI)).
      destruct (top <? nd) eqn:Et; [|destruct (nd <? x) eqn:E; [apply Nat.ltb_lt in E|apply Nat.ltb_ge in E]].
      + apply Hgen; auto; try (intros (? & ?); discriminate). exact I. intros H. right. right. split; auto. intros; split; discriminate.
      + apply Hgen; auto; try (intros (? & ?); discriminate).
        * simpl. fold d. assert (Hns : fst m (c_src c) < top) by (pose proof (HD d); unfold nd in E; lia).
          assert (Hps : wpath outw src (c_src c) (fst m (c_src c)) /\ k <= bkt (fst m (c_src c))).
          { destruct (Nat.lt_ge_cases (fst m (c_src c)) (D (c_src c))) as [X|X]; [now apply (d_low HI)|].
            replace (fst m (c_src c)) with (D (c_src c)) in * by lia. split; [apply HP; lia|now apply HL]. }
          destruct Hps as [Hps Hk]. repeat split; auto; try lia.
          -- unfold nd. eapply wpath_S; eauto.
          -- transitivity (bkt (fst m (c_src c))); auto. apply Hmono. unfold nd. lia.
        * intros H. right. right. split; auto. intros; split; discriminate.
      + apply Hgen; auto; try (intros (? & ?); discriminate).
        * simpl. fold d. unfold nd in E. lia.
        * intros H. right. right. split; auto. intros; split; discriminate.
    - simpl in Hpc. fold d in Hpc. destruct Hpc as (Hgood & H1 & H2). cbn [fst snd]. destruct (nd <? fst m d) eqn:E; [apply Nat.ltb_lt in E|apply Nat.ltb_ge in E].
      + apply Hgen; auto; try (intros (? & ?); discriminate).
        * simpl. fold d. auto.
        * intros H. right. right. split; auto. intros; split; discriminate.
      + apply Hgen; auto; try (intros (? & ?); discriminate).
        * simpl. fold d. destruct Hgood. lia.
        * intros H. right. left. eauto.
    - simpl in Hpc. fold d in Hpc. destruct Hpc as ((G1 & G2 & G3) & H1 & H2 & H3). destruct (Nat.eqb_spec (fst m d) y) as [E|E]; cbn [fst snd].
      + apply Hgen; cbn [fst snd]; auto; try (intros (? & ?); discriminate).
        * intros v. unfold fset. destruct (Nat.eqb_spec v d) as [->|]; lia.
        * intros v Hne. now rewrite fset_other.
        * simpl. fold d. rewrite fset_same. lia.
        * rewrite fset_same. auto.
        * intros _. right. left. eauto.
      + apply Hgen; auto; try (intros (? & ?); discriminate).
        * simpl. fold d. auto.
        * intros H. right. right. split; auto. intros; split; discriminate.
    - simpl in Hpc. fold d in Hpc. cbn [fst snd]. destruct (snd m d) eqn:E.
      + apply Hgen; auto; try (intros (? & ?); discriminate). simpl. fold d. lia.
      + apply Hgen; auto; try (intros (? & ?); discriminate). congruence. intros _. right. left. eauto.
    - simpl in Hpc. fold d in Hpc. destruct (snd m d) eqn:E; cbn [fst snd].
      + apply Hgen; auto; try (intros (? & ?); discriminate). simpl. fold d. lia.
      + apply Hgen; cbn [fst snd]; auto; try (intros (? & ?); discriminate).
        * intros v Hv. unfold fset. destruct (v =? d); auto.
        * intros v Hne. now rewrite fset_other.
        * simpl. fold d. rewrite fset_same. intuition lia.
        * intros _. right. eauto.
        * intros _. left. apply fset_same.
    - cbn [fst snd]. apply Hgen; auto.
      intros H. right. right. split; auto. intros; split; discriminate.
    - cbn [fst snd]. apply Hgen; auto; try (intros (? & ?); discriminate). intros H. right. right. split; auto. intros; split; discriminate.
  Qed.

  Variable F : nat -> bool.
  Hypothesis HF : forall v, F v = false.
  Lemma DI_start : DI ((D, F), repeat DStart (length cs)).
  Proof.
    assert (Hno : forall v i, ~ dreported (repeat DStart (length cs)) v i).
    { intros v i (c & p & _ & H & _). apply nth_error_In, repeat_spec in H. discriminate. }
    split; cbn [fst snd].
    - apply repeat_length.
    - auto.
    - intros v H. lia.
    - intros i c p _ H. apply nth_error_In, repeat_spec in H. subst p. exact I.
    - intros v Hv. rewrite HF in Hv. discriminate.
    - intros v i j H. now apply Hno in H.
    - intros v H. lia.
  Qed.
  Lemma DI_exec sched : DI (exec (dact top) cs sched ((D, F), repeat DStart (length cs))).
  Proof. apply (exec_inv (dact top)); [|apply DI_start]. intros m pcs i c p. apply DI_step. Qed.

  (* 103-109 *)
  Lemma dapplied_ok o null s res : forall m l, NoDup (map fst res) ->
    let X := fold_left (ds_apply o null top bkt s) res (m, l) in
    fst (fst X) = fst m /\
    (forall v, snd (fst X) v = if in_dec Nat.eq_dec v (map fst res) then false else snd m v) /\
    snd X = l ++ dests o null top bkt s (fst m) res.
  Proof.
    induction res as [|[u x] res IH]; intros m l Hnd.
    - cbn. split; auto. split; auto. now rewrite app_nil_r.
    - cbn [fold_left ds_apply map fst snd] in *. inversion Hnd as [|? ? Hnot Hnd']; subst.
      destruct (IH (fst m, fset (snd m) u false) (l ++ [(u, get_bucket2 true o null s (ds_bkt null top bkt x) (ds_bkt null top bkt (fst m u)))]) Hnd') as (A & B & C).
      split; [exact A|]. split.
      + intros v. rewrite B. cbn [fst snd]. destruct (in_dec Nat.eq_dec v (map fst res)) as [H1|H1]; destruct (in_dec Nat.eq_dec v (u :: map fst res)) as [H2|H2]; auto.
        * exfalso. apply H2. now right.
        * destruct H2 as [<-|H2]; [now rewrite fset_same|contradiction].
        * rewrite fset_other; auto. intros ->. apply H2. now left.
      + etransitivity; [exact C|]. now rewrite <- app_assoc.
  Qed.

  (* the end of a round, whatever the interleaving *)
  Lemma dround_done sched res : let st := exec (dact top) cs sched ((D, F), repeat DStart (length cs)) in
    all_done dresult (snd st) -> Permutation res (outputs dresult cs (snd st)) ->
    NoDup (map fst res) /\
    (forall v, fst (fst st) v <= D v) /\
    (forall v, In v (map fst res) <-> fst (fst st) v < D v) /\
    (forall v, In v (map fst res) <-> snd (fst st) v = true) /\
    (forall v p, In (v, p) res -> fst (fst st) v < p /\ p <= D v) /\
    (forall v, fst (fst st) v < D v -> wpath outw src v (fst (fst st) v) /\ k <= bkt (fst (fst st) v)) /\
    (forall s u w, In s L -> In (u, w) (outw s) -> fst (fst st) u <= D s + w).
  Proof.
    intros st Hdone Hres. pose proof (DI_exec sched) as HI. fold st in HI.
    assert (Hout : forall v x, In (v, x) res <-> exists i c, nth_error cs i = Some c /\ nth_error (snd st) i = Some (DDone (Some x)) /\ c_dst c = v).
    { intros v x. split.
      - intros H. apply (Permutation_in _ Hres) in H. apply outputs_In in H as (i & c & p & A & B & C & E). exists i, c. destruct p; try discriminate. injection C as ->. auto.
      - intros (i & c & A & B & C). apply (Permutation_in _ (Permutation_sym Hres)). apply outputs_In. exists i, c, (DDone (Some x)). auto. }
    assert (Hfin : forall i p, nth_error (snd st) i = Some p -> exists r, p = DDone r).
    { intros i p Hp. pose proof (proj1 (Forall_forall _ _) Hdone p (nth_error_In _ _ Hp)) as X. destruct p; try (now destruct X). eauto. }
    assert (Hrep : forall v, In v (map fst res) <-> snd (fst st) v = true).
    { intros v. rewrite in_map_iff. split.
      - intros ([u x] & <- & H). apply Hout in H as (i & c & A & B & C). pose proof (d_pc HI _ A B) as Y. simpl in Y. rewrite C in Y. simpl. tauto.
      - intros H. destruct (d_flag HI v H) as (i & c & p & A & B & C). exists (v, p). split; auto. apply Hout. eauto. }
    assert (Hval : forall v p, In (v, p) res -> fst (fst st) v < p /\ p <= D v).
    { intros v p H. apply Hout in H as (i & c & A & B & C). pose proof (d_pc HI _ A B) as Y. simpl in Y. rewrite C in Y. tauto. }
    split; [|split; [|split; [|split; [|split; [|split]]]]]; auto.
    - apply (Permutation_NoDup (Permutation_map fst (Permutation_sym Hres))). apply outputs_NoDup.
      intros i j c c' p p' x y A B A' B' C C' E. destruct p; try discriminate. destruct p'; try discriminate. injection C as ->. injection C' as ->.
      apply (d_one HI (v := c_dst c)); [exists c, x|exists c', y]; auto.
    - apply (d_le HI).
    - intros v. split.
      + intros H. apply in_map_iff in H as ([u p] & <- & H). destruct (Hval _ _ H). simpl. lia.
      + intros H. destruct (d_mark HI H) as [X|(i & c & p & A & B & C)]; [now apply Hrep|].
        destruct B as [B|B]; destruct (Hfin _ _ B); discriminate.
    - apply (d_low HI).
    - intros s u w Hs Hu. assert (Hc : @In call (s, u, w) cs) by (apply calls_In; auto).
      apply In_nth_error in Hc as (i & Hi). destruct (nth_error (snd st) i) as [p|] eqn:Ep.
      2:{ apply nth_error_None in Ep. rewrite (d_len HI) in Ep. assert (i < length cs) by (apply nth_error_Some; congruence). lia. }
      pose proof (d_pc HI _ Hi Ep) as Y. destruct (Hfin _ _ Ep) as (r & ->). unfold dpc_ok in Y. unfold c_dst, c_src, c_wgh in Y. cbn [fst snd] in Y.
      destruct r; tauto.
  Qed.

  (* one call at a time *)
  Definition quiet (st : dmem * list dpc) : Prop :=
    length (snd st) = length cs /\
    (forall i p, nth_error (snd st) i = Some p -> match p with DStart | DDone _ | DOverflow => True | _ => False end) /\
    (forall v, snd (fst st) v = false -> fst (fst st) v = D v) /\
    (forall i c p, nth_error cs i = Some c -> nth_error (snd st) i = Some (DDone (Some p)) -> p = D (c_dst c)).
  Lemma quiet_call st i : quiet st -> quiet (exec (dact top) cs (repeat i 6) st).
  Proof.
    intros (H0 & H1 & H2 & H3). destruct st as [m pcs]. cbn [fst snd] in *. destruct (nth_error cs i) as [c|] eqn:Ec.
    2:{ assert (E : exec (dact top) cs (repeat i 6) (m, pcs) = (m, pcs)).
        { assert (E1 : step (dact top) cs (m, pcs) i = (m, pcs)) by (unfold step; now rewrite Ec). unfold exec. cbn [repeat fold_left]. now rewrite !E1. }
        rewrite E. repeat split; auto. }
    assert (Hi : i < length cs) by (apply nth_error_Some; congruence).
    destruct (nth_error pcs i) as [p|] eqn:Ep; [|apply nth_error_None in Ep; lia].
    rewrite (exec_iter (dact top) cs i Ec 6 m pcs Ep).
    assert (Hfix : forall q, snd (iter (dact top) 6 m c p) = q -> fst (iter (dact top) 6 m c p) = m -> (q = DDone None \/ q = DOverflow \/ q = p) ->
      quiet (fst (iter (dact top) 6 m c p), lset pcs i (snd (iter (dact top) 6 m c p)))).
    { intros q E1 E2 Hq. rewrite E1, E2. split; [cbn [snd]; now rewrite length_lset|]. split; [|split; auto]; cbn [fst snd].
      - intros j r. destruct (Nat.eq_dec i j) as [<-|Hne].
        + rewrite nth_error_lset_same by lia. intros X. injection X as <-. destruct Hq as [->|[->|Hq]]; auto. subst q. specialize (H1 i p Ep). now rewrite Hq.
        + rewrite nth_error_lset_other by auto. apply H1.
      - intros j c' x Hc' Hx. destruct (Nat.eq_dec i j) as [<-|Hne].
        + rewrite nth_error_lset_same in Hx by lia. injection Hx as Hx. destruct Hq as [->|[->|Hq]]; try discriminate. apply (H3 i); auto. congruence.
        + rewrite nth_error_lset_other in Hx by auto. apply (H3 j); auto. }
    assert (Hpc := H1 i p Ep). destruct p as [| | | | | |r|]; try contradiction.
    2:{ eapply Hfix; try reflexivity. auto. }
    2:{ eapply Hfix; try reflexivity. auto. }
    revert Hfix. unfold iter, dact. cbn [fst snd].
    destruct (top <? fst m (c_src c) + c_wgh c).
    { intros Hfix. eapply Hfix; try reflexivity. auto. }
    destruct (fst m (c_src c) + c_wgh c <? fst m (c_dst c)) eqn:E; [|intros Hfix; eapply Hfix; try reflexivity; auto].
    rewrite E, Nat.eqb_refl. cbn [fst snd]. intros _. set (nd := fst m (c_src c) + c_wgh c). destruct (snd m (c_dst c)) eqn:Ef; cbn [fst snd].
    - split; [cbn [snd]; now rewrite length_lset|]. split; [|split]; cbn [fst snd].
      + intros j r. destruct (Nat.eq_dec i j) as [<-|Hne]; [rewrite nth_error_lset_same by lia; intros X; now injection X as <-|rewrite nth_error_lset_other by auto; apply H1].
      + intros v Hv. rewrite fset_other; auto. intros ->. congruence.
      + intros j c' x Hc' Hx. destruct (Nat.eq_dec i j) as [<-|Hne]; [rewrite nth_error_lset_same in Hx by lia; discriminate|]. rewrite nth_error_lset_other in Hx by auto. apply (H3 j); auto.
    - split; [cbn [snd]; now rewrite length_lset|]. split; [|split]; cbn [fst snd].
      + intros j r. destruct (Nat.eq_dec i j) as [<-|Hne]; [rewrite nth_error_lset_same by lia; intros X; now injection X as <-|rewrite nth_error_lset_other by auto; apply H1].
      + intros v Hv. unfold fset in *. destruct (v =? c_dst c); [discriminate|auto].
      + intros j c' x Hc' Hx. destruct (Nat.eq_dec i j) as [<-|Hne].
        * rewrite nth_error_lset_same in Hx by lia. injection Hx as <-. rewrite Ec in Hc'. injection Hc' as <-. auto.
        * rewrite nth_error_lset_other in Hx by auto. apply (H3 j); auto.
  Qed.
  Lemma quiet_start : quiet ((D, F), repeat DStart (length cs)).
  Proof.
    split; [apply repeat_length|]. split; [|split]; cbn [fst snd]; auto.
    - intros i p H. apply nth_error_In, repeat_spec in H. now subst p.
    - intros i c p _ H. apply nth_error_In, repeat_spec in H. discriminate.
  Qed.
  Lemma quiet_reports order res : let st := exec (dact top) cs (flat_map (fun i => repeat i 6) order) ((D, F), repeat DStart (length cs)) in
    Permutation res (outputs dresult cs (snd st)) -> forall v p, In (v, p) res -> p = D v.
  Proof.
    intros st Hres. assert (HQ : quiet st).
    { assert (H : forall order st, quiet st -> quiet (exec (dact top) cs (flat_map (fun i => repeat i 6) order) st)).
      { clear. induction order as [|i order IH]; intros st H; auto. cbn [flat_map]. rewrite exec_app. apply IH. now apply quiet_call. }
      apply H, quiet_start. }
    intros v p H. apply (Permutation_in _ Hres), outputs_In in H as (i & c & q & A & B & C & <-). destruct HQ as (_ & _ & _ & HQ).
    destruct q; try discriminate. injection C as ->. eauto.
  Qed.
End Round.

(* -- no overflow ----------------------------------------------------------------------------------- *)
Section Fits.
  Variable outw : nat -> list (nat * nat).
  Variable src top : nat.
  Hypothesis Htop : 0 < top.
  Hypothesis Hfit : forall vs v x u w, spath outw src vs v x -> In (u, w) (outw v) -> x + w <= top.

  (* a walk without repetition along which the distances are up to date *)
  Inductive gw (m : nat -> nat) : list nat -> nat -> nat -> Prop :=
  | gw_0 : m src <= 0 -> gw m [src] src 0
  | gw_S : forall vs v x u w, gw m vs v x -> In (u, w) (outw v) -> ~ In u vs -> m u <= x + w -> gw m (u :: vs) u (x + w).
  Lemma gw_lower m m' vs v x : (forall u, m' u <= m u) -> gw m vs v x -> gw m' vs v x.
  Proof.
    intros H. induction 1 as [H0|vs v x u w _ IH Hin Hnot Hle]; [apply gw_0; specialize (H src); lia|eapply gw_S; eauto]. specialize (H u). lia.
  Qed.
  Lemma gw_in m vs v x u : gw m vs v x -> In u vs -> m u <= x.
  Proof.
    induction 1 as [H0|vs v x z w _ IH Hin Hnot Hle]; intros [<-|H]; auto; [contradiction|]. specialize (IH H). lia.
  Qed.
  Lemma gw_spath m vs v x : gw m vs v x -> spath outw src vs v x.
  Proof. induction 1; [apply spath_0|eapply spath_S; eauto]. Qed.
  Definition sound (m : nat -> nat) : Prop := forall v, m v <= top /\ (m v < top -> exists vs, gw m vs v (m v)).

  Definition fpc_ok (m : nat -> nat) (c : call) (p : dpc) : Prop :=
    match p with
    | DLoad _ nd => exists vs x, gw m vs (c_src c) x /\ nd = x + c_wgh c
    | DMin _ nd y => nd < y /\ exists vs x, gw m vs (c_src c) x /\ nd = x + c_wgh c
    | DOverflow => False
    | _ => True
    end.
  Lemma sound_step cs (Hcs : forall c, In c cs -> In (c_dst c, c_wgh c) (outw (c_src c)))
    (m : dmem) pcs i c p (HL : forall c, In c cs -> fst m (c_src c) < top) :
    sound (fst m) /\ (forall j c p, nth_error cs j = Some c -> nth_error pcs j = Some p -> fpc_ok (fst m) c p) ->
    nth_error cs i = Some c -> nth_error pcs i = Some p ->
    let r := dact top m c p in
    (forall v, fst (fst r) v <= fst m v) /\
    sound (fst (fst r)) /\ (forall j c p, nth_error cs j = Some c -> nth_error (lset pcs i (snd r)) j = Some p -> fpc_ok (fst (fst r)) c p).
  Proof.
    intros [HS HP] Hc Hp r. pose proof (HP _ _ _ Hc Hp) as Hpc. assert (Hin : In c cs) by (apply nth_error_In with (1 := Hc)).
    assert (Hi : i < length pcs) by (apply nth_error_Some; congruence).
    assert (Hgen : forall m' q, (forall v, m' v <= fst m v) -> sound m' -> fpc_ok m' c q ->
      forall j c' p', nth_error cs j = Some c' -> nth_error (lset pcs i q) j = Some p' -> fpc_ok m' c' p').
    { intros m' q Hle Hs Hq j c' p' Hc' Hp'. destruct (Nat.eq_dec i j) as [<-|Hne].
      - rewrite nth_error_lset_same in Hp' by auto. injection Hp' as <-. rewrite Hc in Hc'. injection Hc' as <-. auto.
      - rewrite nth_error_lset_other in Hp' by auto. specialize (HP _ _ _ Hc' Hp'). destruct p'; simpl in *; auto.
        + destruct HP as (vs & x & A & B). exists vs, x. split; auto. now apply gw_lower with (1 := Hle).
        + destruct HP as (Hy & vs & x & A & B). split; auto. exists vs, x. split; auto. now apply gw_lower with (1 := Hle). }
    assert (Hsame : forall q, fpc_ok (fst m) c q -> (forall v, fst m v <= fst m v) /\ sound (fst m) /\
      (forall j c' p', nth_error cs j = Some c' -> nth_error (lset pcs i q) j = Some p' -> fpc_ok (fst m) c' p')).
    { intros q Hq. split; auto. split; auto. apply Hgen; auto. }
    subst r. destruct p as [|x|x nd|x nd y|x|x|r|]; cbn [dact fst snd].
    - apply Hsame. exact I.
    - apply Hsame. destruct (HS (c_src c)) as [_ X]. destruct (X (HL _ Hin)) as (vs & Hvs).
      rewrite (proj2 (Nat.ltb_ge _ _) (@Hfit vs (c_src c) (fst m (c_src c)) (c_dst c) (c_wgh c) (gw_spath Hvs) (Hcs _ Hin))).
      destruct (_ <? x); simpl; auto. exists vs, (fst m (c_src c)). auto.
    - apply Hsame. destruct (nd <? fst m (c_dst c)) eqn:E; simpl; auto. apply Nat.ltb_lt in E. auto.
    - simpl in Hpc. destruct (Nat.eqb_spec (fst m (c_dst c)) y) as [E|E]; cbn [fst snd]; [|apply Hsame; apply Hpc].
      destruct Hpc as (Hy & vs & z & Hz & ->).
      assert (Hlt : z + c_wgh c < fst m (c_dst c)) by lia.
      assert (Hle : forall v, fset (fst m) (c_dst c) (z + c_wgh c) v <= fst m v).
        { intros v. unfold fset. destruct (Nat.eqb_spec v (c_dst c)) as [->|]; lia. }
        assert (Hs' : sound (fset (fst m) (c_dst c) (z + c_wgh c))).
        { intros v. destruct (Nat.eq_dec v (c_dst c)) as [->|Hne].
          - rewrite fset_same. split; [destruct (HS (c_dst c)); lia|]. intros _. exists (c_dst c :: vs). apply gw_S with (v := c_src c); auto.
            + now apply gw_lower with (1 := Hle).
            + intros X. pose proof (gw_in _ Hz X). lia.
            + now rewrite fset_same.
          - rewrite fset_other by auto. destruct (HS v) as [A B]. split; auto. intros X. destruct (B X) as (vs' & Hvs'). exists vs'. now apply gw_lower with (1 := Hle). }
      split; auto. split; auto. apply Hgen; auto. exact I.
    - apply Hsame. destruct (snd m (c_dst c)); exact I.
    - destruct (snd m (c_dst c)); cbn [fst snd]; now apply Hsame.
    - now apply Hsame.
    - now apply Hsame.
  Qed.

  (* alone, a call is over after six steps *)
  Lemma dalone m c : snd (iter (dact top) 6 m c DStart) = DOverflow \/ exists r, snd (iter (dact top) 6 m c DStart) = DDone r.
  Proof.
    unfold iter, dact. destruct (top <? _); [auto|]. cbn [fst snd].
    destruct (fst m (c_src c) + c_wgh c <? fst m (c_dst c)) eqn:E; [|simpl; eauto]. rewrite E, Nat.eqb_refl. cbn [fst snd].
    destruct (snd m (c_dst c)); simpl; eauto.
  Qed.
End Fits.

Lemma seq_done cs top (D : nat -> nat) (F : nat -> bool) :
  let st := exec (dact top) cs (flat_map (fun i => repeat i 6) (seq 0 (length cs))) ((D, F), repeat DStart (length cs)) in
  forall p, In p (snd st) -> p = DOverflow \/ exists r, p = DDone r.
Proof.
  intros st. assert (H : forall j, j <= length cs -> let st := exec (dact top) cs (flat_map (fun i => repeat i 6) (seq 0 j)) ((D, F), repeat DStart (length cs)) in
      length (snd st) = length cs /\
      (forall i p, i < j -> nth_error (snd st) i = Some p -> p = DOverflow \/ exists r, p = DDone r) /\
      (forall i, j <= i -> i < length cs -> nth_error (snd st) i = Some DStart)).
  { clear st. induction j as [|j IH]; intros Hj.
    - cbn. rewrite repeat_length. split; auto. split; [lia|]. intros i _ Hi. destruct (nth_error (repeat DStart (length cs)) i) eqn:E.
      + apply nth_error_In, repeat_spec in E. congruence.
      + apply nth_error_None in E. rewrite repeat_length in E. lia.
    - specialize (IH ltac:(lia)). rewrite seq_S, flat_map_app, exec_app. cbn [Nat.add]. cbv zeta in IH |- *.
      destruct (exec (dact top) cs (flat_map (fun i => repeat i 6) (seq 0 j)) ((D, F), repeat DStart (length cs))) as [m pcs]. cbn [fst snd] in IH.
      destruct IH as (IH0 & IH1 & IH2). cbn [flat_map]. rewrite app_nil_r.
      destruct (nth_error cs j) as [c|] eqn:Ec; [|apply nth_error_None in Ec; lia].
      rewrite (exec_iter (dact top) cs j Ec 6 m pcs (IH2 j ltac:(lia) ltac:(lia))). cbn [fst snd]. rewrite length_lset. split; auto. split.
      + intros i p Hi. destruct (Nat.eq_dec j i) as [<-|Hne].
        * rewrite nth_error_lset_same by lia. intros E. injection E as <-. apply dalone.
        * rewrite nth_error_lset_other by auto. apply IH1. lia.
      + intros i Hi1 Hi2. rewrite nth_error_lset_other by lia. apply IH2; lia. }
  destruct (H (length cs) (le_n _)) as (H0 & H1 & _). fold st in H0, H1. intros p Hp. apply In_nth_error in Hp as (i & Hi).
  apply (H1 i); auto. assert (i < length (snd st)) by (apply nth_error_Some; congruence). lia.
Qed.

Section DSLoop.
  Variable n : nat.
  Variable outw : nat -> list (nat * nat).
  Variable src o null top : nat.
  Variable bkt : nat -> nat.
  Hypothesis Hsrc : src < n.
  Hypothesis Hg : wgraph_ok n outw.
  Hypothesis Ho : 0 < o.
  Hypothesis Htop : 0 < top.
  Hypothesis Hnull : forall x, x < top -> bkt x < null.
  Hypothesis Hmono : forall x y, x <= y -> bkt x <= bkt y.
  Local Notation INV := (LI n outw src o null top bkt).
  Local Notation loop := (ds_loop n outw src o null top bkt).

  Local Notation honest := (WBSpec.honest null top bkt).

  (* every execution: distances are lengths of walks *)
  Lemma ds_sound ok r m s : loop ok r m s ->
    (forall v, snd m v = false) /\ (forall v, fst m v <= top) /\ (forall v, fst m v < top -> wpath outw src v (fst m v)) /\ fst m src = 0.
  Proof.
    clear Hsrc Hg Ho Hnull. induction 1 as [|r [D F] s fuel k L s' sched res H (HF & HD & HP & H0) En st Hdone Hres Hok X]; cbn [fst snd] in *.
    - unfold ds_init. cbn [fst snd]. split; auto. split; [intros v; destruct (v =? src); lia|]. split; [|now rewrite Nat.eqb_refl].
      intros v. destruct (Nat.eqb_spec v src) as [->|]; [constructor|lia].
    - destruct (@dround_done outw src top 0 bkt L D Hmono HD (fun _ _ => Nat.le_0_l _) HP F HF sched res Hdone Hres) as (Hnd & Hle & Hlow & Hfl & _ & Hp & _).
      destruct (@dapplied_ok top bkt o null s' res (fst st) [] Hnd) as (A & B & _). fold X in A, B. fold st in Hle, Hlow, Hfl, Hp. rewrite A.
      split.
      { intros v. rewrite B. destruct (in_dec Nat.eq_dec v (map fst res)) as [|Hn]; auto. rewrite Hfl in Hn. apply Bool.not_true_is_false. exact Hn. }
      split; [intros v; specialize (HD v); specialize (Hle v); fold st in Hle; lia|]. split; [|specialize (Hle src); fold st in Hle; lia].
      intros v Hv. fold st in Hp. destruct (Nat.lt_ge_cases (fst (fst st) v) (D v)) as [Hx|Hx]; [now apply Hp|].
      replace (fst (fst st) v) with (D v) in * by (specialize (Hle v); fold st in Hle; lia). auto.
  Qed.

  Definition weight (D : nat -> nat) (due : nat -> bool) : nat :=
    list_sum (map D (seq 0 n)) * (n + 1) + length (filter due (seq 0 n)).
  Lemma sum_lower (D D' : nat -> nat) l : (forall v, D' v <= D v) ->
    list_sum (map D' l) <= list_sum (map D l) /\ (forall v, In v l -> D' v < D v -> list_sum (map D' l) < list_sum (map D l)).
  Proof.
    intros H. induction l as [|x l [IH1 IH2]]; simpl; [split; [lia|tauto]|]. pose proof (H x). split; [lia|]. intros v [<-|Hv] Hlt; [lia|].
    specialize (IH2 v Hv Hlt). lia.
  Qed.

  Lemma ds_inv (ok : (nat -> nat) -> list call -> list nat -> list (nat * nat) -> Prop) r m s : (forall D cs sched res, ok D cs sched res -> honest D cs sched res) -> loop ok r m s ->
    exists d due last, INV (fst m) s d due last /\ weight (fst m) due + r <= n * top * (n + 1) + n.
  Proof.
    intros Hokh. induction 1 as [|r [D F] s fuel k L s' sched res H (d & due & last & HI & HW) En st Hdone Hres Hok X]; cbn [fst snd] in *.
    - pose proof (@LI_start n outw src o null top bkt Hsrc Ho Htop Hnull) as HI. do 3 eexists. split; [exact HI|].
      unfold weight. match goal with |- context [filter ?f ?l] => pose proof (filter_len_le f l) as Hlen end. rewrite seq_length in Hlen.
      assert (Hs : list_sum (map (fst (ds_init src top)) (seq 0 n)) <= n * top).
      { unfold ds_init. cbn [fst]. rewrite <- (seq_length n 0) at 2. generalize (seq 0 n). induction l as [|x l IH]; simpl; [lia|]. destruct (x =? src); lia. }
      apply Nat.mul_le_mono_r with (p := n + 1) in Hs. lia.
    - destruct (ds_sound H) as (HF & HD & HP & H0). cbn [fst snd] in *.
      destruct (@LI_next n outw src o null top bkt Hsrc Hg Ho Htop Hmono D s d due last fuel k L s' HI En) as (Hne & HLd & _ & Hlast & HLv).
      destruct (@dround_done outw src top k bkt L D Hmono HD (fun v Hv => eq_ind _ (fun x => x <= bkt (D v)) (le_n _) _ (proj2 (proj1 (HLd v) Hv))) HP F HF sched res Hdone Hres) as (Hnd & Hle & Hlow & Hfl & Hpv & Hp & Hrel).
      destruct (@dapplied_ok top bkt o null s' res (fst st) [] Hnd) as (A & B & C). fold X in A, B, C. fold st in Hle, Hlow, Hfl, Hpv, Hp, Hrel.
      assert (R : round_ok outw src null top bkt k L D (fst (fst st)) res).
      { split; auto.
        - intros v p Hin. exact (Hokh _ _ _ _ Hok v p Hin).
        - intros v Hv. now apply Hp.
        - intros v Hv. now apply Hp. }
      destruct (@LI_round n outw src o null top bkt Hsrc Hg Ho Htop Hnull Hmono D s d due last fuel k L s' (fst (fst st)) res HI En R) as (d' & due' & HI' & Hdue').
      rewrite A, C. cbn [app]. exists d', due', k. split; auto.
      enough (weight (fst (fst st)) due' < weight D due) by lia. unfold weight.
      destruct (@sum_lower D (fst (fst st)) (seq 0 n) Hle) as [Hs1 Hs2].
      pose proof (filter_len_le due' (seq 0 n)) as Hlen. rewrite seq_length in Hlen.
      destruct (existsb (fun v => fst (fst st) v <? D v) (seq 0 n)) eqn:Ex.
      + apply existsb_exists in Ex as (v & Hv & E). apply Nat.ltb_lt in E. specialize (Hs2 v Hv E). nia.
      + assert (Hno : forall v, v < n -> ~ fst (fst st) v < D v).
        { intros v Hv Hlt. assert (Et : existsb (fun v => fst (fst st) v <? D v) (seq 0 n) = true); [|congruence].
          apply existsb_exists. exists v. split; [apply in_seq; lia|now apply Nat.ltb_lt]. }
        assert (length (filter due' (seq 0 n)) < length (filter due (seq 0 n))); [|nia].
        destruct L as [|v0 L']; [congruence|]. destruct (proj1 (HLd v0) (or_introl eq_refl)) as [Hd0 _]. destruct (HLv v0 (or_introl eq_refl)) as [Hv0 _].
        rewrite (filter_split due' due (seq 0 n)).
        * enough (0 < length (filter (fun x => due x && negb (due' x)) (seq 0 n))) by lia.
          assert (Hin : In v0 (filter (fun x => due x && negb (due' x)) (seq 0 n))).
          { apply filter_In. split; [apply in_seq; lia|]. rewrite Hd0. destruct (due' v0) eqn:E; auto. apply Hdue' in E as [[_ E]|E]; [exfalso; apply E; now left|exfalso; now apply (Hno v0)]. }
          apply in_split in Hin as (l1 & l2 & Hin). rewrite Hin, app_length. simpl. lia.
        * intros v Hv E. apply Hdue' in E as [[E _]|E]; auto. exfalso. apply (Hno v); auto. apply in_seq in Hv. lia.
  Qed.

  Lemma ds_correct (ok : (nat -> nat) -> list call -> list nat -> list (nat * nat) -> Prop) D : (forall D cs sched res, ok D cs sched res -> honest D cs sched res) ->
    ds_returns n outw src o null top bkt ok D -> distances_are n outw src top D.
  Proof.
    intros Hok (r & m & s & fuel & s' & H & En & ->). destruct (ds_inv Hok H) as (d & due & last & HI & _). eapply (@LI_end n outw src o null top bkt); eauto.
  Qed.
  Lemma ds_rounds (ok : (nat -> nat) -> list call -> list nat -> list (nat * nat) -> Prop) r m s : (forall D cs sched res, ok D cs sched res -> honest D cs sched res) -> loop ok r m s -> r <= n * top * (n + 1) + n.
  Proof. intros Hok H. destruct (ds_inv Hok H) as (d & due & last & _ & HW). lia. Qed.

  (* one call at a time *)
  Definition one_at_a_time_honest (D : nat -> nat) (cs : list call) (sched : list nat) (res : list (nat * nat)) : Prop :=
    one_at_a_time D cs sched res /\ honest D cs sched res.
  Lemma ds_quiet r m s : loop one_at_a_time r m s -> loop one_at_a_time_honest r m s.
  Proof.
    induction 1 as [|r m s fuel k L s' sched res H IH En st Hdone Hres [order ->] X]; [constructor|].
    econstructor; eauto. split; [exists order; reflexivity|]. destruct (ds_sound H) as (HF & _). destruct m as [D F]. cbn [fst snd] in *.
    intros v p Hin. f_equal. exact (@quiet_reports outw top L D F order res Hres v p Hin).
  Qed.

  Hypothesis Hfit : forall vs v x u w, spath outw src vs v x -> In (u, w) (outw v) -> x + w <= top.
  Lemma ds_fits (ok : (nat -> nat) -> list call -> list nat -> list (nat * nat) -> Prop) r m s : (forall D cs sched res, ok D cs sched res -> honest D cs sched res) -> loop ok r m s -> sound outw src top (fst m).
  Proof.
    intros Hok. induction 1 as [|r [D F] s fuel k L s' sched res H IH En st Hdone Hres Ho' X]; cbn [fst snd] in *.
    - intros v. unfold ds_init. cbn [fst]. destruct (Nat.eqb_spec v src) as [->|]; split; try lia. intros _. exists [src]. apply gw_0. cbn. now rewrite Nat.eqb_refl.
    - destruct (ds_inv Hok H) as (d & due & last & HI & _). destruct (ds_sound H) as (HF & HD & HP & _). cbn [fst snd] in *.
      destruct (@LI_next n outw src o null top bkt Hsrc Hg Ho Htop Hmono D s d due last fuel k L s' HI En) as (_ & _ & _ & _ & HLv).
      destruct (@dround_done outw src top 0 bkt L D Hmono HD (fun _ _ => Nat.le_0_l _) HP F HF sched res Hdone Hres) as (Hnd & _).
      destruct (@dapplied_ok top bkt o null s' res (fst st) [] Hnd) as (A & _). fold X in A. rewrite A.
      assert (HE : (forall v, fst (fst st) v <= D v) /\ sound outw src top (fst (fst st)) /\
        (forall j c p, nth_error (calls outw L) j = Some c -> nth_error (snd st) j = Some p -> fpc_ok outw src (fst (fst st)) c p)); [|apply HE].
      apply (exec_inv (dact top) (calls outw L) (fun st => (forall v, fst (fst st) v <= D v) /\ sound outw src top (fst (fst st)) /\
        (forall j c p, nth_error (calls outw L) j = Some c -> nth_error (snd st) j = Some p -> fpc_ok outw src (fst (fst st)) c p))).
      + intros m pcs i c p (H1 & H2 & H3) Hc Hp. cbn [fst snd] in *.
        assert (HLm : forall c, In c (calls outw L) -> fst m (c_src c) < top).
        { intros c' Hc'. apply calls_In in Hc' as [Hc' _]. destruct (HLv _ Hc') as (_ & X1 & _). specialize (H1 (c_src c')). lia. }
        destruct (@sound_step outw src top Htop Hfit (calls outw L) (fun c Hc => proj2 (proj1 (calls_In _ _ _) Hc)) m pcs i c p HLm (conj H2 H3) Hc Hp) as (G1 & G2 & G3).
        split; [intros v; specialize (G1 v); specialize (H1 v); lia|]. split; auto.
      + cbn [fst snd]. split; auto. split; auto. intros j c p _ Hp. apply nth_error_In, repeat_spec in Hp. subst p. exact I.
  Qed.
  Lemma ds_progress r m s : loop one_at_a_time r m s ->
    ds_returns n outw src o null top bkt one_at_a_time (fst m) \/ exists m' s', loop one_at_a_time (S r) m' s'.
  Proof.
    intros H. pose proof (ds_quiet H) as Hq. assert (Hoh : forall D cs sched res, one_at_a_time_honest D cs sched res -> honest D cs sched res) by (intros ? ? ? ? [_ X]; exact X).
    destruct (ds_inv Hoh Hq) as (d & due & last & HI & _). destruct (LI_answers Ho HI) as (fuel & [[k L]|] & s' & En).
    2:{ left. exists r, m, s, fuel, s'. auto. }
    right. destruct m as [D F]. cbn [fst snd] in *. pose proof (ds_fits Hoh Hq) as HS. cbn [fst] in HS.
    destruct (@LI_next n outw src o null top bkt Hsrc Hg Ho Htop Hmono D s d due last fuel k L s' HI En) as (_ & _ & _ & _ & HLv).
    do 2 eexists. eapply ds_round with (sched := flat_map (fun i => repeat i 6) (seq 0 (length (calls outw L)))); [exact H|exact En| |apply Permutation_refl|eexists; reflexivity].
    apply Forall_forall. intros p Hp. destruct (@seq_done (calls outw L) top D F p Hp) as [->|(r' & ->)]; [|discriminate]. exfalso.
    set (st := exec (dact top) (calls outw L) (flat_map (fun i => repeat i 6) (seq 0 (length (calls outw L)))) ((D, F), repeat DStart (length (calls outw L)))) in *.
    assert (HE : (forall v, fst (fst st) v <= D v) /\ sound outw src top (fst (fst st)) /\
        (forall j c p, nth_error (calls outw L) j = Some c -> nth_error (snd st) j = Some p -> fpc_ok outw src (fst (fst st)) c p)).
    { apply (exec_inv (dact top) (calls outw L) (fun st => (forall v, fst (fst st) v <= D v) /\ sound outw src top (fst (fst st)) /\
        (forall j c p, nth_error (calls outw L) j = Some c -> nth_error (snd st) j = Some p -> fpc_ok outw src (fst (fst st)) c p))).
      + intros m pcs i c p (H1 & H2 & H3) Hc Hp'. cbn [fst snd] in *.
        assert (HLm : forall c, In c (calls outw L) -> fst m (c_src c) < top).
        { intros c' Hc'. apply calls_In in Hc' as [Hc' _]. destruct (HLv _ Hc') as (_ & X1 & _). specialize (H1 (c_src c')). lia. }
        destruct (@sound_step outw src top Htop Hfit (calls outw L) (fun c Hc => proj2 (proj1 (calls_In _ _ _) Hc)) m pcs i c p HLm (conj H2 H3) Hc Hp') as (G1 & G2 & G3).
        split; [intros v; specialize (G1 v); specialize (H1 v); lia|]. split; auto.
      + cbn [fst snd]. split; auto. split; auto. intros j c p _ Hp'. apply nth_error_In, repeat_spec in Hp'. subst p. exact I. }
    destruct HE as (_ & _ & HE). apply In_nth_error in Hp as (i & Hi).
    assert (Hlt : i < length (snd st)) by (apply nth_error_Some; congruence). unfold st in Hlt. rewrite exec_length in Hlt. simpl in Hlt. rewrite repeat_length in Hlt.
    destruct (nth_error (calls outw L) i) as [c|] eqn:Ec; [|apply nth_error_None in Ec; lia]. exact (HE _ _ _ Ec Hi).
  Qed.
  Lemma ds_exists : exists D, ds_returns n outw src o null top bkt one_at_a_time D.
  Proof.
    assert (Hoh : forall D cs sched res, one_at_a_time_honest D cs sched res -> honest D cs sched res) by (intros ? ? ? ? [_ X]; exact X).
    assert (H : forall j r m s, n * top * (n + 1) + n - r < j -> loop one_at_a_time r m s -> exists D', ds_returns n outw src o null top bkt one_at_a_time D').
    { induction j as [|j IH]; intros r m s Hj H; [lia|]. destruct (ds_progress H) as [Hr|(m' & s' & H')]; [eauto|].
      pose proof (ds_rounds Hoh (ds_quiet H')). apply (IH (S r) m' s'); auto. lia. }
    eapply (H _ 0); [constructor|apply ds_start].
  Qed.
End DSLoop.
