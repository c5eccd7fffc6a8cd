(* SSWidestPathBF: the calls of one round, and the loop. *)
From Coq Require Import ZArith Permutation.
From Verif Require Import Base ListUtil BKSpec BKProofs FASpec FAProofs BCWalks WPModel WPSpec.
Local Open Scope nat_scope.

Definition zgraph_ok (n : nat) (outw : nat -> list (nat * Z)) : Prop := forall v u w, v < n -> In (u, w) (outw v) -> u < n.
Lemma zcalls_In outw L s d w : In (s, d, w) (zcalls outw L) <-> In s L /\ In (d, w) (outw s).
Proof.
  unfold zcalls. rewrite in_flat_map. split.
  - intros (s0 & Hs & H). apply in_map_iff in H as ([u x] & E & H). injection E as <- <- <-. auto.
  - intros (Hs & H). exists s. split; auto. apply in_map_iff. exists (d, w). auto.
Qed.

Section Machine.
  Variable cs : list zcall.
  Lemma bexec_inv (I : bmem * list bpc -> Prop) :
    (forall m pcs i c p, I (m, pcs) -> nth_error cs i = Some c -> nth_error pcs i = Some p ->
       I (fst (bact m c p), lset pcs i (snd (bact m c p)))) ->
    forall sched st, I st -> I (bexec cs sched st).
  Proof.
    intros Hs. unfold bexec. induction sched as [|i sched IH]; intros st H; simpl; auto. apply IH. unfold bstep.
    destruct (nth_error cs i) as [c|] eqn:Ec; auto. destruct (nth_error (snd st) i) as [p|] eqn:Ep; auto.
    destruct st as [m pcs]. simpl in *. specialize (Hs m pcs i c p H Ec Ep). destruct (bact m c p). exact Hs.
  Qed.
End Machine.
Lemma bouts_In cs pcs v : In v (bouts cs pcs) <-> exists i c, nth_error cs i = Some c /\ nth_error pcs i = Some (BDone true) /\ snd (fst c) = v.
Proof.
  unfold bouts. revert pcs. induction cs as [|c cs IH]; intros [|p pcs]; simpl.
  - split; [tauto|]. intros ([|i] & c & H & _); discriminate.
  - split; [tauto|]. intros ([|i] & c & H & _); discriminate.
  - split; [tauto|]. intros ([|i] & c' & _ & H & _); discriminate.
  - rewrite in_app_iff, IH. split.
    + intros [H|(i & c' & H)]; [|exists (S i), c'; exact H]. exists 0, c. destruct p as [| | | |[|]]; try contradiction. destruct H as [H|[]]. auto.
    + intros ([|i] & c' & H1 & H2 & H3); [|right; exists i, c'; auto]. simpl in H1, H2. injection H1 as ->. injection H2 as ->. left. now left.
Qed.
Lemma bouts_NoDup cs pcs :
  (forall i j c c', nth_error cs i = Some c -> nth_error cs j = Some c' -> nth_error pcs i = Some (BDone true) -> nth_error pcs j = Some (BDone true) ->
     snd (fst c) = snd (fst c') -> i = j) -> NoDup (bouts cs pcs).
Proof.
  revert pcs. induction cs as [|c cs IH]; intros [|p pcs] H; try constructor. unfold bouts. simpl. fold (bouts cs pcs).
  assert (X : NoDup (bouts cs pcs)).
  { apply IH. intros i j c1 c2 A B C E F. enough (S i = S j) by lia. apply (H (S i) (S j) c1 c2); auto. }
  destruct p as [| | | |[|]]; auto. constructor; auto. intros Hin. apply bouts_In in Hin as (i & c' & A & B & C).
  enough (0 = S i) by discriminate. apply (H 0 (S i) c c'); auto.
Qed.

Section Round.
  Variable outw : nat -> list (nat * Z).
  Variable src : nat.
  Variable inf : Z.
  Variable F : list nat.
  Variable D : nat -> Z.
  Local Open Scope Z_scope.
  Notation ww := (wide_walk outw src inf).
  Notation cs := (zcalls outw F).
  Hypothesis HD : forall v, -1 <= D v.
  Hypothesis HS : forall v, D v = -1 \/ ww v (D v).
  Definition lo (c : zcall) : Z := Z.min (D (fst (fst c))) (snd c).
  Definition fits (c : zcall) (x : Z) : Prop := lo c <= x /\ (x <= -1 \/ ww (snd (fst c)) x).
  Definition pc_ok (m : bmem) (c : zcall) (p : bpc) : Prop :=
    let d := snd (fst c) in
    match p with
    | BStart => True
    | BLoad x => fits c x
    | BMax x v => fits c x /\ v < x
    | BCas => D d < fst m d /\ lo c <= fst m d
    | BDone true => lo c <= fst m d /\ D d < fst m d /\ snd m d = true
    | BDone false => lo c <= fst m d
    end.
  Definition rep (pcs : list bpc) (v i : nat) : Prop := exists c, nth_error cs i = Some c /\ nth_error pcs i = Some (BDone true) /\ snd (fst c) = v.
  Record BI (st : bmem * list bpc) : Prop := {
    i_len : length (snd st) = length cs;
    i_ge : forall v, D v <= fst (fst st) v;
    i_sound : forall v, fst (fst st) v = -1 \/ ww v (fst (fst st) v);
    i_pc : forall i c p, nth_error cs i = Some c -> nth_error (snd st) i = Some p -> pc_ok (fst st) c p;
    i_vis : forall v, snd (fst st) v = true -> exists i, rep (snd st) v i;
    i_one : forall v i j, rep (snd st) v i -> rep (snd st) v j -> i = j;
    i_pend : forall v, D v < fst (fst st) v -> snd (fst st) v = true \/ exists i c, nth_error cs i = Some c /\ snd (fst c) = v /\ nth_error (snd st) i = Some BCas }.
  Lemma pc_mono m m' c p : (forall v, fst m v <= fst m' v) -> (forall v, snd m v = true -> snd m' v = true) -> pc_ok m c p -> pc_ok m' c p.
  Proof.
    intros H1 H2. unfold pc_ok. pose proof (H1 (snd (fst c))). destruct p as [| | | |[|]]; auto; try lia. intros (A & B & C). split; [lia|]. split; [lia|]. auto.
  Qed.
  Lemma BI_step m pcs i c p : BI (m, pcs) -> nth_error cs i = Some c -> nth_error pcs i = Some p ->
    BI (fst (bact m c p), lset pcs i (snd (bact m c p))).
  Proof.
    intros HI Hc Hp. pose proof (i_pc HI _ Hc Hp) as Hpc. pose proof (i_ge HI) as Hge. pose proof (i_sound HI) as Hso. pose proof (i_vis HI) as Hvi. cbn [fst snd] in *.
    assert (Hi : (i < length pcs)%nat) by (apply nth_error_Some; congruence).
    set (d := snd (fst c)) in *.
    assert (Hgen : forall m' p', p <> BDone true -> (forall v, fst m v <= fst m' v) -> (forall v, fst m' v = -1 \/ ww v (fst m' v)) ->
       (forall v, snd m v = true -> snd m' v = true) -> pc_ok m' c p' ->
       (p' = BDone true /\ snd m d = false /\ (forall v, snd m' v = true -> v = d \/ snd m v = true) \/ p' <> BDone true /\ forall v, snd m' v = snd m v) ->
       (forall v, D v < fst m' v -> snd m' v = true \/ p' = BCas /\ v = d \/ D v < fst m v /\ (p = BCas -> v <> d)) ->
       BI (m', lset pcs i p')).
    { intros m' p' Hnp Hm Hs Hv Hok Hcase Hpend.
      assert (Hrep : forall v j, rep (lset pcs i p') v j <-> rep pcs v j \/ (j = i /\ v = d /\ p' = BDone true)).
      { intros v j. unfold rep. destruct (Nat.eq_dec i j) as [<-|Hne].
        - rewrite nth_error_lset_same by auto. split.
          + intros (c' & A & B & C). injection B as ->. right. rewrite Hc in A. injection A as <-. auto.
          + intros [(c' & A & B & C)|(_ & -> & ->)]; [rewrite Hp in B; injection B as ->; now destruct Hnp|]. exists c. auto.
        - rewrite nth_error_lset_other by auto. split; [auto|]. intros [A|(A & _)]; [auto|congruence]. }
      split; cbn [fst snd]; auto.
      - rewrite length_lset. apply (i_len HI).
      - intros v. specialize (Hge v). specialize (Hm v). lia.
      - intros j c' q Hc' Hq. destruct (Nat.eq_dec i j) as [<-|Hne].
        + rewrite nth_error_lset_same in Hq by auto. injection Hq as <-. rewrite Hc in Hc'. injection Hc' as <-. auto.
        + rewrite nth_error_lset_other in Hq by auto. eapply pc_mono; [exact Hm|exact Hv|]. apply (i_pc HI _ Hc' Hq).
      - intros v Hvv. destruct Hcase as [(-> & Hf & Hc1)|(Hne & Hc1)].
        + destruct (Hc1 v Hvv) as [->|Hc2]; [exists i; apply Hrep; auto|]. destruct (Hvi v Hc2) as (j & Hj). exists j. apply Hrep. auto.
        + rewrite Hc1 in Hvv. destruct (Hvi v Hvv) as (j & Hj). exists j. apply Hrep. auto.
      - intros v j1 j2 H1 H2. apply Hrep in H1, H2.
        assert (Hno : p' = BDone true -> forall j, ~ rep pcs d j).
        { intros Ep j (c' & A & B & C). pose proof (i_pc HI _ A B) as Y. simpl in Y. rewrite C in Y. destruct Hcase as [(_ & Hf & _)|(Hne & _)]; [|congruence]. destruct Y as (_ & _ & Y). congruence. }
        destruct H1 as [H1|(-> & -> & E1)], H2 as [H2|(-> & E2 & E3)]; auto.
        + eapply (i_one HI); eauto.
        + subst v. now apply Hno in H1.
        + now apply Hno in H2.
      - intros v Hvv. destruct (Hpend v Hvv) as [X|[(-> & ->)|[X Y]]]; auto.
        + right. exists i, c. split; auto. split; auto. now rewrite nth_error_lset_same.
        + destruct (i_pend HI X) as [Z|(j & c' & A & B & C)]; [left; apply Hv; exact Z|]. right. exists j, c'. split; auto. split; auto.
          rewrite nth_error_lset_other; auto. intros <-. cbn [snd] in C. rewrite Hp in C. injection C as ->. rewrite Hc in A. injection A as <-. now apply Y. }
    destruct p as [|x|x y| |b]; cbn [bact]; fold d; cbn [fst snd].
    - apply Hgen; try discriminate; auto; try (intros; lia).
      + unfold pc_ok, fits, lo. fold d. pose proof (Hge (fst (fst c))). split; [lia|]. destruct (Hso (fst (fst c))) as [E|E]; [rewrite E; lia|]. right.
        destruct c as [[s d0] w]. simpl in *. eapply wide_S; [exact E|]. apply nth_error_In in Hc. now apply zcalls_In in Hc.
      + right. split; auto. discriminate.
      + intros v Hv. right. right. split; auto. discriminate.
    - destruct (Z.ltb_spec (fst m d) x) as [Hlt|Hlt]; cbn [fst snd].
      + apply Hgen; try discriminate; auto; try (intros; lia).
        * split; auto.
        * right. split; auto. discriminate.
        * intros v Hv. right. right. split; auto. discriminate.
      + apply Hgen; try discriminate; auto; try (intros; lia).
        * destruct Hpc as [Hpc _]. unfold pc_ok. fold d. lia.
        * right. split; auto. discriminate.
        * intros v Hv. right. right. split; auto. discriminate.
    - destruct Hpc as [[Hlo Hww] Hxy]. destruct (Z.eqb_spec (fst m d) y) as [E|E]; cbn [fst snd].
      + assert (Hup : forall v, fst m v <= fset (fst m) d x v) by (intros v; unfold fset; destruct (Nat.eqb_spec v d) as [->|]; lia).
        apply Hgen; try discriminate; auto; cbn [fst snd].
        * intros v. unfold fset. destruct (Nat.eqb_spec v d) as [->|]; auto. right. destruct Hww as [Hw|Hw]; auto. specialize (Hge d). specialize (HD d). lia.
        * unfold pc_ok. fold d. cbn [fst]. rewrite fset_same. specialize (Hge d). lia.
        * right. split; auto. discriminate.
        * intros v Hv. destruct (Nat.eq_dec v d) as [->|Hne]; [right; left; auto|]. rewrite fset_other in Hv by auto. right. right. split; auto.
      + apply Hgen; try discriminate; auto; try (intros; lia).
        * split; auto.
        * right. split; auto. discriminate.
        * intros v Hv. right. right. split; auto. discriminate.
    - destruct Hpc as [Hpc1 Hpc2]. fold d in Hpc1, Hpc2. destruct (snd m d) eqn:Ev; cbn [fst snd].
      + apply Hgen; try discriminate; auto; try (intros; lia).
        * right. split; auto. discriminate.
        * intros v Hv. destruct (Nat.eq_dec v d) as [->|Hne]; auto.
      + assert (Hup : forall v, snd m v = true -> fset (snd m) d true v = true) by (intros v; unfold fset; destruct (Nat.eqb_spec v d) as [->|]; auto).
        apply Hgen; try discriminate; auto; cbn [fst snd]; try (intros; lia).
        * unfold pc_ok. fold d. cbn [fst snd]. rewrite fset_same. auto.
        * left. split; auto. split; auto. intros v. unfold fset. destruct (Nat.eqb_spec v d); auto.
        * intros v Hv. destruct (Nat.eq_dec v d) as [->|Hne]; [left; apply fset_same|auto].
    - cbn [fst snd]. replace (lset pcs i (BDone b)) with pcs; auto. apply list_ext_nth_error. intros j. destruct (Nat.eq_dec i j) as [<-|Hne].
      + now rewrite nth_error_lset_same.
      + now rewrite nth_error_lset_other.
  Qed.
  Lemma BI_start : BI ((D, fun _ => false), repeat BStart (length cs)).
  Proof.
    assert (Hno : forall v i, ~ rep (repeat BStart (length cs)) v i).
    { intros v i (c & _ & H & _). apply nth_error_In, repeat_spec in H. discriminate. }
    split; cbn [fst snd]; auto; try discriminate.
    - apply repeat_length.
    - intros v. lia.
    - intros i c p _ H. apply nth_error_In, repeat_spec in H. subst p. exact I.
    - intros v i j H. now apply Hno in H.
    - intros v H. lia.
  Qed.
  Lemma round_done sched vis out : (forall v, vis v = false) -> let st := bexec cs sched ((D, vis), repeat BStart (length cs)) in
    bdone (snd st) -> Permutation out (bouts cs (snd st)) -> let Dn := fst (fst st) in
    (forall v, D v <= Dn v) /\ (forall v, Dn v = -1 \/ ww v (Dn v)) /\ (forall s u w, In s F -> In (u, w) (outw s) -> Z.min (D s) w <= Dn u) /\
    NoDup out /\ (forall v, In v out <-> D v < Dn v) /\ (forall v, cleared (snd (fst st)) out v = false).
  Proof.
    intros Hvis st Hdone Hout Dn.
    assert (HI : BI st).
    { apply (bexec_inv cs BI); [intros m pcs i c p; apply BI_step|]. destruct BI_start as [A B C E G I J]. split; auto.
      - intros i c p H1 H2. specialize (E i c p H1 H2). cbn [fst snd] in *. apply nth_error_In, repeat_spec in H2. subst p. exact E.
      - cbn [fst snd]. intros v Hv. rewrite Hvis in Hv. discriminate.
      - cbn [fst snd]. intros v Hv. lia. }
    assert (HO : forall v, In v out <-> exists i, rep (snd st) v i).
    { intros v. split.
      - intros H. apply (Permutation_in _ Hout) in H. apply bouts_In in H as (i & c & A & B & C). exists i, c. auto.
      - intros (i & c & A & B & C). apply (Permutation_in _ (Permutation_sym Hout)). apply bouts_In. eauto. }
    assert (HV : forall v, snd (fst st) v = true <-> In v out).
    { intros v. rewrite HO. split; [apply (i_vis HI)|]. intros (i & c & A & B & C). pose proof (i_pc HI _ A B) as Y. simpl in Y. rewrite C in Y. tauto. }
    split; [apply (i_ge HI)|]. split; [apply (i_sound HI)|]. split; [|split; [|split]].
    - intros s u w Hs Hu. assert (Hc : In (s, u, w) cs) by (now apply zcalls_In). apply In_nth_error in Hc as (i & Hi). destruct (nth_error (snd st) i) as [p|] eqn:Ep.
      2:{ apply nth_error_None in Ep. rewrite (i_len HI) in Ep. assert (i < length cs)%nat by (apply nth_error_Some; congruence). lia. }
      pose proof (i_pc HI _ Hi Ep) as Y. pose proof (proj1 (Forall_forall _ _) Hdone p (nth_error_In _ _ Ep)) as Hp. destruct p as [| | | |[|]]; try contradiction; unfold pc_ok, lo in Y; cbn [fst snd] in Y; tauto.
    - apply (Permutation_NoDup (Permutation_sym Hout)), bouts_NoDup. intros i j c c' A B C E G. apply (i_one HI (v := snd (fst c))); [exists c|exists c']; auto.
    - intros v. split.
      + intros H. apply HO in H as (i & c & A & B & C). pose proof (i_pc HI _ A B) as Y. simpl in Y. rewrite C in Y. tauto.
      + intros H. apply HV. destruct (i_pend HI H) as [Y|(i & c & A & B & C)]; auto. pose proof (proj1 (Forall_forall _ _) Hdone _ (nth_error_In _ _ C)) as []. 
    - intros v. unfold cleared. destruct (snd (fst st) v) eqn:E; auto. simpl. apply Bool.negb_false_iff, existsb_exists. exists v. split; [now apply HV|apply Nat.eqb_refl].
  Qed.
End Round.
Section Finish.
  Variable cs : list zcall.
  Local Open Scope nat_scope.
  Fixpoint iter (k : nat) (m : bmem) (c : zcall) (p : bpc) : bmem * bpc :=
    match k with 0 => (m, p) | S k => let (m', p') := bact m c p in iter k m' c p' end.
  Lemma bexec_iter i c : nth_error cs i = Some c -> forall k m pcs p, nth_error pcs i = Some p ->
    bexec cs (repeat i k) (m, pcs) = (fst (iter k m c p), lset pcs i (snd (iter k m c p))).
  Proof.
    intros Hc. unfold bexec. induction k as [|k IH]; intros m pcs p Hp; cbn [repeat fold_left iter].
    - f_equal. apply list_ext_nth_error. intros j. destruct (Nat.eq_dec i j) as [<-|Hne].
      + rewrite nth_error_lset_same; auto. apply nth_error_Some. congruence.
      + now rewrite nth_error_lset_other.
    - unfold bstep at 2. cbn [fst snd]. rewrite Hc, Hp. destruct (bact m c p) as [m' p'] eqn:E.
      assert (Hi : i < length pcs) by (apply nth_error_Some; congruence).
      rewrite (IH m' (lset pcs i p') p') by (now rewrite nth_error_lset_same). f_equal. apply list_ext_nth_error. intros j. destruct (Nat.eq_dec i j) as [<-|Hne].
      + rewrite !nth_error_lset_same; auto. now rewrite length_lset.
      + now rewrite !nth_error_lset_other.
  Qed.
  Lemma bexec_length sched st : length (snd (bexec cs sched st)) = length (snd st).
  Proof.
    unfold bexec. revert st. induction sched as [|i sched IH]; intros st; simpl; auto. rewrite IH. unfold bstep.
    destruct (nth_error cs i); auto. destruct (nth_error (snd st) i); auto. destruct (bact (fst st) _ _). simpl. apply length_lset.
  Qed.
  (* alone, a call is over after four steps *)
  Lemma alone m c : exists r, snd (iter 4 m c BStart) = BDone r.
  Proof.
    cbn [iter bact]. destruct (fst m (snd (fst c)) <? _)%Z; cbn [iter bact]; [|eexists; reflexivity].
    rewrite Z.eqb_refl. cbn [iter bact fst snd]. destruct (snd m (snd (fst c))); simpl; eexists; reflexivity.
  Qed.
  Lemma finishes m0 : exists sched, bdone (snd (bexec cs sched (m0, repeat BStart (length cs)))).
  Proof.
    assert (H : forall j, j <= length cs -> exists sched, let st := bexec cs sched (m0, repeat BStart (length cs)) in
      (forall i, i < j -> exists r, nth_error (snd st) i = Some (BDone r)) /\ (forall i, j <= i -> i < length cs -> nth_error (snd st) i = Some BStart)).
    { induction j as [|j IH]; intros Hj.
      - exists []. split; [lia|]. intros i _ Hi. cbn [bexec fold_left snd]. destruct (nth_error (repeat BStart (length cs)) i) eqn:E.
        + apply nth_error_In, repeat_spec in E. congruence.
        + apply nth_error_None in E. rewrite repeat_length in E. lia.
      - destruct IH as (sched & H1 & H2); [lia|]. exists (sched ++ repeat j 4). cbv zeta. unfold bexec at 1 2. rewrite fold_left_app. fold (bexec cs sched (m0, repeat BStart (length cs))).
        destruct (bexec cs sched (m0, repeat BStart (length cs))) as [m pcs] eqn:E. cbn [fst snd] in *.
        assert (Hlen : length pcs = length cs).
        { pose proof (bexec_length sched (m0, repeat BStart (length cs))) as X. rewrite E in X. simpl in X. now rewrite repeat_length in X. }
        destruct (nth_error cs j) as [c|] eqn:Ec; [|apply nth_error_None in Ec; lia].
        fold (bexec cs (repeat j 4) (m, pcs)). rewrite (@bexec_iter j c Ec 4 m pcs BStart (H2 j ltac:(lia) ltac:(lia))). cbn [fst snd]. split.
        + intros i Hi. destruct (Nat.eq_dec j i) as [<-|Hne].
          * destruct (alone m c) as (r & Er). exists r. rewrite nth_error_lset_same by lia. now rewrite Er.
          * rewrite nth_error_lset_other by auto. apply H1. lia.
        + intros i Hi1 Hi2. rewrite nth_error_lset_other by lia. apply H2; lia. }
    destruct (H (length cs) (le_n _)) as (sched & H1 & _). exists sched. apply Forall_forall. intros p Hp.
    apply In_nth_error in Hp as (i & Hi). destruct (H1 i) as (r & Er).
    { assert (X : i < length (snd (bexec cs sched (m0, repeat BStart (length cs))))) by (apply nth_error_Some; congruence).
      rewrite bexec_length in X. simpl in X. now rewrite repeat_length in X. }
    cbv zeta in Er. rewrite Hi in Er. injection Er as ->. exact I.
  Qed.
End Finish.

Section Loop.
  Variable n : nat.
  Variable outw : nat -> list (nat * Z).
  Variable src : nat.
  Variable inf : Z.
  Hypothesis Hsrc : src < n.
  Hypothesis Hout : zgraph_ok n outw.
  Hypothesis Hinf : (-1 <= inf)%Z.
  Notation ww := (wide_walk outw src inf).
  (* walks with their number of edges *)
  Inductive wk : nat -> nat -> Z -> Prop :=
  | wk_0 : wk 0 src inf
  | wk_S : forall k v x u w, wk k v x -> In (u, w) (outw v) -> wk (S k) u (Z.min x w).
  Lemma wk_ww k v x : wk k v x -> ww v x.
  Proof. induction 1; [constructor|econstructor; eauto]. Qed.
  Lemma ww_wk v x : ww v x -> exists k, wk k v x.
  Proof. induction 1 as [|v x u w H [k IH] Hi]; [exists 0; constructor|]. exists (S k). econstructor; eauto. Qed.
  Lemma ww_inf v x : ww v x -> (x <= inf)%Z.
  Proof. induction 1; lia. Qed.
  Lemma ww_lt v x : ww v x -> v < n.
  Proof. induction 1 as [|v x u w H IH Hi]; auto. eapply Hout; eauto. Qed.
  Lemma short v x : ww v x -> exists k y, k < n /\ wk k v y /\ (x <= y)%Z.
  Proof.
    intros H. set (g := fun u => map fst (filter (fun e => (x <=? snd e)%Z) (outw u))).
    assert (Hg : forall u b, In b (g u) <-> exists w, In (b, w) (outw u) /\ (x <= w)%Z).
    { intros u b. unfold g. rewrite in_map_iff. split.
      - intros ([b' w] & <- & Hf). apply filter_In in Hf as (A & B). apply Z.leb_le in B. exists w. auto.
      - intros (w & A & B). exists (b, w). split; auto. apply filter_In. split; auto. now apply Z.leb_le. }
    assert (Hw : forall v y, ww v y -> (x <= y)%Z -> reachable g src v).
    { induction 1 as [|a y u w Ha IH Hi]; intros Hx; [exists 0; constructor|]. destruct IH as (k & Hk); [lia|]. exists (S k). econstructor; [exact Hk|]. apply Hg. exists w. split; auto. lia. }
    assert (Hb : forall k v, walk g src k v -> exists y, wk k v y /\ (x <= y)%Z).
    { induction 1 as [|k a b Ha (y & IH1 & IH2) Hi]; [exists inf; split; [constructor|apply (ww_inf H)]|]. apply Hg in Hi as (w & A & B). exists (Z.min y w). split; [econstructor; eauto|lia]. }
    destruct (dist_ex (Hw v x H ltac:(lia))) as (k & Hk).
    assert (Hk2 : k < n).
    { eapply (@dist_small g n); [|exact Hsrc|exact Hk]. intros a b Ha Hi. apply Hg in Hi as (w & Hi & _). eapply Hout; eauto. }
    destruct Hk as [Hk _]. apply Hb in Hk as (y & A & B). eauto.
  Qed.
  Record LI (r : nat) (m : bmem) (F : list nat) : Prop := {
    l_vis : forall v, snd m v = false;
    l_nd : NoDup F;
    l_ge : forall v, (-1 <= fst m v)%Z;
    l_sound : forall v, fst m v = (-1)%Z \/ ww v (fst m v);
    l_relax : forall v u w, ~ In v F -> In (u, w) (outw v) -> (Z.min (fst m v) w <= fst m u)%Z;
    l_short : forall k v x, wk k v x -> k <= r -> (x <= fst m v)%Z;
    l_new : forall v, In v F -> ww v (fst m v) /\ forall k x, wk k v x -> k < r -> (x < fst m v)%Z }.
  Lemma LI_loop r m F : wbf_loop n outw src inf r m F -> LI r m F.
  Proof.
    induction 1 as [|r m F sched out H IH HF Hr st Hdone Hperm].
    - assert (E : forall v, v <> src -> fset (fun _ : nat => (-1)%Z) src inf v = (-1)%Z) by (intros; now rewrite fset_other).
      split; cbn [fst snd]; auto.
      + repeat constructor. intros [].
      + intros v. destruct (Nat.eq_dec v src) as [->|Hne]; [rewrite fset_same; lia|rewrite E by auto; lia].
      + intros v. destruct (Nat.eq_dec v src) as [->|Hne]; [rewrite fset_same; right; constructor|rewrite E by auto; auto].
      + intros v u w Hv _. rewrite (E v) by (simpl in Hv; intuition). destruct (Nat.eq_dec u src) as [->|Hne]; [rewrite fset_same; lia|rewrite E by auto; lia].
      + intros k v x Hw Hk. inversion Hw; subst; [rewrite fset_same; lia|lia].
      + intros v [<-|[]]. split; [rewrite fset_same; constructor|intros; lia].
    - destruct m as [D vis]. pose proof (@round_done outw src inf F D (l_ge IH) (l_sound IH) sched vis out (l_vis IH)) as X. cbv zeta in X. fold st in X.
      destruct (X Hdone Hperm) as (A & B & C & E & G & I). clear X. cbn [fst snd] in *. set (Dn := fst (fst st)) in *.
      split; cbn [fst snd]; fold Dn; auto.
      + intros v. pose proof (l_ge IH v). specialize (A v). cbn [fst] in *. lia.
      + intros v u w Hv Hi. assert (Ev : Dn v = D v). { pose proof (A v). destruct (Z.eq_dec (Dn v) (D v)); auto. exfalso. apply Hv, G. lia. }
        rewrite Ev. destruct (in_dec Nat.eq_dec v F) as [HvF|HvF]; [now apply C|]. pose proof (l_relax IH v u w HvF Hi) as Y. cbn [fst] in Y. specialize (A u). lia.
      + intros k v x Hw Hk. inversion Hw as [|k' v' x' u w Hw' Hi]; subst.
        * pose proof (l_short IH wk_0 ltac:(lia)) as Y. cbn [fst] in Y. specialize (A src). lia.
        * pose proof (l_short IH Hw' ltac:(lia)) as Y. cbn [fst] in Y. destruct (in_dec Nat.eq_dec v' F) as [HvF|HvF].
          -- specialize (C v' v w HvF Hi). lia.
          -- pose proof (l_relax IH v' v w HvF Hi) as Y2. cbn [fst] in Y2. specialize (A v). lia.
      + intros v Hv. apply G in Hv. pose proof (l_ge IH v) as Y. cbn [fst] in Y. destruct (B v) as [Z|Z]; [lia|]. split; auto.
        intros k x Hw Hk. pose proof (l_short IH Hw ltac:(lia)) as Y2. cbn [fst] in Y2. lia.
  Qed.
  Lemma LI_end r m F : LI r m F -> r = n -> F = [].
  Proof.
    intros HI ->. destruct F as [|v F]; auto. exfalso. destruct (l_new HI v (or_introl eq_refl)) as (A & B).
    destruct (short A) as (k & y & Hk & Hw & Hy). specialize (B k y Hw Hk). lia.
  Qed.
  Lemma LI_optimal r m : LI r m [] -> widths_are n outw src inf (-1)%Z (fst m).
  Proof.
    intros HI v Hv. split; [apply (l_sound HI)|]. split; [apply (l_ge HI)|].
    induction 1 as [|a x u w Ha IHa Hi].
    - apply (l_short HI wk_0). lia.
    - specialize (IHa (ww_lt Ha)). pose proof (l_relax HI a u w (fun X => X) Hi). lia.
  Qed.
  Lemma wbf_rounds r m F : wbf_loop n outw src inf r m F -> r <= n.
  Proof. induction 1; lia. Qed.
  Lemma wbf_correct D broken : wbf_returns n outw src inf D broken -> broken = false /\ widths_are n outw src inf (-1)%Z D.
  Proof.
    intros (r & m & F & H & [(-> & -> & ->)|(HF & Hr & _)]).
    - split; auto. apply (@LI_optimal r). now apply LI_loop.
    - exfalso. apply HF. apply (LI_end (LI_loop H) Hr).
  Qed.
  Lemma wbf_progress r m F : wbf_loop n outw src inf r m F -> F = [] \/ exists m' F', wbf_loop n outw src inf (S r) m' F'.
  Proof.
    intros H. destruct F as [|v F]; auto. right. destruct (finishes (zcalls outw (v :: F)) m) as (sched & Hs).
    do 2 eexists. eapply wbf_round; [exact H|discriminate| |exact Hs|apply Permutation_refl].
    intros E. discriminate (LI_end (LI_loop H) E).
  Qed.
  Lemma wbf_exists : exists D, wbf_returns n outw src inf D false.
  Proof.
    assert (H : forall j r m F, n - r < j -> wbf_loop n outw src inf r m F -> exists D, wbf_returns n outw src inf D false).
    { induction j as [|j IH]; intros r m F Hj H; [lia|]. destruct (wbf_progress H) as [->|(m' & F' & H')].
      - exists (fst m), r, m, []. split; auto.
      - pose proof (wbf_rounds H'). apply (IH (S r) m' F'); auto. lia. }
    eapply (H (S n) 0); [lia|apply wbf_start].
  Qed.
End Loop.
