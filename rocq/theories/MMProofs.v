(* Proofs for C42: one call of eff_for. *)
From Coq Require Import Permutation Sorted.
From Verif Require Import Base ListUtil BKSpec BKProofs MIModel MIProofs MMModel MMSpec.

Section Step.
  Variable W : Type.
  Variable w0 : W.
  Variable E : list (medge W).
  Notation u := (fun i => eu (enth w0 E i)).
  Notation v := (fun i => ev (enth w0 E i)).
  Notation is_live := (is_live w0 E).
  Notation commit := (commit w0 E).
  Notation mm_round := (mm_round w0 E).

  Lemma reserve_fold stores : forall R x,
    let R' := fold_left reserve_loc stores R in
    (forall i, In (x, i) stores -> exists j, R' x = Some j /\ j <= i) /\
    (forall j0, R x = Some j0 -> exists j, R' x = Some j /\ j <= j0) /\
    (forall j, R' x = Some j -> In (x, j) stores \/ R x = Some j).
  Proof.
    induction stores as [|[y i0] st IH]; intros R x R'; simpl in R'.
    - split; [intros i []|]. split; eauto.
    - destruct (IH (reserve_loc R (y, i0)) x) as (A & B & C). fold R' in A, B, C.
      assert (HR : reserve_loc R (y, i0) x = if y =? x then match R x with Some j => if i0 <? j then Some i0 else Some j | None => Some i0 end else R x).
      { unfold reserve_loc. simpl. destruct (Nat.eqb_spec y x) as [->|N]; [apply fset_same|now apply fset_other; auto]. }
      split; [|split].
      + intros i [Ei|Hi]; [|auto]. injection Ei as -> ->. rewrite Nat.eqb_refl in HR. destruct (R x) as [j|].
        * destruct (Nat.ltb_spec i j); destruct (B _ HR) as (q & Hq & Hle); exists q; split; auto; lia.
        * auto.
      + intros j0 Hj. rewrite Hj in HR. destruct (y =? x); [|auto]. destruct (Nat.ltb_spec i0 j0); destruct (B _ HR) as (q & Hq & Hle); exists q; split; auto; lia.
      + intros j Hj. destruct (C j Hj) as [H|H]; [left; now right|]. rewrite HR in H. destruct (Nat.eqb_spec y x) as [->|N]; auto.
        destruct (R x) as [q|]; [|left; left; congruence]. destruct (i0 <? q); [left; left; congruence|auto].
  Qed.

  Section Round.
    Variable st : mstate.
    Variable I : list nat.
    Hypothesis Hnd : NoDup I.
    Hypothesis HR0 : forall x, mR st x = None.
    Notation lv := (filter (is_live (mM st)) I).
    Variables (stores : list (nat * nat)) (order : list nat).
    Hypothesis Hst : Permutation stores (flat_map (fun i => [(u i, i); (v i, i)]) lv).
    Hypothesis Hord : Permutation order lv.
    Notation R1 := (fold_left reserve_loc stores (mR st)).

    Lemma R1_min x i : In i lv -> u i = x \/ v i = x -> exists j, R1 x = Some j /\ j <= i.
    Proof.
      intros Hi Hx. destruct (reserve_fold stores (mR st) x) as (A & _). apply A. apply Permutation_in with (1 := Permutation_sym Hst).
      apply in_flat_map. exists i. split; auto. simpl. destruct Hx as [<-|<-]; auto.
    Qed.
    Lemma R1_in x j : R1 x = Some j -> In j lv /\ (u j = x \/ v j = x).
    Proof.
      intros H. destruct (reserve_fold stores (mR st) x) as (_ & _ & C). destruct (C j H) as [Hj|Hj]; [|now rewrite HR0 in Hj].
      apply (Permutation_in _ Hst) in Hj. apply in_flat_map in Hj as (i & Hi & Hj). simpl in Hj. destruct Hj as [Hj|[Hj|[]]]; injection Hj as E1 E2; rewrite <- E2; auto.
    Qed.
    Lemma lv_neq i : In i lv -> u i <> v i /\ mM st (u i) = false /\ mM st (v i) = false.
    Proof.
      intros H. apply filter_In in H as [_ H]. unfold MMModel.is_live in H. apply negb_true_iff, orb_false_iff in H as [H H3]. apply orb_false_iff in H as [H1 H2].
      apply Nat.eqb_neq in H3. auto.
    Qed.
    Definition winner (i : nat) : bool := oeq (R1 (u i)) i && oeq (R1 (v i)) i.
    Lemma oeq_spec a i : oeq a i = true <-> a = Some i.
    Proof. destruct a as [j|]; simpl; [rewrite Nat.eqb_eq; split; congruence|split; discriminate]. Qed.
    Lemma winner_spec i : winner i = true <-> R1 (u i) = Some i /\ R1 (v i) = Some i.
    Proof. unfold winner. now rewrite andb_true_iff, !oeq_spec. Qed.

    Lemma commit_fold o : incl o lv -> NoDup o ->
      exists st' won, fold_left commit o ({| mR := R1; mM := mM st; mmark := mmark st |}, []) = (st', won) /\
        (forall x, mR st' x = match R1 x with Some j => if mem j o then None else Some j | None => None end) /\
        (forall x, mM st' x = mM st x || existsb (fun i => winner i && ((u i =? x) || (v i =? x))) o) /\
        (forall i, mmark st' i = mmark st i || (mem i o && winner i)) /\
        (forall i, In i won <-> In i o /\ winner i = true).
    Proof.
      induction o as [|i o IH] using rev_ind; intros Hin Ho.
      - eexists _, _. split; [reflexivity|]. simpl. split; [intros x; now destruct (R1 x)|]. split; [intros; now rewrite orb_false_r|]. split; [intros; now rewrite orb_false_r|]. intuition.
      - destruct IH as (st' & won & Ef & A & B & C & D); [intros x Hx; apply Hin, in_app_iff; auto|apply NoDup_app_iff in Ho; tauto|].
        rewrite fold_left_app, Ef. cbn [fold_left]. assert (Hi : In i lv) by (apply Hin, in_app_iff; simpl; auto).
        assert (Hio : ~ In i o) by (apply NoDup_app_iff in Ho as (_ & _ & Ho); intros X; apply (Ho i X); simpl; auto).
        destruct (lv_neq i Hi) as (Hne & _ & _).
        assert (HR : forall x, oeq (mR st' x) i = oeq (R1 x) i).
        { intros x. rewrite A. destruct (R1 x) as [j|] eqn:Ej; auto. destruct (mem j o) eqn:Em; auto. simpl. symmetry. apply Nat.eqb_neq. intros ->. apply mem_In in Em. contradiction. }
        assert (Hm : forall j, mem j (o ++ [i]) = mem j o || (j =? i)) by (intros j; unfold mem; rewrite existsb_app; simpl; now rewrite orb_false_r).
        destruct st' as [R' M' k']. cbn [mR mM mmark] in *. unfold MMModel.commit. rewrite HR.
        assert (HR' : forall x, oeq (fset R' (v i) None x) i = if x =? v i then false else oeq (R1 x) i).
        { intros x. destruct (Nat.eqb_spec x (v i)) as [->|N]; [now rewrite fset_same|rewrite fset_other by auto; apply HR]. }
        rewrite HR'. destruct (Nat.eqb_spec (u i) (v i)) as [X|_]; [contradiction|]. rewrite HR.
        destruct (oeq (R1 (v i)) i) eqn:Ev; [destruct (oeq (R1 (u i)) i) eqn:Eu|destruct (oeq (R1 (u i)) i) eqn:Eu].
        + assert (Hw : winner i = true) by (unfold winner; now rewrite Ev, Eu). apply oeq_spec in Ev, Eu.
          eexists _, _. split; [reflexivity|]. cbn [mR mM mmark]. split; [|split; [|split]].
          * intros x. destruct (Nat.eq_dec x (u i)) as [->|N1]; [rewrite fset_same, Eu, Hm, Nat.eqb_refl; now rewrite orb_true_r|]. rewrite fset_other by auto.
            destruct (Nat.eq_dec x (v i)) as [->|N2]; [rewrite fset_same, Ev, Hm, Nat.eqb_refl; now rewrite orb_true_r|]. rewrite fset_other by auto. rewrite A.
            destruct (R1 x) as [j|] eqn:Ej; auto. rewrite Hm. destruct (Nat.eqb_spec j i) as [->|]; [|now rewrite orb_false_r].
            apply R1_in in Ej as [_ [X|X]]; congruence.
          * intros x. rewrite existsb_app. simpl. rewrite Hw, orb_false_r. simpl. destruct (Nat.eqb_spec (u i) x) as [<-|N1]; [rewrite fset_same; simpl; now rewrite !orb_true_r|].
            rewrite fset_other by auto. destruct (Nat.eqb_spec (v i) x) as [<-|N2]; [rewrite fset_same; simpl; now rewrite !orb_true_r|]. rewrite fset_other by auto. simpl. rewrite orb_false_r. apply B.
          * intros j. rewrite Hm. destruct (Nat.eqb_spec j i) as [->|N]; [rewrite fset_same, Hw, orb_true_r; simpl; now rewrite orb_true_r|]. rewrite fset_other by auto. now rewrite orb_false_r.
          * intros j. simpl. rewrite D, in_app_iff. simpl. split; [intros [<-|H]; tauto|intros [[H|[H|[]]] H2]; tauto].
        + assert (Hw : winner i = false) by (unfold winner; now rewrite Eu). apply oeq_spec in Ev.
          eexists _, _. split; [reflexivity|]. cbn [mR mM mmark]. split; [|split; [|split]].
          * intros x. destruct (Nat.eq_dec x (v i)) as [->|N2]; [rewrite fset_same, Ev, Hm, Nat.eqb_refl; now rewrite orb_true_r|]. rewrite fset_other by auto. rewrite A.
            destruct (R1 x) as [j|] eqn:Ej; auto. rewrite Hm. destruct (Nat.eqb_spec j i) as [->|]; [|now rewrite orb_false_r].
            assert (Hx := R1_in _ Ej). destruct Hx as [_ [X|X]]; [|congruence]. subst x. rewrite Ej in Eu. simpl in Eu. rewrite Nat.eqb_refl in Eu. discriminate.
          * intros x. rewrite existsb_app. simpl. rewrite Hw, !orb_false_r. apply B.
          * intros j. rewrite Hm. destruct (Nat.eqb_spec j i) as [->|N]; [|now rewrite orb_false_r]. rewrite C, Hw. now rewrite !andb_false_r.
          * intros j. rewrite D, in_app_iff. simpl. split; [tauto|]. intros [[H|[H|[]]] H2]; [tauto|congruence].
        + assert (Hw : winner i = false) by (unfold winner; now rewrite Ev, andb_false_r). apply oeq_spec in Eu.
          eexists _, _. split; [reflexivity|]. cbn [mR mM mmark]. split; [|split; [|split]].
          * intros x. destruct (Nat.eq_dec x (u i)) as [->|N2]; [rewrite fset_same, Eu, Hm, Nat.eqb_refl; now rewrite orb_true_r|]. rewrite fset_other by auto. rewrite A.
            destruct (R1 x) as [j|] eqn:Ej; auto. rewrite Hm. destruct (Nat.eqb_spec j i) as [->|]; [|now rewrite orb_false_r].
            assert (Hx := R1_in _ Ej). destruct Hx as [_ [X|X]]; [congruence|]. subst x. rewrite Ej in Ev. simpl in Ev. rewrite Nat.eqb_refl in Ev. discriminate.
          * intros x. rewrite existsb_app. simpl. rewrite Hw, !orb_false_r. apply B.
          * intros j. rewrite Hm. destruct (Nat.eqb_spec j i) as [->|N]; [|now rewrite orb_false_r]. rewrite C, Hw. now rewrite !andb_false_r.
          * intros j. rewrite D, in_app_iff. simpl. split; [tauto|]. intros [[H|[H|[]]] H2]; [tauto|congruence].
        + assert (Hw : winner i = false) by (unfold winner; now rewrite Ev, andb_false_r).
          eexists _, _. split; [reflexivity|]. cbn [mR mM mmark]. split; [|split; [|split]].
          * intros x. rewrite A. destruct (R1 x) as [j|] eqn:Ej; auto. rewrite Hm. destruct (Nat.eqb_spec j i) as [->|]; [|now rewrite orb_false_r].
            assert (Hx := R1_in _ Ej). destruct Hx as [_ [X|X]]; subst x; rewrite Ej in *; simpl in *; rewrite Nat.eqb_refl in *; discriminate.
          * intros x. rewrite existsb_app. simpl. rewrite Hw, !orb_false_r. apply B.
          * intros j. rewrite Hm. destruct (Nat.eqb_spec j i) as [->|N]; [|now rewrite orb_false_r]. rewrite C, Hw. now rewrite !andb_false_r.
          * intros j. rewrite D, in_app_iff. simpl. split; [tauto|]. intros [[H|[H|[]]] H2]; [tauto|congruence].
    Qed.
  End Round.

  Definition touches (i x : nat) : Prop := u i = x \/ v i = x.
  Definition share (i j : nat) : Prop := exists x, touches i x /\ touches j x.
  Lemma live_spec M i : is_live M i = true <-> u i <> v i /\ M (u i) = false /\ M (v i) = false.
  Proof.
    unfold MMModel.is_live. rewrite negb_true_iff, !orb_false_iff, Nat.eqb_neq. tauto.
  Qed.

  (* what a round does, whatever the schedule *)
  Lemma round_ok I st st' keep : NoDup I -> (forall x, mR st x = None) -> mm_round I st st' keep ->
    exists win : nat -> bool,
      (forall i, win i = true <-> In i I /\ is_live (mM st) i = true /\ forall j, In j I -> is_live (mM st) j = true -> share j i -> i <= j) /\
      (forall x, mR st' x = None) /\
      (forall x, mM st' x = true <-> mM st x = true \/ exists i, win i = true /\ touches i x) /\
      (forall i, mmark st' i = mmark st i || win i) /\
      keep = map (fun i => is_live (mM st) i && negb (win i)) I.
  Proof.
    intros Hnd HR0 (stores & order & won & Hst & Hord & Hf & Hk). set (lv := filter (is_live (mM st)) I) in *.
    destruct (@commit_fold st I HR0 stores Hst order) as (st1 & won1 & Hf1 & A & B & C & D).
    { intros x Hx. apply (Permutation_in _ Hord Hx). }
    { eapply Permutation_NoDup; [apply Permutation_sym; exact Hord|]. apply NoDup_filter'; auto. }
    rewrite Hf1 in Hf. injection Hf as -> ->. set (R1 := fold_left reserve_loc stores (mR st)) in *.
    assert (Hlv : forall i, In i order <-> In i I /\ is_live (mM st) i = true).
    { intros i. rewrite <- filter_In. fold lv. split; apply Permutation_in; auto. now apply Permutation_sym. }
    set (win := fun i => mem i order && winner st stores i).
    assert (Hw : forall i, win i = true <-> In i order /\ winner st stores i = true) by (intros i; unfold win; now rewrite andb_true_iff, mem_In).
    exists win. split; [|split; [|split; [|split]]].
    - intros i. rewrite Hw, Hlv. split.
      + intros [[Hi Hl] Hwin]. apply (winner_spec st stores) in Hwin as [H1 H2]. split; auto. split; auto.
        intros j Hj Hlj (x & Hxj & Hxi). destruct (@R1_min st I stores Hst x j) as (q & Hq & Hle); [now apply filter_In|exact Hxj|].
        destruct Hxi as [<-|<-]; congruence.
      + intros (Hi & Hl & Hmin). split; auto. apply (winner_spec st stores).
        assert (X : forall x, touches i x -> R1 x = Some i).
        { intros x Hx. destruct (@R1_min st I stores Hst x i) as (q & Hq & Hle); [now apply filter_In|exact Hx|].
          destruct (@R1_in st I HR0 stores Hst x q Hq) as [Hqi Hqx]. apply filter_In in Hqi as [Hqi Hql].
          specialize (Hmin q Hqi Hql (ex_intro _ x (conj Hqx Hx))). fold R1 in Hq. rewrite Hq. f_equal. lia. }
        split; apply X; [now left|now right].
    - intros x. rewrite A. fold R1. destruct (R1 x) as [j|] eqn:Ej; auto. destruct (@R1_in st I HR0 stores Hst x j Ej) as [Hj _]. apply filter_In in Hj.
      assert (mem j order = true) as -> by (apply mem_In, Hlv; exact Hj). reflexivity.
    - intros x. rewrite B, orb_true_iff, existsb_exists. split; intros [H|H]; auto; right.
      + destruct H as (i & Hi & H). apply andb_true_iff in H as [H1 H2]. exists i. split; [now apply Hw|]. apply orb_true_iff in H2. rewrite !Nat.eqb_eq in H2. exact H2.
      + destruct H as (i & Hi & Hx). apply Hw in Hi as [Hi H1]. exists i. split; auto. rewrite H1. simpl. apply orb_true_iff. rewrite !Nat.eqb_eq. exact Hx.
    - intros i. rewrite C. reflexivity.
    - rewrite Hk. apply map_ext. intros i. f_equal. f_equal. apply eq_iff_eq_true. fold (mem i won). rewrite mem_In, D. now rewrite Hw.
  Qed.
  Lemma round_runs I st : NoDup I -> (forall x, mR st x = None) -> exists st' keep, mm_round I st st' keep /\ length keep = length I.
  Proof.
    intros Hnd HR0. destruct (@commit_fold st I HR0 _ (Permutation_refl _) (filter (is_live (mM st)) I)) as (st1 & won1 & Hf1 & _).
    - apply incl_refl.
    - now apply NoDup_filter'.
    - eexists st1, _. split; [eexists _, _, won1; split; [apply Permutation_refl|]; split; [apply Permutation_refl|]; split; [exact Hf1|reflexivity]|]. now rewrite map_length.
  Qed.

  Variable maxTries : option nat.
  Variables (M0 : nat -> bool) (R0 : nat -> option nat).
  Hypothesis HR0 : forall x, R0 x = None.
  Notation e := (length E).
  Notation mx := (max_round 0 e 50).
  Notation loop := (eff_loop mm_round 0 e 50 maxTries (mm_init R0 M0)).
  Definition marks (st : mstate) : nat := length (filter (mmark st) (seq 0 e)).

  Record MMI (r done : nat) (K : list nat) (st : mstate) : Prop := {
    mi_sorted : StronglySorted lt K;
    mi_lt : forall i, In i K -> i < done + length K;
    mi_e : done + length K <= e;
    mi_sz : length K <= mx;
    mi_R : forall x, mR st x = None;
    mi_mark : forall i, mmark st i = true -> i < done + length K /\ ~ In i K /\ is_live M0 i = true;
    mi_M : forall x, mM st x = true <-> M0 x = true \/ exists i, mmark st i = true /\ touches i x;
    mi_disj : forall i j, mmark st i = true -> mmark st j = true -> i <> j -> ~ share i j;
    mi_dead : forall i, i < done + length K -> ~ In i K -> mmark st i = false ->
                is_live M0 i = false \/ exists j, j < i /\ mmark st j = true /\ share j i;
    mi_earlier : forall i j, In i K \/ done + length K <= i -> mmark st j = true -> share j i -> j < i;
    mi_r : exists cf, r <= marks st + cf /\ (done < e -> cf * mx <= done) }.

  Lemma mmi_start : MMI 0 0 [] (mm_init R0 M0).
  Proof.
    constructor; simpl; try tauto; try discriminate; try lia; auto.
    - constructor.
    - intros x. split; auto. intros [H|(i & H & _)]; [auto|discriminate].
    - exists 0. split; [lia|]. simpl. lia.
  Qed.
  Lemma marks_le st : marks st <= e.
  Proof. unfold marks. rewrite <- (seq_length e 0) at 2. apply filter_len_le. Qed.
  Lemma marks_mono (f g : nat -> bool) l : (forall i, f i = true -> g i = true) -> length (filter f l) <= length (filter g l).
  Proof.
    intros H. induction l as [|i l IH]; simpl; auto. destruct (f i) eqn:Ef; [rewrite (H i Ef); simpl; lia|]. destruct (g i); simpl; lia.
  Qed.
  Lemma marks_more (f g : nat -> bool) l i0 : (forall i, f i = true -> g i = true) -> In i0 l -> f i0 = false -> g i0 = true ->
    length (filter f l) < length (filter g l).
  Proof.
    intros H Hi Hf Hg. induction l as [|i l IH]; [destruct Hi|]. simpl. destruct Hi as [->|Hi].
    - rewrite Hf, Hg. simpl. pose proof (marks_mono f g l H). lia.
    - specialize (IH Hi). destruct (f i) eqn:Ef; [rewrite (H i Ef); simpl; lia|]. destruct (g i); simpl; lia.
  Qed.
  Lemma share_sym i j : share i j -> share j i.
  Proof. intros (x & A & B). exists x. auto. Qed.
  Lemma sorted_nodup l : StronglySorted lt l -> NoDup l.
  Proof. induction 1 as [|x l Hs IH Hf]; constructor; auto. intros X. rewrite Forall_forall in Hf. specialize (Hf x X). lia. Qed.

  Lemma mmi_round r done K st st' keep : MMI r done K st -> done < e ->
    let sz := Nat.min mx (e - done) in let I := firstn sz K ++ seq (done + length K) (sz - length K) in
    mm_round I st st' keep ->
    length keep = sz /\ length (kept I keep) < sz /\ MMI (S r) (done + (sz - length (kept I keep))) (kept I keep) st'.
  Proof.
    intros HI Hd sz I Hr. pose proof (mi_e HI) as He. pose proof (mi_sz HI) as Hsz.
    assert (Hmx : 1 <= mx) by (unfold max_round; lia).
    assert (Hle : length K <= sz) by (unfold sz; lia). assert (Hsz1 : 1 <= sz) by (unfold sz; lia).
    assert (EI : I = K ++ seq (done + length K) (sz - length K)) by (unfold I; now rewrite firstn_all2).
    clearbody I. subst I. set (I := K ++ seq (done + length K) (sz - length K)) in *.
    assert (HIin : forall i, In i I <-> In i K \/ done + length K <= i < done + sz) by (intros i; unfold I; rewrite in_app_iff, in_seq; intuition lia).
    assert (HIl : length I = sz) by (unfold I; rewrite app_length, seq_length; lia).
    assert (HIs : StronglySorted lt I).
    { apply sorted_app; [apply HI|apply sorted_seq|]. intros x y Hx Hy. apply in_seq in Hy. pose proof (mi_lt HI x Hx). lia. }
    destruct (round_ok (sorted_nodup HIs) (mi_R HI) Hr) as (win & Hwin & HR' & HM' & Hmk & Hk).
    set (f := fun i => is_live (mM st) i && negb (win i)) in Hk.
    assert (EK : kept I keep = filter f I) by (rewrite Hk; apply kept_map). rewrite EK. set (K' := filter f I).
    assert (HK' : forall i, In i K' <-> In i I /\ is_live (mM st) i = true /\ win i = false).
    { intros i. unfold K'. rewrite filter_In. unfold f. now rewrite andb_true_iff, negb_true_iff. }
    assert (HKle : length K' <= sz) by (unfold K'; rewrite <- HIl; apply filter_len_le).
    assert (HImk : forall i, In i I -> mmark st i = false).
    { intros i Hi. destruct (mmark st i) eqn:Em; auto. destruct (mi_mark HI i Em) as (A & B & _). apply HIin in Hi as [Hi|Hi]; [contradiction|lia]. }
    assert (HIe : forall i, In i I -> i < e).
    { intros i Hi. apply HIin in Hi as [Hi|Hi]; [pose proof (mi_lt HI i Hi); lia|unfold sz in Hi; lia]. }
    assert (Hmono : forall i, mmark st i = true -> mmark st' i = true) by (intros i H; now rewrite Hmk, H).
    assert (HIearlier : forall i, In i I -> In i K \/ done + length K <= i) by (intros i Hi; apply HIin in Hi; intuition lia).
    assert (Hlive0 : forall i, is_live (mM st) i = true -> is_live M0 i = true).
    { intros i Hi. apply live_spec in Hi as (A & B & C). apply live_spec. split; auto.
      split; [destruct (M0 (u i)) eqn:X|destruct (M0 (v i)) eqn:X]; auto; [rewrite <- B|rewrite <- C]; symmetry; apply (mi_M HI); auto. }
    split; [now rewrite Hk, map_length|].
    (* either nothing is live, or the smallest live iteration wins *)
    assert (Hprog : (forall i, In i I -> is_live (mM st) i = false) \/ exists i0, win i0 = true /\ In i0 I).
    { destruct (filter (is_live (mM st)) I) as [|i0 l] eqn:El.
      - left. intros i Hi. destruct (is_live (mM st) i) eqn:X; auto. assert (In i []) as []. rewrite <- El. now apply filter_In.
      - right. exists i0. pose proof (sorted_filter (is_live (mM st)) HIs) as Hs. rewrite El in Hs. inversion Hs; subst. rewrite Forall_forall in *.
        assert (H0 : In i0 (filter (is_live (mM st)) I)) by (rewrite El; now left). apply filter_In in H0 as [H0 H0'].
        split; auto. apply Hwin. split; auto. split; auto. intros j Hj Hlj _. assert (Hj' : In j (i0 :: l)) by (rewrite <- El; now apply filter_In).
        destruct Hj' as [->|Hj']; [lia|]. specialize (H2 j Hj'). lia. }
    split.
    { destruct Hprog as [Hno|(i0 & H0 & Hi0)].
      - unfold K'. rewrite filter_none; [simpl; lia|]. intros i Hi. unfold f. now rewrite (Hno i Hi).
      - apply in_split in Hi0 as (I1 & I2 & EI). unfold K'. rewrite EI, filter_app. cbn [filter]. unfold f at 2. rewrite H0, andb_false_r.
        rewrite app_length. pose proof (filter_len_le f I1). pose proof (filter_len_le f I2). rewrite <- HIl, EI, app_length. simpl. lia. }
    assert (Esum : done + (sz - length K') + length K' = done + sz) by lia.
    constructor.
    - apply sorted_filter; auto.
    - intros i Hi. rewrite Esum. apply HK' in Hi as [Hi _]. apply HIin in Hi as [Hi|Hi]; [pose proof (mi_lt HI i Hi)|]; lia.
    - rewrite Esum. unfold sz. lia.
    - unfold sz in *. lia.
    - exact HR'.
    - intros i Hi. rewrite Esum. rewrite Hmk in Hi. apply orb_true_iff in Hi as [Hi|Hi].
      + destruct (mi_mark HI i Hi) as (A & B & C). split; [lia|]. split; auto. intros X. apply HK' in X as [X _]. rewrite (HImk i X) in Hi. discriminate.
      + destruct (proj1 (Hwin i) Hi) as (A & B & _). split; [apply HIin in A as [A|A]; [pose proof (mi_lt HI i A)|]; lia|]. split; [|auto].
        intros X. apply HK' in X as (_ & _ & X). congruence.
    - intros x. rewrite HM', (mi_M HI). split.
      + intros [[H|(i & Hi & Hx)]|(i & Hi & Hx)]; auto; right; exists i; split; auto. rewrite Hmk, Hi. apply orb_true_r.
      + intros [H|(i & Hi & Hx)]; auto. rewrite Hmk in Hi. apply orb_true_iff in Hi as [Hi|Hi]; eauto.
    - assert (X : forall i j, mmark st i = true -> win j = true -> ~ share i j).
      { intros i j Hi Hj (x & Hx & Hx'). destruct (proj1 (Hwin j) Hj) as (A & B & _). apply live_spec in B as (_ & B1 & B2).
        assert (mM st x = true) by (apply (mi_M HI); eauto). destruct Hx' as [<-|<-]; congruence. }
      intros i j Hi Hj Hne. rewrite Hmk in Hi, Hj. apply orb_true_iff in Hi as [Hi|Hi]; apply orb_true_iff in Hj as [Hj|Hj].
      + apply (mi_disj HI); auto.
      + apply X; auto.
      + intros H. apply share_sym in H. revert H. apply X; auto.
      + intros H. destruct (proj1 (Hwin i) Hi) as (Ai & Bi & Ci). destruct (proj1 (Hwin j) Hj) as (Aj & Bj & Cj). pose proof (Ci j Aj Bj (share_sym H)). pose proof (Cj i Ai Bi H). lia.
    - intros i Hi HnK Hm. rewrite Esum in Hi. rewrite Hmk in Hm. apply orb_false_iff in Hm as [Hm Hw].
      destruct (in_dec Nat.eq_dec i I) as [Hin|Hin].
      + destruct (is_live (mM st) i) eqn:El; [exfalso; apply HnK, HK'; auto|].
        destruct (is_live M0 i) eqn:El0; auto. right. apply live_spec in El0 as (A & B & C).
        assert (Hx : exists x, touches i x /\ mM st x = true).
        { unfold MMModel.is_live in El. apply negb_false_iff in El. apply orb_true_iff in El as [El|El]; [|apply Nat.eqb_eq in El; contradiction].
          apply orb_true_iff in El as [El|El]; [exists (u i)|exists (v i)]; split; auto; [now left|now right]. }
        destruct Hx as (x & Hx & HMx). apply (mi_M HI) in HMx as [HMx|(j & Hj & Hxj)]; [destruct Hx as [<-|<-]; congruence|].
        assert (Hs : share j i) by (exists x; auto). exists j. split; [apply (mi_earlier HI (i:=i)); auto|]. split; auto.
      + destruct (mi_dead HI (i:=i)) as [H|(j & Hj & Hmj & Hs)]; auto.
        * rewrite HIin in Hin. lia.
        * intros X. apply Hin, HIin. auto.
        * right. exists j. auto.
    - intros i j Hi Hj Hs. rewrite Esum in Hi. rewrite Hmk in Hj. apply orb_true_iff in Hj as [Hj|Hj].
      + apply (mi_earlier HI (i:=i)); auto. destruct Hi as [Hi|Hi]; [apply HK' in Hi as [Hi _]; auto|right; lia].
      + destruct (proj1 (Hwin j) Hj) as (A & B & C). destruct Hi as [Hi|Hi].
        * apply HK' in Hi as (A' & B' & C'). assert (j <= i) by (apply C; auto; now apply share_sym). assert (j <> i) by congruence. lia.
        * apply HIin in A as [A|A]; [pose proof (mi_lt HI j A)|]; lia.
    - destruct (mi_r HI) as (cf & Hcf & Hcd). destruct Hprog as [Hno|(i0 & H0 & Hi0)].
      + exists (S cf). split; [unfold marks in *; pose proof (marks_mono (mmark st) (mmark st') (seq 0 e) Hmono); lia|].
        assert (K' = []) as -> by (unfold K'; apply filter_none; intros i Hi; unfold f; now rewrite (Hno i Hi)). simpl. specialize (Hcd Hd).
        unfold sz. intros H. destruct (Nat.min_spec mx (e - done)) as [[_ E1]|[_ E1]]; rewrite E1 in *; lia.
      + exists cf. split; [|intros H; specialize (Hcd Hd); lia].
        assert (marks st < marks st'); [|lia]. unfold marks. apply marks_more with (i0 := i0); auto; [apply in_seq; pose proof (HIe i0 Hi0); lia|]. rewrite Hmk, H0. apply orb_true_r.
  Qed.
  Lemma mmi_loop r done K st : loop r done K st -> MMI r done K st.
  Proof.
    induction 1 as [|r done K st st' keep HL IH Hd Ht sz I Hr Hl]; [apply mmi_start|]. now apply (mmi_round IH Hd Hr).
  Qed.

  (* the edges chosen are those of the sequential greedy algorithm on the batch *)
  Lemma batch_greedy st : eff_returns mm_round 0 e 50 maxTries (mm_init R0 M0) st ->
    (forall i, i < e -> (mmark st i = true <-> is_live M0 i = true /\ forall j, j < i -> mmark st j = true -> ~ share j i)) /\
    (forall i, mmark st i = true -> i < e /\ is_live M0 i = true) /\
    (forall i j, mmark st i = true -> mmark st j = true -> i <> j -> ~ share i j) /\
    (forall x, mM st x = true <-> M0 x = true \/ exists i, mmark st i = true /\ touches i x) /\
    (forall x, mR st x = None).
  Proof.
    intros (r & done & K & HL & Hd). pose proof (mmi_loop HL) as HI. pose proof (mi_e HI). assert (K = []) as -> by (destruct K; auto; simpl in *; lia). simpl in *.
    assert (Em : forall i, mmark st i = true -> i < e /\ is_live M0 i = true) by (intros i Hi; destruct (mi_mark HI i Hi) as (A & B & C); simpl in A; split; auto; lia).
    split; [|split; [|split; [|split]]]; try apply HI; auto.
    intros i Hi. split.
    - intros Hm. split; [now apply Em|]. intros j Hj Hmj. apply (mi_disj HI); auto. lia.
    - intros [Hl Hno]. destruct (mmark st i) eqn:Emi; auto. destruct (mi_dead HI (i:=i)) as [X|(j & Hj & Hmj & Hs)]; simpl; auto; try lia; [congruence|].
      exfalso. now apply (Hno j).
  Qed.
  Lemma batch_deterministic st1 st2 :
    eff_returns mm_round 0 e 50 maxTries (mm_init R0 M0) st1 -> eff_returns mm_round 0 e 50 maxTries (mm_init R0 M0) st2 ->
    (forall i, mmark st1 i = mmark st2 i) /\ (forall x, mM st1 x = mM st2 x).
  Proof.
    intros H1 H2. destruct (batch_greedy H1) as (A1 & B1 & _ & D1 & _). destruct (batch_greedy H2) as (A2 & B2 & _ & D2 & _).
    assert (X : forall k i, i < k -> mmark st1 i = mmark st2 i).
    { induction k as [|k IH]; intros i Hi; [lia|]. destruct (Nat.lt_ge_cases i e) as [He|He].
      - apply eq_iff_eq_true. rewrite A1, A2 by auto. split; intros [Hl Hj]; split; auto; intros j Hlt Hm; apply Hj; auto; rewrite <- Hm; [apply IH|symmetry; apply IH]; lia.
      - destruct (mmark st1 i) eqn:E1; [apply B1 in E1; lia|]. destruct (mmark st2 i) eqn:E2; auto. apply B2 in E2. lia. }
    assert (Y : forall i, mmark st1 i = mmark st2 i) by (intros i; apply (X (S i)); lia).
    split; auto. intros x. apply eq_iff_eq_true. rewrite D1, D2. split; intros [H|(i & Hi & Hx)]; auto; right; exists i; split; auto; [now rewrite <- Y|now rewrite Y].
  Qed.
  (* unless the number of rounds is limited, eff_for finishes *)
  Lemma eff_step r done K st : loop r done K st -> done < e -> too_many maxTries r = false ->
    exists done' K' st', done < done' /\ loop (S r) done' K' st'.
  Proof.
    intros HL Hd Ht. pose proof (mmi_loop HL) as HI. set (sz := Nat.min mx (e - done)). set (I := firstn sz K ++ seq (done + length K) (sz - length K)).
    pose proof (mi_e HI) as He. pose proof (mi_sz HI) as Hsz. assert (Hle : length K <= sz) by (unfold sz; lia).
    assert (HIl : length I = sz) by (unfold I; rewrite app_length, firstn_length, seq_length; lia).
    assert (HIs : NoDup I).
    { apply sorted_nodup. unfold I. rewrite firstn_all2 by lia. apply sorted_app; [apply HI|apply sorted_seq|]. intros x y Hx Hy. apply in_seq in Hy. pose proof (mi_lt HI x Hx). lia. }
    destruct (@round_runs I st HIs (mi_R HI)) as (st' & keep & Hr & Hl).
    destruct (mmi_round HI Hd Hr) as (A & B & _). fold sz in A, B. fold I in B.
    eexists _, _, _. split; [|eapply eff_round; eauto]. fold sz I. lia.
  Qed.
  Lemma eff_from k : forall r done K st, e <= done + k -> loop r done K st ->
    (exists st', eff_returns mm_round 0 e 50 maxTries (mm_init R0 M0) st') \/ eff_aborts mm_round 0 e 50 maxTries (mm_init R0 M0).
  Proof.
    induction k as [|k IH]; intros r done K st Hk HL; [left; exists st, r, done, K; split; auto; lia|].
    destruct (Nat.lt_ge_cases done e) as [Hd|Hd]; [|left; exists st, r, done, K; auto].
    destruct (too_many maxTries r) eqn:Ht; [right; exists r, done, K, st; auto|].
    destruct (eff_step HL Hd Ht) as (d' & K' & st' & Hlt & HL'). eapply IH; [|exact HL']. lia.
  Qed.
  (* the number of rounds *)
  Lemma eff_rounds r done K st : loop r done K st -> done < e -> r <= marks st + 49.
  Proof.
    intros HL Hd. destruct (mi_r (mmi_loop HL)) as (cf & Hr & Hc). specialize (Hc Hd).
    assert (cf < 50); [|lia]. destruct (Nat.lt_ge_cases cf 50) as [|Hge]; auto. exfalso.
    assert (50 * mx <= cf * mx) by (apply Nat.mul_le_mono_r; auto). unfold max_round in *. rewrite Nat.sub_0_r in *. pose proof (Nat.div_mod e 50 ltac:(lia)). pose proof (Nat.mod_upper_bound e 50 ltac:(lia)). lia.
  Qed.
End Step.
