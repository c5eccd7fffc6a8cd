From Verif Require Import Base ListUtil GBModel SFModel ISModel ISSpec ISProofs SIModel SMModel.
From Coq Require Import ZArith Permutation Sorted.
Local Open Scope nat_scope.
Unset Strict Implicit.

Section Calls.
  Variable W : Type.
  Variable prod : W -> W -> Z.
  Hypothesis prod_comm : forall a b, prod a b = prod b a.
  Notation call := (call W).
  Definition call_id (c : call) : nat := let '(x, _, _, _, _) := c in x.
  Definition call_prod (c : call) : Z := let '(_, _, _, a, b) := c in prod a b.
  Definition zsum (l : list Z) : Z := fold_right Z.add 0%Z l.
  Definition csum (l : list call) : Z := zsum (map call_prod l).
  Definition flip (c : call) : call := let '(x, i, j, a, b) := c in (x, j, i, b, a).
  (* the calls for the lists A and B that start at offsets oA and oB *)
  Definition good_calls (A B : list (nat * W)) (oA oB : nat) (c : list call) : Prop :=
    increasing (map call_id c) /\
    forall x i j a b, In (x, i, j, a, b) c <-> exists i' j', i = oA + i' /\ j = oB + j' /\ nth_error A i' = Some (x, a) /\ nth_error B j' = Some (x, b).

  Lemma zsum_app l r : zsum (l ++ r) = (zsum l + zsum r)%Z.
  Proof. induction l as [|x l IH]; cbn -[Z.add]; [reflexivity|]. fold (zsum (l ++ r)) (zsum l). rewrite IH. lia. Qed.
  Lemma csum_app l r : csum (l ++ r) = (csum l + csum r)%Z.
  Proof. unfold csum. now rewrite map_app, zsum_app. Qed.
  Lemma csum_flip l : csum (map flip l) = csum l.
  Proof. unfold csum. f_equal. rewrite map_map. apply map_ext. intros [[[[x i] j] a] b]. cbn. apply prod_comm. Qed.
  Lemma id_nth (A : list (nat * W)) i x a : nth_error A i = Some (x, a) -> In x (map fst A).
  Proof. intros H. apply nth_error_In in H. change x with (fst (x, a)). now apply in_map. Qed.
  Lemma good_id A B oA oB c x : good_calls A B oA oB c -> In x (map call_id c) -> In x (map fst A) /\ In x (map fst B).
  Proof.
    intros [_ H] Hx. apply in_map_iff in Hx as ([[[[y i] j] a] b] & <- & Hc). apply H in Hc as (i' & j' & _ & _ & E1 & E2). cbn.
    split; eapply id_nth; eauto.
  Qed.
  Lemma good_flip A B oA oB c : good_calls A B oA oB c -> good_calls B A oB oA (map flip c).
  Proof.
    intros [H1 H2]. split.
    - rewrite map_map. erewrite map_ext; [exact H1|]. now intros [[[[x i] j] a] b].
    - intros x i j a b. rewrite in_map_iff. split.
      + intros ([[[[y i0] j0] a0] b0] & E & Hc). cbn in E. injection E as <- <- <- <- <-. apply H2 in Hc as (i' & j' & H). exists j', i'. tauto.
      + intros (i' & j' & H). exists (x, j, i, b, a). split; auto. apply H2. exists j', i'. tauto.
  Qed.
  Lemma good_nil_l B oA oB : good_calls [] B oA oB [].
  Proof. split; [constructor|]. intros x i j a b. split; [intros []|]. intros (i' & j' & _ & _ & E & _). destruct i'; discriminate. Qed.
  Lemma good_nil_r A oA oB : good_calls A [] oA oB [].
  Proof. split; [constructor|]. intros x i j a b. split; [intros []|]. intros (i' & j' & _ & _ & _ & E). destruct j'; discriminate. Qed.
  Lemma good_eq x a b A B oA oB c : increasing (map fst ((x, a) :: A)) -> increasing (map fst ((x, b) :: B)) ->
    good_calls A B (S oA) (S oB) c -> good_calls ((x, a) :: A) ((x, b) :: B) oA oB ((x, oA, oB, a, b) :: c).
  Proof.
    intros HA HB Hc. cbn [map fst] in HA, HB. apply inc_inv in HA as [HA Ha]. apply inc_inv in HB as [HB Hb]. split.
    - cbn [map call_id]. apply inc_cons; [apply Hc|]. intros y Hy. apply Ha. apply (good_id Hc Hy).
    - intros y i j a' b'. cbn [In]. destruct Hc as [_ Hc]. rewrite Hc. split.
      + intros [E|(i' & j' & -> & -> & E1 & E2)].
        * injection E as <- <- <- <- <-. exists 0, 0. rewrite !Nat.add_0_r. auto.
        * exists (S i'), (S j'). rewrite <- !plus_n_Sm. auto.
      + intros ([|i'] & [|j'] & -> & -> & E1 & E2); cbn in E1, E2.
        * left. rewrite !Nat.add_0_r. injection E1 as -> ->. injection E2 as ->. reflexivity.
        * exfalso. injection E1 as -> ->. apply id_nth in E2. apply Hb in E2. lia.
        * exfalso. injection E2 as -> ->. apply id_nth in E1. apply Ha in E1. lia.
        * right. exists i', j'. rewrite <- !plus_n_Sm. auto.
  Qed.
  Lemma good_left x a A B oA oB c : ~ In x (map fst B) -> good_calls A B (S oA) oB c -> good_calls ((x, a) :: A) B oA oB c.
  Proof.
    intros Hn [H1 H2]. split; auto. intros y i j a' b'. rewrite H2. split.
    - intros (i' & j' & -> & -> & E1 & E2). exists (S i'), j'. rewrite <- plus_n_Sm. auto.
    - intros ([|i'] & j' & -> & -> & E1 & E2); cbn in E1.
      + exfalso. injection E1 as -> ->. apply Hn. eapply id_nth; eauto.
      + exists i', j'. rewrite <- plus_n_Sm. auto.
  Qed.
  Lemma good_right x b A B oA oB c : ~ In x (map fst A) -> good_calls A B oA (S oB) c -> good_calls A ((x, b) :: B) oA oB c.
  Proof.
    intros Hn H. apply good_flip in H. apply (good_left b Hn) in H. apply good_flip in H. rewrite map_map in H. erewrite map_ext, map_id in H; [exact H|].
    now intros [[[[y i] j] a'] b'].
  Qed.
  Lemma good_split p U1 U2 V1 V2 oA oB c1 c2 :
    (forall x, In x (map fst U1) \/ In x (map fst V1) -> x < p) -> (forall x, In x (map fst U2) \/ In x (map fst V2) -> p <= x) ->
    good_calls U1 V1 oA oB c1 -> good_calls U2 V2 (oA + length U1) (oB + length V1) c2 -> good_calls (U1 ++ U2) (V1 ++ V2) oA oB (c1 ++ c2).
  Proof.
    intros L R G1 G2. split.
    - rewrite map_app. apply inc_app; [apply G1|apply G2|]. intros x y Hx Hy. apply (good_id G1) in Hx. apply (good_id G2) in Hy.
      assert (x < p) by (apply L; tauto). assert (p <= y) by (apply R; tauto). lia.
    - destruct G1 as [_ G1], G2 as [_ G2]. intros x i j a b. rewrite in_app_iff, G1, G2. split.
      + intros [(i' & j' & -> & -> & E1 & E2)|(i' & j' & -> & -> & E1 & E2)].
        * exists i', j'. split; auto. split; auto. split; (rewrite nth_error_app1; [auto|]); apply nth_error_Some; congruence.
        * exists (length U1 + i'), (length V1 + j'). split; [lia|]. split; [lia|]. rewrite !nth_error_app2 by lia. rewrite !(Nat.add_comm (length _)), !Nat.add_sub. auto.
      + intros (i' & j' & -> & -> & E1 & E2).
        destruct (Nat.lt_ge_cases i' (length U1)) as [Hi|Hi], (Nat.lt_ge_cases j' (length V1)) as [Hj|Hj].
        * rewrite nth_error_app1 in E1, E2 by auto. left. exists i', j'. auto.
        * exfalso. rewrite nth_error_app1 in E1 by auto. rewrite nth_error_app2 in E2 by auto. apply id_nth in E1, E2.
          assert (x < p) by (apply L; auto). assert (p <= x) by (apply R; auto). lia.
        * exfalso. rewrite nth_error_app2 in E1 by auto. rewrite nth_error_app1 in E2 by auto. apply id_nth in E1, E2.
          assert (x < p) by (apply L; auto). assert (p <= x) by (apply R; auto). lia.
        * rewrite nth_error_app2 in E1, E2 by auto. right. exists (i' - length U1), (j' - length V1). repeat split; auto; lia.
  Qed.

  Lemma skipn_cons' {T} (l : list T) i x : nth_error l i = Some x -> skipn i l = x :: skipn (S i) l.
  Proof. revert l; induction i as [|i IH]; intros [|y l] H; simpl in *; try discriminate; [congruence|]. now apply IH. Qed.
  Lemma ids_skipn (l : list (nat * W)) i : increasing (map fst l) -> increasing (map fst (skipn i l)).
  Proof. rewrite <- skipn_map. apply inc_skipn. Qed.
  Lemma ids_firstn (l : list (nat * W)) i : increasing (map fst l) -> increasing (map fst (firstn i l)).
  Proof. rewrite <- firstn_map. apply inc_firstn. Qed.
  Lemma full_loop_ok A B oA oB : increasing (map fst A) -> increasing (map fst B) -> forall fuel i j ct cs, (length A - i) + (length B - j) <= fuel ->
    exists l, full_loop prod A B oA oB fuel i j ct cs = Some ((ct + csum l)%Z, cs ++ l) /\ good_calls (skipn i A) (skipn j B) (oA + i) (oB + j) l.
  Proof.
    intros HA HB.
    assert (Stop : forall i j ct cs, (length A <= i \/ length B <= j) -> exists l, Some (ct, cs) = Some ((ct + csum l)%Z, cs ++ l) /\ good_calls (skipn i A) (skipn j B) (oA + i) (oB + j) l).
    { intros i j ct cs H. exists []. rewrite app_nil_r. split; [unfold csum; cbn; do 2 f_equal; lia|]. destruct H as [H|H]; rewrite (skipn_all2 _ H); [apply good_nil_l|apply good_nil_r]. }
    induction fuel as [|fuel IH]; intros i j ct cs Hf; cbn [full_loop].
    { destruct (Nat.ltb_spec i (length A)) as [Hi|Hi]; [destruct (Nat.ltb_spec j (length B)) as [Hj|Hj]|]; cbn [andb]; try lia; apply Stop; lia. }
    destruct (Nat.ltb_spec i (length A)) as [Hi|Hi]; cbn [andb]; [|apply Stop; lia]. destruct (Nat.ltb_spec j (length B)) as [Hj|Hj]; [|apply Stop; lia].
    destruct (nth_error A i) as [[a wa]|] eqn:Ea; [|apply nth_error_None in Ea; lia].
    destruct (nth_error B j) as [[b wb]|] eqn:Eb; [|apply nth_error_None in Eb; lia].
    pose proof (ids_skipn i HA) as SA. pose proof (ids_skipn j HB) as SB. rewrite (skipn_cons' Ea) in *. rewrite (skipn_cons' Eb) in *.
    destruct (Nat.eqb_spec a b) as [<-|Hn]; [|destruct (Nat.ltb_spec a b) as [Hl|Hl]].
    - destruct (IH (S i) (S j) (ct + prod wa wb)%Z (cs ++ [(a, oA + i, oB + j, wa, wb)])) as (l & E & Hg); [lia|].
      exists ((a, oA + i, oB + j, wa, wb) :: l). rewrite E, <- app_assoc. split.
      + f_equal. f_equal. unfold csum, zsum. cbn [map fold_right call_prod]. lia.
      + apply good_eq; auto. now rewrite <- !plus_n_Sm in Hg.
    - destruct (IH (S i) j ct cs) as (l & E & Hg); [lia|]. exists l. split; auto. rewrite (skipn_cons' Eb) in Hg. apply good_left; [|now rewrite <- plus_n_Sm in Hg].
      cbn [map fst] in SB |- *. apply inc_inv in SB as [_ SB]. intros [->|Hx]; [lia|]. apply SB in Hx. lia.
    - destruct (IH i (S j) ct cs) as (l & E & Hg); [lia|]. exists l. split; auto. rewrite (skipn_cons' Ea) in Hg. apply good_right; [|now rewrite <- plus_n_Sm in Hg].
      cbn [map fst] in SA |- *. apply inc_inv in SA as [_ SA]. intros [<-|Hx]; [lia|]. apply SA in Hx. lia.
  Qed.

  Lemma sm_loop_swap B oA oB : forall As i ct cs r c, sm_loop prod B oA oB false i As ct cs = Some (r, c) -> sm_loop prod B oA oB true i As ct (map flip cs) = Some (r, map flip c).
  Proof.
    induction As as [|[a wa] As IH]; intros i ct cs r c; cbn [sm_loop]. { intros E. injection E as <- <-. auto. }
    destruct (bsearch (map fst B) a <? length B); [|apply IH]. destruct (nth_error B (bsearch (map fst B) a)) as [[b wb]|]; [|discriminate].
    destruct (a =? b); [|apply IH]. intros E. apply IH in E. rewrite map_app in E. exact E.
  Qed.
  Lemma sm_loop_ok B oA oB : increasing (map fst B) -> forall As i ct cs, increasing (map fst As) ->
    exists l, sm_loop prod B oA oB false i As ct cs = Some ((ct + csum l)%Z, cs ++ l) /\ good_calls As B (oA + i) oB l.
  Proof.
    intros HB. induction As as [|[a wa] As IH]; intros i ct cs HA; cbn [sm_loop].
    - exists []. rewrite app_nil_r. split; [unfold csum; cbn; do 2 f_equal; lia|apply good_nil_l].
    - pose proof HA as HA'. cbn [map fst] in HA. apply inc_inv in HA as [HA Ha]. set (mB := bsearch (map fst B) a).
      assert (Hno : ~ In a (map fst B) -> exists l, sm_loop prod B oA oB false (S i) As ct cs = Some ((ct + csum l)%Z, cs ++ l) /\ good_calls ((a, wa) :: As) B (oA + i) oB l).
      { intros Hn. destruct (IH (S i) ct cs HA) as (l & E & Hg). exists l. split; auto. apply good_left; auto. now rewrite <- plus_n_Sm in Hg. }
      destruct (Nat.ltb_spec mB (length B)) as [Hm|Hm].
      + destruct (nth_error B mB) as [[b wb]|] eqn:Eb; [|apply nth_error_None in Eb; lia]. destruct (Nat.eqb_spec a b) as [<-|Hn].
        * destruct (IH (S i) (ct + prod wa wb)%Z (cs ++ [(a, oA + i, oB + mB, wa, wb)]) HA) as (l & E & Hg). exists ((a, oA + i, oB + mB, wa, wb) :: l). rewrite E, <- app_assoc.
          split; [f_equal; f_equal; unfold csum, zsum; cbn [map fold_right call_prod]; lia|].
          rewrite <- (firstn_skipn mB B). rewrite (skipn_cons' Eb).
          assert (Lo : forall x, In x (map fst (firstn mB B)) -> x < a) by (intros x Hx; rewrite <- firstn_map in Hx; exact (@bsearch_below _ _ _ Hx)).
          assert (Lm : length (firstn mB B) = mB) by (rewrite firstn_length; lia).
          apply (good_split (p := a) (U1 := []) (c1 := [])).
          -- intros x [[]|Hx]; auto.
          -- intros x [[<-|Hx]|Hx]; auto; [apply Ha in Hx; lia|]. rewrite <- (skipn_cons' Eb), <- skipn_map in Hx. exact (@bsearch_above _ _ _ HB Hx).
          -- apply good_nil_l.
          -- cbn [length]. rewrite Nat.add_0_r, Lm. apply good_eq; auto.
             { rewrite <- (skipn_cons' Eb). now apply ids_skipn. }
             rewrite <- plus_n_Sm in Hg. destruct Hg as [G1 G2]. split; auto. intros x i0 j0 a0 b0. rewrite G2. split.
             ++ intros (i' & j' & -> & -> & E1 & E2). exists i', (j' - S mB). assert (Hj : mB < j').
                { destruct (Nat.lt_ge_cases mB j') as [|Hj]; auto. exfalso. pose proof (Ha _ (id_nth E1)) as Q.
                  destruct (Nat.eq_dec j' mB) as [->|Hj']; [rewrite Eb in E2; injection E2 as -> ->; lia|].
                  assert (x < a); [|lia]. apply Lo. apply (@id_nth _ j' _ b0). rewrite nth_error_firstn' by lia. exact E2. }
                split; auto. split; [lia|]. split; auto. rewrite nth_error_skipn'. rewrite <- E2. f_equal. lia.
             ++ intros (i' & j' & -> & -> & E1 & E2). rewrite nth_error_skipn' in E2. exists i', (S mB + j'). split; auto. split; [lia|]. split; auto.
        * apply Hno. intros Hin. apply (@bsearch_found (map fst B) a HB) in Hin as (b' & E1 & E2). fold mB in E1. rewrite nth_error_map, Eb in E1. cbn in E1. congruence.
      + apply Hno. intros Hin. apply (@bsearch_found (map fst B) a HB) in Hin as (b' & E1 & E2). fold mB in E1. rewrite nth_error_map in E1.
        destruct (nth_error B mB) eqn:X; [|discriminate]. assert (nth_error B mB <> None) by congruence. apply nth_error_Some in H. lia.
  Qed.

  Lemma index_merge_ok base thresh : 2 <= base -> forall fuel A B oA oB sw, increasing (map fst A) -> increasing (map fst B) ->
    2 * (length A + length B) + (if length B <? length A then 1 else 0) < fuel ->
    exists l, index_merge prod base thresh fuel A B oA oB sw = Some (csum l, l) /\
      if sw then good_calls B A oB oA l else good_calls A B oA oB l.
  Proof.
    intros Hbase. induction fuel as [|fuel IH]; intros A B oA oB sw HA HB Hf; [lia|]. cbn [index_merge].
    destruct (length A + length B <? thresh).
    { unfold seq_merge_full. destruct sw.
      - destruct (@full_loop_ok B A oB oA HB HA (length A + length B) 0 0 0%Z []) as (l & E & Hg); [lia|]. rewrite !Nat.add_0_r in Hg. exists l. auto.
      - destruct (@full_loop_ok A B oA oB HA HB (length A + length B) 0 0 0%Z []) as (l & E & Hg); [lia|]. rewrite !Nat.add_0_r in Hg. exists l. auto. }
    destruct (Nat.ltb_spec (length B) (length A)) as [H2|H2].
    { destruct (IH B A oB oA (negb sw)) as (l & E & Hg); auto. { destruct (Nat.ltb_spec (length A) (length B)); lia. } exists l. split; auto. destruct sw; exact Hg. }
    destruct (Nat.ltb_spec (length A) base) as [H3|H3].
    { unfold index_merge_seq. destruct (@sm_loop_ok B oA oB HB A 0 0%Z [] HA) as (l & E & Hg). rewrite Nat.add_0_r in Hg. destruct sw.
      - exists (map flip l). apply sm_loop_swap in E. cbn [map] in E. rewrite E. split; [|now apply good_flip]. rewrite csum_flip. cbn [app]. do 2 f_equal.
      - exists l. auto. }
    assert (Hd : 1 <= length A / 2 /\ length A / 2 < length A). { split; [apply Nat.div_le_lower_bound; lia|apply Nat.div_lt; lia]. }
    destruct (nth_error A (length A / 2)) as [[p wp]|] eqn:Ep; [|apply nth_error_None in Ep; lia].
    set (mA := length A / 2) in *. set (mB := bsearch (map fst B) p).
    assert (HmB : mB <= length B) by (rewrite <- (map_length fst); apply bsearch_le).
    destruct (IH (firstn mA A) (firstn mB B) oA oB sw) as (l1 & E1 & G1); [now apply ids_firstn|now apply ids_firstn| |].
    { rewrite !firstn_length, !Nat.min_l by lia. destruct (_ <? _); lia. }
    destruct (IH (skipn mA A) (skipn mB B) (oA + mA) (oB + mB) sw) as (l2 & E2 & G2); [now apply ids_skipn|now apply ids_skipn| |].
    { rewrite !skipn_length. destruct (_ <? _); lia. }
    rewrite E1, E2. exists (l1 ++ l2). rewrite csum_app. split; auto.
    assert (Ep' : nth_error (map fst A) mA = Some p) by now rewrite nth_error_map, Ep.
    assert (LA : forall x, In x (map fst (firstn mA A)) -> x < p).
    { intros x Hx. pose proof HA as HA'. rewrite <- (firstn_skipn mA (map fst A)), (skipn_cons' Ep') in HA'. rewrite <- firstn_map in Hx. clear -HA' Hx.
      induction (firstn mA (map fst A)) as [|y l IH]; [destruct Hx|]. simpl in HA'. apply inc_inv in HA' as [HA' Hy].
      destruct Hx as [<-|Hx]; auto. apply Hy. apply in_app_iff. right. now left. }
    assert (RA : forall x, In x (map fst (skipn mA A)) -> p <= x).
    { intros x Hx. pose proof (inc_skipn mA HA) as HA'. rewrite <- skipn_map in Hx. rewrite (skipn_cons' Ep') in Hx, HA'.
      apply inc_inv in HA' as [_ HA']. destruct Hx as [<-|Hx]; auto. apply HA' in Hx. lia. }
    assert (LB : forall x, In x (map fst (firstn mB B)) -> x < p) by (intros x Hx; rewrite <- firstn_map in Hx; exact (@bsearch_below _ _ _ Hx)).
    assert (RB : forall x, In x (map fst (skipn mB B)) -> p <= x) by (intros x Hx; rewrite <- skipn_map in Hx; exact (@bsearch_above _ _ _ HB Hx)).
    assert (NA : length (firstn mA A) = mA) by (rewrite firstn_length; lia). assert (NB : length (firstn mB B) = mB) by (rewrite firstn_length; lia).
    destruct sw.
    - rewrite <- (firstn_skipn mA A), <- (firstn_skipn mB B). apply good_split with p; auto; try (intros x [Hx|Hx]; auto). now rewrite NA, NB.
    - rewrite <- (firstn_skipn mA A), <- (firstn_skipn mB B). apply good_split with p; auto; try (intros x [Hx|Hx]; auto). now rewrite NA, NB.
  Qed.
  Lemma intersect_ok base thresh A B : 2 <= base -> increasing (map fst A) -> increasing (map fst B) ->
    exists l, intersect_with_index prod base thresh A B = Some (csum l, l) /\ good_calls A B 0 0 l.
  Proof. intros Hb HA HB. apply (@index_merge_ok base thresh Hb _ A B 0 0 false HA HB). destruct (_ <? _); lia. Qed.
End Calls.
