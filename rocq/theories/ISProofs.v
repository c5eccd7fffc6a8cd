From Verif Require Import Base ListUtil ISModel ISSpec.

Lemma inc_inv x l : increasing (x :: l) -> increasing l /\ forall y, In y l -> x < y.
Proof. intros H. inversion H; subst. split; auto. now apply Forall_forall. Qed.
Lemma inc_cons x l : increasing l -> (forall y, In y l -> x < y) -> increasing (x :: l).
Proof. intros. constructor; auto. now apply Forall_forall. Qed.
Lemma inc_firstn l k : increasing l -> increasing (firstn k l).
Proof.
  revert k; induction l as [|x l IH]; intros [|k] H; simpl; try constructor.
  - apply IH. now apply inc_inv in H.
  - apply inc_inv in H as [_ H]. apply Forall_forall. intros y Hy. apply H. rewrite <- (firstn_skipn k l). apply in_app_iff. auto.
Qed.
Lemma inc_skipn l k : increasing l -> increasing (skipn k l).
Proof. revert k; induction l as [|x l IH]; intros [|k] H; simpl; auto. apply IH. now apply inc_inv in H. Qed.
Lemma inc_app l r : increasing l -> increasing r -> (forall x y, In x l -> In y r -> x < y) -> increasing (l ++ r).
Proof.
  induction l as [|a l IH]; intros Hl Hr H; simpl; auto. apply inc_inv in Hl as [Hl Ha].
  apply inc_cons. { apply IH; auto. intros; apply H; auto; now right. }
  intros y Hy. apply in_app_iff in Hy as [Hy|Hy]; auto. apply H; auto. now left.
Qed.
Lemma inc_NoDup l : increasing l -> NoDup l.
Proof.
  induction l as [|x l IH]; intros H; constructor; apply inc_inv in H as [H1 H2]; auto.
  intros Hx. pose proof (H2 _ Hx). lia.
Qed.
Lemma common_unique A B l l' : common A B l -> common A B l' -> l = l'.
Proof.
  intros [H1 H2] [H3 H4]. assert (Hin : forall x, In x l <-> In x l') by (intros; now rewrite H2, H4).
  clear H2 H4. revert l' H3 Hin. induction l as [|x l IH]; intros [|y l'] H3 Hin; auto.
  - exfalso. apply (Hin y). now left.
  - exfalso. apply (Hin x). now left.
  - apply inc_inv in H1 as [H1 Hx]. apply inc_inv in H3 as [H3 Hy].
    assert (x = y).
    { destruct (proj1 (Hin x) ltac:(now left)) as [E|E]; auto. destruct (proj2 (Hin y) ltac:(now left)) as [E'|E']; auto.
      apply Hx in E'. apply Hy in E. lia. }
    subst y. f_equal. apply IH; auto. intros z. split; intros Hz.
    + destruct (proj1 (Hin z) ltac:(now right)) as [->|E]; auto. apply Hx in Hz. lia.
    + destruct (proj2 (Hin z) ltac:(now right)) as [->|E]; auto. apply Hy in Hz. lia.
Qed.

Lemma skipn_cons_nth (l : list nat) i x : nth_error l i = Some x -> skipn i l = x :: skipn (S i) l.
Proof. revert l; induction i as [|i IH]; intros [|y l] H; simpl in *; try discriminate; [congruence|]. now apply IH. Qed.

Lemma isect_loop_ok A B fuel : increasing A -> increasing B -> forall i j ans cs,
  (length A - i) + (length B - j) <= fuel ->
  exists l, isect_loop A B fuel i j ans cs = Some (ans + length l, cs ++ l) /\ common (skipn i A) (skipn j B) l.
Proof.
  intros HA HB. induction fuel as [|fuel IH]; intros i j ans cs Hf; simpl.
  - destruct (Nat.ltb_spec i (length A)) as [Hi|Hi], (Nat.ltb_spec j (length B)) as [Hj|Hj]; simpl; try lia;
    exists []; rewrite Nat.add_0_r, app_nil_r; (split; [auto|split; [constructor|]]); intros x; simpl;
      rewrite (skipn_all2 (n := i) A) || rewrite (skipn_all2 (n := j) B); simpl; try lia; tauto.
  - destruct (Nat.ltb_spec i (length A)) as [Hi|Hi], (Nat.ltb_spec j (length B)) as [Hj|Hj]; simpl.
    2-4: exists []; rewrite Nat.add_0_r, app_nil_r; (split; [auto|split; [constructor|]]); intros x; simpl;
      (rewrite (skipn_all2 (n := i) A) by lia; simpl; tauto) || (rewrite (skipn_all2 (n := j) B) by lia; simpl; tauto).
    destruct (nth_error A i) as [a|] eqn:Ea; [|apply nth_error_None in Ea; lia].
    destruct (nth_error B j) as [b|] eqn:Eb; [|apply nth_error_None in Eb; lia].
    pose proof (skipn_cons_nth A i Ea) as SA. pose proof (skipn_cons_nth B j Eb) as SB.
    assert (IA : increasing (a :: skipn (S i) A)) by (rewrite <- SA; now apply inc_skipn).
    assert (IB : increasing (b :: skipn (S j) B)) by (rewrite <- SB; now apply inc_skipn).
    apply inc_inv in IA as [_ IA]. apply inc_inv in IB as [_ IB].
    destruct (Nat.eqb_spec a b) as [E|E]; [|destruct (Nat.ltb_spec a b) as [E'|E']].
    + subst b. destruct (IH (S i) (S j) (S ans) (cs ++ [a])) as (l & El & [Hl1 Hl2]); [lia|].
      exists (a :: l). split.
      { rewrite El, <- app_assoc. simpl. do 2 f_equal. lia. }
      split; [apply inc_cons; auto; intros y Hy; apply Hl2 in Hy; now apply IA|].
      intros x. rewrite SA, SB. simpl. rewrite Hl2. split; [intros [->|[? ?]]; auto|].
      intros [[?|?] [?|?]]; auto.
    + destruct (IH (S i) j ans cs) as (l & El & [Hl1 Hl2]); [lia|]. exists l. split; auto. split; auto.
      intros x. rewrite Hl2. rewrite SA. simpl. split; [tauto|]. intros [[<-|?] Hx]; auto.
      exfalso. rewrite SB in Hx. destruct Hx as [<-|Hx]; [lia|]. apply IB in Hx. lia.
    + destruct (IH i (S j) ans cs) as (l & El & [Hl1 Hl2]); [lia|]. exists l. split; auto. split; auto.
      intros x. rewrite Hl2. rewrite SB. simpl. split; [tauto|]. intros [Hx [<-|?]]; auto.
      exfalso. rewrite SA in Hx. destruct Hx as [<-|Hx]; [lia|]. apply IA in Hx. lia.
Qed.

Lemma intersect_f_ok A B : increasing A -> increasing B ->
  exists l, intersect_f A B = Some (length l, l) /\ common A B l.
Proof. intros HA HB. destruct (@isect_loop_ok A B (length A + length B) HA HB 0 0 0 []) as (l & E & H); [lia|]. exists l. auto. Qed.

Lemma bsearch_le l v : bsearch l v <= length l.
Proof. induction l as [|x l IH]; simpl; auto. destruct (x <? v); lia. Qed.
Lemma bsearch_below l v x : In x (firstn (bsearch l v) l) -> x < v.
Proof.
  induction l as [|y l IH]; simpl; [easy|]. destruct (Nat.ltb_spec y v); simpl; [|easy]. intros [<-|Hx]; auto.
Qed.
Lemma bsearch_above l v x : increasing l -> In x (skipn (bsearch l v) l) -> v <= x.
Proof.
  induction l as [|y l IH]; simpl; [easy|]. intros Hi. apply inc_inv in Hi as [Hi Hy]. destruct (Nat.ltb_spec y v); simpl; auto.
  intros [<-|Hx]; auto. apply Hy in Hx. lia.
Qed.
Lemma bsearch_found l v : increasing l -> (exists b, nth_error l (bsearch l v) = Some b /\ v = b) <-> In v l.
Proof.
  intros Hi. split.
  - intros (b & E & <-). eapply nth_error_In; eauto.
  - intros H. induction l as [|y l IH]; simpl; [destruct H|]. apply inc_inv in Hi as [Hi Hy].
    destruct (Nat.ltb_spec y v) as [Hlt|Hge].
    + destruct H as [->|H]; [lia|]. simpl. auto.
    + simpl. exists y. split; auto. destruct H as [->|H]; auto. apply Hy in H. lia.
Qed.

Lemma seq_merge_from_ok B As : increasing B -> increasing As -> forall ct cs,
  exists l, seq_merge_from B As ct cs = Some (ct + length l, cs ++ l) /\ common As B l.
Proof.
  intros HB. induction As as [|a As IH]; intros HA ct cs; simpl.
  - exists []. rewrite Nat.add_0_r, app_nil_r. split; auto. split; [constructor|]. simpl. tauto.
  - apply inc_inv in HA as [HA Ha]. specialize (IH HA).
    assert (Hno : ~ In a B -> exists l, seq_merge_from B As ct cs = Some (ct + length l, cs ++ l) /\ common (a :: As) B l).
    { intros Hn. destruct (IH ct cs) as (l & El & [H1 H2]). exists l. split; auto. split; auto.
      intros x. rewrite H2. simpl. split; [tauto|]. intros [[<-|?] ?]; tauto. }
    destruct (Nat.ltb_spec (bsearch B a) (length B)) as [Hm|Hm].
    + destruct (nth_error B (bsearch B a)) as [b|] eqn:Eb; [|apply nth_error_None in Eb; lia].
      destruct (Nat.eqb_spec a b) as [E|E].
      * assert (HaB : In a B) by (subst b; eapply nth_error_In; eauto).
        destruct (IH (S ct) (cs ++ [a])) as (l & El & [H1 H2]). exists (a :: l). split.
        { rewrite El, <- app_assoc. simpl. do 2 f_equal. lia. }
        split; [apply inc_cons; auto; intros y Hy; apply H2 in Hy; now apply Ha|].
        intros x. simpl. rewrite H2. split; [intros [->|[? ?]]; auto|]. intros [[->|?] ?]; auto.
      * apply Hno. intros Hin. apply (bsearch_found a HB) in Hin as (b' & E1 & E2). congruence.
    + apply Hno. intros Hin. apply (bsearch_found a HB) in Hin as (b' & E1 & E2).
      assert (bsearch B a < length B) by (apply nth_error_Some; congruence). lia.
Qed.

Lemma interleaving_perm l r c : interleaving l r c -> Permutation c (l ++ r).
Proof.
  induction 1; simpl; auto. rewrite IHinterleaving. apply Permutation_middle.
Qed.

Lemma common_sym A B l : common A B l -> common B A l.
Proof. intros [H1 H2]. split; auto. intros x. rewrite H2. tauto. Qed.

(* what a result has to satisfy *)
Definition merge_good (A B : list nat) (r : option (nat * calls)) : Prop :=
  exists k cs l, r = Some (k, cs) /\ common A B l /\ k = length l /\ (forall c, happens cs c -> Permutation c l) /\ happens cs l.

Lemma interleaving_app l r : interleaving l r (l ++ r).
Proof.
  induction l as [|x l IH]; simpl; [|now constructor]. induction r as [|x r IH]; now constructor.
Qed.

Lemma run_good A B r l : common A B l -> r = Some (length l, l) -> merge_good A B (option_map (fun r => (fst r, Run (snd r))) r).
Proof.
  intros Hc ->. exists (length l), (Run l), l. simpl. split; auto. split; auto. split; auto. split.
  - intros c Hh. inversion Hh; subst; auto.
  - constructor.
Qed.

Lemma merge_ok thresh base fuel : 2 <= base -> forall A B, increasing A -> increasing B ->
  2 * (length A + length B) + (if length B <? length A then 1 else 0) < fuel ->
  merge_good A B (merge thresh base fuel A B).
Proof.
  intros Hbase. induction fuel as [|fuel IH]; intros A B HA HB Hf; [lia|]. cbn [merge].
  destruct (Nat.ltb_spec (length A + length B) thresh) as [H1|H1].
  { destruct (intersect_f_ok HA HB) as (l & E & Hc). eapply run_good; eauto. }
  destruct (Nat.ltb_spec (length B) (length A)) as [H2|H2].
  { destruct (IH B A) as (k & cs & l & E & Hc & H3 & H4); auto.
    - destruct (Nat.ltb_spec (length A) (length B)); lia.
    - exists k, cs, l. split; auto. split; auto. now apply common_sym. }
  destruct (Nat.ltb_spec (length A) base) as [H3|H3].
  { destruct (seq_merge_from_ok HB HA 0 []) as (l & E & Hc). simpl in E. eapply run_good; eauto. }
  assert (Hd : 1 <= length A / 2 /\ length A / 2 < length A).
  { split; [apply Nat.div_le_lower_bound; lia|apply Nat.div_lt; lia]. }
  destruct (nth_error A (length A / 2)) as [p|] eqn:Ep; [|apply nth_error_None in Ep; lia].
  set (mA := length A / 2) in *. set (mB := bsearch B p).
  assert (HmB : mB <= length B) by apply bsearch_le.
  destruct (IH (firstn mA A) (firstn mB B)) as (k1 & c1 & l1 & E1 & Hc1 & Hk1 & Hp1 & Hh1).
  { now apply inc_firstn. } { now apply inc_firstn. }
  { rewrite !firstn_length, !Nat.min_l by lia. destruct (_ <? _); lia. }
  destruct (IH (skipn mA A) (skipn mB B)) as (k2 & c2 & l2 & E2 & Hc2 & Hk2 & Hp2 & Hh2).
  { now apply inc_skipn. } { now apply inc_skipn. }
  { rewrite !skipn_length. destruct (_ <? _); lia. }
  rewrite E1, E2.
  (* elements left of the pivot are below it, the others are not *)
  assert (LA : forall x, In x (firstn mA A) -> x < p).
  { intros x Hx. pose proof HA as HA'. rewrite <- (firstn_skipn mA A), (skipn_cons_nth A mA Ep) in HA'. clear -HA' Hx.
    induction (firstn mA A) as [|y l IH]; [destruct Hx|]. simpl in HA'. apply inc_inv in HA' as [HA' Hy].
    destruct Hx as [<-|Hx]; auto. apply Hy. apply in_app_iff. right. now left. }
  assert (RA : forall x, In x (skipn mA A) -> p <= x).
  { intros x Hx. pose proof (inc_skipn mA HA) as HA'. rewrite (skipn_cons_nth A mA Ep) in Hx, HA'.
    apply inc_inv in HA' as [_ HA']. destruct Hx as [<-|Hx]; auto. apply HA' in Hx. lia. }
  assert (LB : forall x, In x (firstn mB B) -> x < p) by (intros; now apply bsearch_below with B).
  assert (RB : forall x, In x (skipn mB B) -> p <= x) by (intros; now apply bsearch_above with B).
  destruct Hc1 as [I1 M1], Hc2 as [I2 M2].
  exists (k1 + k2), (ParDo c1 c2), (l1 ++ l2). split; auto. split; [split|split; [|split]].
  - apply inc_app; auto. intros x y Hx Hy. apply M1 in Hx as [Hx _]. apply M2 in Hy as [Hy _].
    apply LA in Hx. apply RA in Hy. lia.
  - intros x. rewrite in_app_iff, M1, M2. rewrite <- (firstn_skipn mA A) at 3. rewrite <- (firstn_skipn mB B) at 3.
    rewrite !in_app_iff. split; [tauto|]. intros [[?|?] [?|?]]; auto; exfalso.
    + apply LA in H. apply RB in H0. lia.
    + apply RA in H. apply LB in H0. lia.
  - rewrite app_length. lia.
  - intros c Hh. inversion Hh as [|? ? l3 r3 ? Q1 Q2 Q3]; subst. rewrite (interleaving_perm Q3). now apply Permutation_app; auto.
  - econstructor; eauto. apply interleaving_app.
Qed.
