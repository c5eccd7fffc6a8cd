(* C67: the passes over the forest: the children lists, the leaffix passes, the preorder. *)
From Coq Require Import ZArith Sorting.Sorted.
From Verif Require Import Base ListUtil GBModel GBProofs BIModel BITree.
Unset Strict Implicit.
Local Open Scope nat_scope.

(* -- the children lists ---------------------------------------------------------------- *)
Section Children.
  Variable n : nat.
  Variable P : nat -> nat.
  Hypothesis HPn : forall v, v < n -> P v < n.
  Variable es : list (edge unit).
  Hypothesis Hperm : Permutation es (tree_edges n P).
  Hypothesis Hsort : StronglySorted (fun a b => key_lt b a = false) es.

  Lemma es_sorted : StronglySorted src_le es.
  Proof.
    revert Hsort. apply sorted_impl. intros a b H. unfold src_le. unfold key_lt in H.
    apply orb_false_iff in H as [H _]. apply Nat.ltb_ge in H. auto.
  Qed.
  Lemma es_in e : In e es <-> exists i, i < n /\ P i <> i /\ e = (P i, i, tt).
  Proof.
    transitivity (In e (tree_edges n P)).
    - split; apply Permutation_in; auto. now apply Permutation_sym.
    - unfold tree_edges. rewrite in_map_iff. split.
      + intros (i & <- & Hi). apply filter_In in Hi as [Hi Hb]. apply in_seq in Hi.
        apply negb_true_iff, Nat.eqb_neq in Hb. exists i. repeat split; auto. lia.
      + intros (i & Hi & Hb & ->). exists i. split; auto. apply filter_In. split; [apply in_seq; lia|].
        now apply negb_true_iff, Nat.eqb_neq.
  Qed.
  Lemma es_lt : Forall (fun e => src e < n) es.
  Proof. apply Forall_forall. intros e He. apply es_in in He as (i & Hi & _ & ->). unfold src. simpl. auto. Qed.

  Lemma back_fill_ok (r : nat -> nat) : forall (st : list (option nat)) k,
    (forall i, i < length st -> nth_error st i = Some (Some (r (k + i))) \/
       nth_error st i = Some None /\ r (k + i) = r (k + S i) /\ S i < length st) ->
    length (back_fill st) = length st /\ forall i, i < length st -> nth i (back_fill st) 0 = r (k + i).
  Proof.
    induction st as [|o st IH]; intros k H; simpl; [split; auto; lia|].
    destruct (IH (S k)) as [Hl Hn].
    { intros i Hi. replace (S k + i) with (k + S i) by lia. replace (S k + S i) with (k + S (S i)) by lia.
      destruct (H (S i)) as [A|(A & B & C)]; [simpl; lia|left; auto|right]. simpl in *. repeat split; auto. lia. }
    split; [now rewrite Hl|]. intros [|i] Hi; [|rewrite Hn by (simpl in Hi; lia); f_equal; lia].
    destruct (H 0) as [A|(A & B & C)]; [simpl; lia| |]; simpl in A; injection A as ->; auto.
    simpl in C. rewrite B. replace (k + 1) with (S k + 0) by lia. apply (Hn 0). lia.
  Qed.

  Lemma starts_ok order starts : Permutation order (start_stores es) -> starts_of n es order = Some starts ->
    forall v, v <= n -> nth v starts 0 = rank es v.
  Proof.
    intros Hp Hst. unfold starts_of in Hst. pose proof es_sorted as Hs. pose proof es_lt as Hn.
    assert (Hstores : forall k x, In (k, x) (start_stores es) -> k < n /\ x = Some (rank es k)).
    { intros k x Hx. unfold start_stores in Hx. apply in_flat_map in Hx as (i & Hi & Hx). apply in_seq in Hi.
      assert (Hlt : i < length es) by lia.
      destruct ((i =? 0) || negb (nth_src es i =? nth_src es (i - 1))) eqn:Eb; [|destruct Hx].
      destruct Hx as [Hx|[]]. injection Hx as <- <-. split; [now apply nth_src_lt|]. f_equal.
      apply orb_true_iff in Eb as [Eb|Eb].
      - apply Nat.eqb_eq in Eb. subst i. pose proof (rank_spec (nth_src es 0) Hs Hlt). lia.
      - apply negb_true_iff, Nat.eqb_neq in Eb. destruct i as [|i]; [simpl in Eb; congruence|]. simpl in Eb. rewrite Nat.sub_0_r in Eb.
        pose proof (@nth_src_mono unit es i Hs Hlt). rewrite (@rank_at unit es Hs i); try lia. right. rewrite Nat.add_1_r. lia. }
    assert (Hcover : forall k, k < n -> rank es k = rank es (S k) \/ exists x, In (k, x) (start_stores es)).
    { intros k Hk. set (r := rank es k). pose proof (rank_le es (S k)) as Hle.
      assert (Hmono : r <= rank es (S k)). { unfold r, rank. rewrite (split_rank k Hs), app_length. lia. }
      destruct (Nat.eq_dec r (rank es (S k))) as [E|E]; [now left|right].
      assert (Hr : r < length es) by lia.
      assert (H1 : nth_src es r < S k) by (apply (rank_spec (S k) Hs Hr); lia).
      assert (H2 : ~ nth_src es r < k). { rewrite (rank_spec k Hs Hr). fold r. lia. }
      assert (Ek : nth_src es r = k) by lia.
      exists (Some r). unfold start_stores. apply in_flat_map. exists r. split; [apply in_seq; lia|].
      destruct (Nat.eqb_spec r 0) as [E0|E0]; [simpl; left; congruence|].
      assert (H3 : nth_src es (r - 1) < k). { apply (rank_spec k Hs); [lia|]. fold r. lia. }
      destruct (Nat.eqb_spec (nth_src es r) (nth_src es (r - 1))); [lia|]. simpl. left. congruence. }
    destruct (@run_stores_consistent (option nat) (fun k => Some (rank es k)) (n + 1) order (repeat None (n + 1))) as (arr & Ea & Hl & HA).
    { apply repeat_length. }
    { intros k x Hx. apply (Permutation_in _ Hp) in Hx. apply Hstores in Hx. split; [lia|]. tauto. }
    rewrite Ea in Hst. injection Hst as <-.
    destruct (@back_fill_ok (rank es) (lset arr n (Some (length es))) 0) as [HL HN].
    { rewrite length_lset, Hl. intros i Hi. simpl. destruct (Nat.eq_dec i n) as [->|Hne].
      - left. rewrite nth_error_lset_same by lia. rewrite rank_all; auto.
      - rewrite nth_error_lset_other by auto. destruct (HA i ltac:(lia)) as [[H1 _]|[H1 H2]]; [now left|].
        right. rewrite H1. split; [|split; [|lia]].
        + rewrite (nth_error_nth' _ None) by (rewrite repeat_length; lia). f_equal. apply nth_repeat.
        + destruct (Hcover i) as [Hc|(x & Hx)]; [lia|auto|]. exfalso. apply (H2 x).
          eapply Permutation_in; [apply Permutation_sym|]; eauto. }
    intros v Hv. apply (HN v). rewrite length_lset. lia.
  Qed.

  Lemma children_ok order starts : Permutation order (start_stores es) -> starts_of n es order = Some starts ->
    forall v, v < n -> NoDup (children_of es starts v) /\
      forall c, In c (children_of es starts v) <-> c < n /\ P c = v /\ c <> v.
  Proof.
    intros Hp Hst v Hv. pose proof (starts_ok Hp Hst) as HS. unfold children_of.
    rewrite !HS, Nat.add_1_r by lia. rewrite skipn_map, firstn_map, (segment v es_sorted). split.
    - assert (Hnd : NoDup (map (fun e : edge unit => dst e) es)).
      { apply (Permutation_NoDup (l := map (fun e : edge unit => dst e) (tree_edges n P))).
        - apply Permutation_map. now apply Permutation_sym.
        - unfold tree_edges. rewrite map_map. unfold dst. simpl. rewrite map_id. apply NoDup_filter', seq_NoDup. }
      clear - Hnd. induction es as [|e l IH]; simpl in *; [constructor|]. inversion Hnd; subst.
      destruct (src e =? v); auto. simpl. constructor; auto. intros Hin. apply H1.
      apply in_map_iff in Hin as (x & Ex & Hx). apply filter_In in Hx as [Hx _]. apply in_map_iff. eauto.
    - intros c. rewrite in_map_iff. split.
      + intros (e & <- & He). apply filter_In in He as [He Hs]. apply Nat.eqb_eq in Hs.
        apply es_in in He as (i & Hi & Hne & ->). unfold src, dst in *. simpl in *. subst. auto.
      + intros (Hc & Ep & Hne). exists (P c, c, tt). split; auto. apply filter_In. split.
        * apply es_in. exists c. repeat split; auto. congruence.
        * unfold src. simpl. now apply Nat.eqb_eq.
  Qed.
  Lemma starts_exist order : Permutation order (start_stores es) -> exists starts, starts_of n es order = Some starts.
  Proof.
    intros Hp. unfold starts_of.
    assert (X : forall st arr, length arr = n + 1 -> (forall k x, In (k, x) st -> k < n) -> exists arr', @run_stores (option nat) st arr = Some arr').
    { induction st as [|[k x] st IH]; intros arr Hl H; simpl; eauto.
      pose proof (H k x (or_introl eq_refl)). rewrite (proj2 (Nat.ltb_lt _ _)) by lia. apply IH; [now rewrite length_lset|].
      intros; eapply H; right; eauto. }
    destruct (X order (repeat None (n + 1))) as (arr & ->); [apply repeat_length| |eauto].
    intros k x Hx. apply (Permutation_in _ Hp) in Hx. unfold start_stores in Hx. apply in_flat_map in Hx as (i & Hi & Hx).
    apply in_seq in Hi. destruct (_ || _) in Hx; [|destruct Hx]. destruct Hx as [Hx|[]]. injection Hx as <- _.
    apply nth_src_lt; [apply es_sorted|apply es_lt|lia].
  Qed.
End Children.

(* -- the leaffix passes ----------------------------------------------------------------- *)
Section Leaf.
  Variable n : nat.
  Variable P dep : nat -> nat.
  Hypothesis HPn : forall v, v < n -> P v < n.
  Hypothesis Hdep : forall v, v < n -> P v <> v -> dep v = S (dep (P v)).
  Variable ch : nat -> list nat.
  Hypothesis Hch : forall v, v < n -> NoDup (ch v) /\ forall c, In c (ch v) <-> c < n /\ P c = v /\ c <> v.
  Context {A : Type}.
  Variable comb : A -> A -> A.
  Variable val0 : nat -> A.

  Lemma ch_in v c : v < n -> (In c (ch v) <-> c < n /\ P c = v /\ c <> v).
  Proof. intros H. now apply Hch. Qed.
  Lemma ch_nodup v : v < n -> NoDup (ch v).
  Proof. intros H. now apply Hch. Qed.

  (* Q: the vertices whose value has been passed on *)
  Definition inq (Q : list nat) (c : nat) : bool := if in_dec Nat.eq_dec c Q then true else false.
  Lemma inq_true Q c : inq Q c = true <-> In c Q.
  Proof. unfold inq. destruct (in_dec Nat.eq_dec c Q); split; auto; discriminate. Qed.
  Definition nr (c : nat) : bool := negb (P c =? c).
  Lemma nr_true c : nr c = true <-> P c <> c.
  Proof. unfold nr. now rewrite negb_true_iff, Nat.eqb_neq. Qed.
  Record LInv (Q pend : list nat) (val : nat -> A) (ct : nat -> Z) : Prop := {
    l_nd : NoDup Q;
    l_Q : forall c, In c Q -> c < n /\ P c <> c /\ incl (ch c) Q;
    l_val : forall d, d < n -> exists l, Permutation l (filter (inq Q) (ch d)) /\ val d = fold_left comb (map val l) (val0 d);
    l_ct : forall d, d < n -> ct d = (Z.of_nat (length (ch d)) - Z.of_nat (length (filter (inq Q) (ch d))))%Z;
    l_pend_nd : NoDup (filter nr pend);
    l_pend_lt : forall c, In c pend -> c < n;
    l_pend : forall c, c < n -> P c <> c -> (In c pend <-> ~ In c Q /\ incl (ch c) Q) }.

  Lemma filter_inq_nil l : filter (inq []) l = [].
  Proof. apply filter_none. intros x _. reflexivity. Qed.
  Lemma start_linv : LInv [] (leafs n P ch) val0 (fun v => Z.of_nat (length (ch v))).
  Proof.
    split.
    - constructor.
    - easy.
    - intros d Hd. exists []. rewrite filter_inq_nil. auto.
    - intros d Hd. rewrite filter_inq_nil. simpl. lia.
    - unfold leafs. apply NoDup_filter', NoDup_filter', seq_NoDup.
    - intros c Hc. unfold leafs in Hc. apply filter_In in Hc as [Hc _]. apply in_seq in Hc. lia.
    - intros c Hc Hne. unfold leafs. rewrite filter_In, in_seq, andb_true_iff, negb_true_iff, Nat.eqb_neq, Nat.eqb_eq. split.
      + intros (_ & _ & E). split; auto. apply length_zero_iff_nil in E. rewrite E. easy.
      + intros [_ H]. repeat split; auto; try lia. destruct (ch c) as [|x l]; auto. exfalso. apply (H x). now left.
  Qed.

  Lemma filter_inq_cons c Q l : ~ In c l -> filter (inq (c :: Q)) l = filter (inq Q) l.
  Proof.
    intros H. apply filter_ext_in'. intros x Hx. unfold inq.
    destruct (in_dec Nat.eq_dec x (c :: Q)) as [I|I], (in_dec Nat.eq_dec x Q) as [J|J]; auto.
    - destruct I as [->|I]; [contradiction|contradiction].
    - exfalso. apply I. now right.
  Qed.
  Lemma filter_inq_add c Q l : NoDup l -> In c l -> ~ In c Q -> Permutation (filter (inq Q) l ++ [c]) (filter (inq (c :: Q)) l).
  Proof.
    intros Hnd Hin Hc. apply in_split in Hin as (l1 & l2 & ->).
    apply NoDup_remove in Hnd as [_ Hnd]. rewrite !filter_app. cbn [filter].
    assert (E1 : inq (c :: Q) c = true) by (apply inq_true; now left).
    assert (E2 : inq Q c = false). { destruct (inq Q c) eqn:E; auto. apply inq_true in E. contradiction. }
    rewrite E1, E2. rewrite in_app_iff in Hnd. rewrite !filter_inq_cons by tauto.
    rewrite <- app_assoc. apply Permutation_app_head. apply Permutation_sym, Permutation_cons_append.
  Qed.
  Lemma filter_full {B} (f : B -> bool) l : length (filter f l) = length l -> forall x, In x l -> f x = true.
  Proof.
    induction l as [|a l IH]; simpl; [easy|]. pose proof (filter_len_le f l).
    destruct (f a) eqn:E; simpl; intros Hl x [<-|Hx]; auto; lia.
  Qed.

  Lemma visit_linv Q rest out c val ct :
    LInv Q (c :: rest ++ out) val ct -> P c <> c ->
    let s := lvisit P comb {| lval := val; lct := ct; lout := out |} c in
    LInv (c :: Q) (rest ++ lout s) (lval s) (lct s).
  Proof.
    intros [H1 H2 H3 H4 H5 H6 H7] Hne. assert (Hc : c < n) by (apply H6; now left).
    assert (Hp : ~ In c Q /\ incl (ch c) Q) by (apply H7; auto; now left). destruct Hp as [HcQ Hchc].
    set (d := P c). assert (Hd : d < n) by (unfold d; auto). assert (Hcd : In c (ch d)) by (apply ch_in; auto).
    assert (HdQ : ~ In d Q). { intros X. apply HcQ. now apply (H2 d X). }
    assert (Hdc : d <> c) by auto.
    cbn [filter] in H5. rewrite (proj2 (nr_true c) Hne) in H5. inversion H5 as [|? ? Hc5 H5']; subst.
    rewrite filter_In, nr_true in Hc5. assert (Hc6 : ~ In c (rest ++ out)) by tauto. clear Hc5.
    assert (Hdp : P d <> d -> ~ In d (rest ++ out)).
    { intros Hdr X. assert (Y : In d (c :: rest ++ out)) by now right. apply H7 in Y as [_ Y]; auto. }
    unfold lvisit. cbv zeta. cbn [lval lct lout]. fold d.
    assert (Hlen : length (filter (inq (c :: Q)) (ch d)) = S (length (filter (inq Q) (ch d)))).
    { rewrite <- (Permutation_length (filter_inq_add (ch_nodup Hd) Hcd HcQ)), app_length. simpl. lia. }
    assert (Ect : (ct d - 1 = Z.of_nat (length (ch d)) - Z.of_nat (length (filter (inq (c :: Q)) (ch d))))%Z).
    { rewrite (H4 d Hd), Hlen. lia. }
    assert (Hfull : (ct d - 1 =? 0)%Z = true <-> incl (ch d) (c :: Q)).
    { rewrite Z.eqb_eq, Ect. split.
      - intros E x Hx. apply inq_true. eapply filter_full; eauto. lia.
      - intros Hi. rewrite filter_all; [lia|]. intros x Hx. apply inq_true. auto. }
    split.
    - constructor; auto.
    - intros x [<-|Hx]; [|apply H2 in Hx as (X & Y & Z); repeat split; auto; now apply incl_tl].
      repeat split; auto. now apply incl_tl.
    - intros e He. destruct (Nat.eq_dec e d) as [->|Hed].
      + destruct (H3 d Hd) as (l & Hl & Ev). exists (l ++ [c]). split.
        * eapply Permutation_trans; [apply Permutation_app_tail, Hl|]. apply filter_inq_add; auto. now apply ch_nodup.
        * rewrite fset_same, map_app, fold_left_app. simpl. rewrite fset_other by auto. rewrite Ev. f_equal. f_equal.
          apply map_ext_in. intros x Hx. rewrite fset_other; auto. intros ->.
          apply (Permutation_in _ Hl) in Hx. apply filter_In in Hx as [_ Hx]. apply inq_true in Hx. contradiction.
      + destruct (H3 e He) as (l & Hl & Ev). exists l. rewrite filter_inq_cons.
        * split; auto. rewrite fset_other by auto. rewrite Ev. f_equal. apply map_ext_in.
          intros x Hx. rewrite fset_other; auto. intros ->. apply (Permutation_in _ Hl) in Hx.
          apply filter_In in Hx as [_ Hx]. apply inq_true in Hx. contradiction.
        * intros X. apply ch_in in X as (_ & X & _); auto.
    - intros e He. destruct (Nat.eq_dec e d) as [->|Hed]; [now rewrite fset_same|]. rewrite fset_other by auto.
      rewrite filter_inq_cons; auto. intros X. apply ch_in in X as (_ & X & _); auto.
    - destruct ((ct d - 1 =? 0)%Z) eqn:Ez; auto.
      apply (Permutation_NoDup (l := filter nr (d :: rest ++ out))).
      { rewrite !filter_app. cbn [filter]. rewrite filter_app. destruct (nr d); auto. apply Permutation_middle. }
      cbn [filter]. destruct (nr d) eqn:Edr; auto. constructor; auto.
      apply nr_true in Edr. intros X. apply filter_In in X as [X _]. now apply (Hdp Edr).
    - intros x Hx. apply in_app_iff in Hx. destruct ((ct d - 1 =? 0)%Z); [|apply H6; right; now apply in_app_iff].
      destruct Hx as [Hx|[<-|Hx]]; auto; apply H6; right; apply in_app_iff; auto.
    - intros x Hx Hxr. assert (Hold : In x (rest ++ out) <-> x <> c /\ ~ In x Q /\ incl (ch x) Q).
      { rewrite <- (H7 x Hx Hxr). split.
        - intros X. split; [intros ->; contradiction|now right].
        - intros [Y [X|X]]; auto. congruence. }
      destruct (Nat.eq_dec x d) as [->|Hxd].
      + assert (Hno : ~ In d (rest ++ out)) by auto.
        destruct ((ct d - 1 =? 0)%Z) eqn:Ez.
        * split; [intros _|intros _; apply in_app_iff; right; now left].
          split; [intros [X|X]; [congruence|contradiction]|]. now apply Hfull.
        * split; [contradiction|]. intros [_ Hi]. apply Hfull in Hi. discriminate.
      + assert (Hsame : incl (ch x) (c :: Q) <-> incl (ch x) Q).
        { split; intros Hi y Hy; [|right; auto]. destruct (Hi y Hy) as [<-|]; auto. exfalso.
          apply ch_in in Hy as (_ & Hy & _); auto. }
        assert (Hin : In x (rest ++ (if (ct d - 1 =? 0)%Z then d :: out else out)) <-> In x (rest ++ out)).
        { destruct ((ct d - 1 =? 0)%Z); [|tauto]. rewrite !in_app_iff. simpl. intuition congruence. }
        rewrite Hin, Hold, Hsame. simpl. intuition congruence.
  Qed.

  Lemma fold_linv : forall order Q out val ct,
    LInv Q (order ++ out) val ct -> (forall c, In c order -> P c <> c) ->
    let s := fold_left (lvisit P comb) order {| lval := val; lct := ct; lout := out |} in
    LInv (rev order ++ Q) (lout s) (lval s) (lct s).
  Proof.
    induction order as [|c rest IH]; intros Q out val ct HI Hr; simpl; auto.
    pose proof (visit_linv HI (Hr c (or_introl eq_refl))) as HI'. cbv zeta in HI'.
    destruct (lvisit P comb {| lval := val; lct := ct; lout := out |} c) as [val' ct' out'] eqn:Es. cbn [lval lct lout] in HI'.
    rewrite <- app_assoc. simpl. apply IH; auto. intros x Hx. apply Hr. now right.
  Qed.
  Lemma pend_perm Q pend pend' val ct : LInv Q pend val ct ->
    Permutation (filter nr pend) (filter nr pend') -> (forall c, In c pend' -> c < n) -> LInv Q pend' val ct.
  Proof.
    intros [H1 H2 H3 H4 H5 H6 H7] Hp Hlt. split; auto.
    - eapply Permutation_NoDup; eauto.
    - intros c Hc Hne. rewrite <- H7 by auto. apply nr_true in Hne.
      split; intros X.
      + assert (Y : In c (filter nr pend')) by now apply filter_In. apply (Permutation_in _ (Permutation_sym Hp)) in Y. now apply filter_In in Y.
      + assert (Y : In c (filter nr pend)) by now apply filter_In. apply (Permutation_in _ Hp) in Y. now apply filter_In in Y.
  Qed.
  Lemma filter_nr_idem l : filter nr (filter nr l) = filter nr l.
  Proof. apply filter_all. intros x Hx. now apply filter_In in Hx. Qed.
  Lemma round_linv Q F val ct order : LInv Q F val ct -> Permutation order (filter nr F) ->
    let s := fold_left (lvisit P comb) order {| lval := val; lct := ct; lout := [] |} in
    LInv (rev order ++ Q) (lout s) (lval s) (lct s).
  Proof.
    intros HI Hp. apply fold_linv.
    - rewrite app_nil_r. eapply pend_perm; eauto.
      + rewrite <- filter_nr_idem. apply Permutation_sym in Hp. revert Hp. generalize (filter nr F). intros l Hl.
        induction Hl; simpl; auto.
        * destruct (nr x); auto.
        * destruct (nr x), (nr y); auto. constructor.
        * eapply Permutation_trans; eauto.
      + intros c Hc. apply (Permutation_in _ Hp) in Hc. apply filter_In in Hc as [Hc _]. now apply (l_pend_lt HI).
    - intros c Hc. apply (Permutation_in _ Hp) in Hc. apply filter_In in Hc as [_ Hc]. now apply nr_true.
  Qed.
  Lemma leaf_inv k val ct F : leaffix n P ch comb val0 k val ct F ->
    exists Q, LInv Q F val ct /\ (F <> [] -> k <= length Q).
  Proof.
    intros H. induction H as [|k val ct F order F' H (Q & HI & Hk) HF Hp s Hp'].
    - exists []. split; [apply start_linv|auto].
    - exists (rev order ++ Q). pose proof (round_linv HI Hp) as HI'. cbv zeta in HI'. fold s in HI'. split.
      + eapply pend_perm; eauto.
        * clear - Hp'. apply Permutation_sym in Hp'. induction Hp'; simpl; auto.
          -- destruct (nr x); auto.
          -- destruct (nr x), (nr y); auto. constructor.
          -- eapply Permutation_trans; eauto.
        * intros c Hc. apply (Permutation_in _ Hp') in Hc. now apply (l_pend_lt HI').
      + intros HF'. rewrite app_length, rev_length. specialize (Hk HF).
        destruct order as [|o order]; [|simpl; lia]. exfalso. apply HF'. unfold s in Hp'. simpl in Hp'.
        apply Permutation_sym, Permutation_nil in Hp'. auto.
  Qed.
  Lemma leaf_bound k val ct F : leaffix n P ch comb val0 k val ct F -> k <= S n.
  Proof.
    intros H. destruct H as [|k val ct F order F' H HF Hp s Hp']; [lia|].
    destruct (leaf_inv H) as (Q & HI & Hk). specialize (Hk HF).
    enough (length Q <= n) by lia. rewrite <- (seq_length n 0). apply NoDup_incl_length; [apply (l_nd HI)|].
    intros c Hc. apply (l_Q HI) in Hc. apply in_seq. lia.
  Qed.
  Lemma leaf_ends : exists val, leaffix_result n P ch comb val0 val.
  Proof.
    assert (X : forall j, (exists val, leaffix_result n P ch comb val0 val) \/ exists val ct F, leaffix n P ch comb val0 j val ct F).
    { induction j as [|j [H|(val & ct & F & H)]]; auto.
      - right. do 3 eexists. constructor.
      - destruct F as [|f F]; [left; exists val, j, ct; auto|]. right. do 3 eexists. eapply leaf_round; eauto. easy. }
    destruct (X (S (S n))) as [H|(val & ct & F & H)]; auto. apply leaf_bound in H. lia.
  Qed.

  (* the value of every vertex combines its own with those of its children *)
  Lemma leaf_result val : leaffix_result n P ch comb val0 val ->
    forall d, d < n -> exists l, Permutation l (ch d) /\ val d = fold_left comb (map val l) (val0 d).
  Proof.
    intros (k & ct & H). destruct (leaf_inv H) as (Q & HI & _).
    assert (Hdeep : exists D, forall v, v < n -> dep v <= D).
    { exists (list_max (map dep (seq 0 n))). intros v Hv. 
      pose proof (proj1 (list_max_le (map dep (seq 0 n)) _) (le_n _)) as HF. rewrite Forall_forall in HF.
      apply HF. apply in_map, in_seq. lia. }
    destruct Hdeep as [D HD].
    assert (Hall : forall j c, c < n -> P c <> c -> D - dep c < j -> In c Q).
    { induction j as [|j IH]; intros c Hc Hne Hj; [lia|].
      destruct (in_dec Nat.eq_dec c Q) as [|HcQ]; auto. exfalso.
      assert (Hi : incl (ch c) Q).
      { intros x Hx. apply ch_in in Hx as (Hx & Ex & Hxc); auto. apply IH; auto; [congruence|].
        pose proof (@Hdep x Hx ltac:(congruence)). pose proof (HD x Hx). rewrite Ex in *. lia. }
      assert (X : In c []) by (apply (l_pend HI); auto). destruct X. }
    intros d Hd. destruct (l_val HI Hd) as (l & Hl & Ev). exists l. split; auto.
    rewrite filter_all in Hl; auto. intros c Hc. apply inq_true. apply ch_in in Hc as (A1 & A2 & A3); auto.
    apply (Hall (S (D - dep c))); auto. congruence.
  Qed.
End Leaf.

(* -- the preorder numbers ------------------------------------------------------------------ *)
Lemma number_other sz : forall cs pn x y, ~ In y cs -> number sz pn x cs y = pn y.
Proof.
  induction cs as [|c cs IH]; intros pn x y Hy; simpl; auto. rewrite IH; [|intros H; apply Hy; now right].
  apply fset_other. intros ->. apply Hy. now left.
Qed.
Lemma number_at sz : forall l1 c l2 pn x, NoDup (l1 ++ c :: l2) ->
  number sz pn x (l1 ++ c :: l2) c = x + list_sum (map sz l1).
Proof.
  induction l1 as [|a l1 IH]; intros c l2 pn x Hnd; simpl in *; inversion Hnd; subst.
  - rewrite number_other by auto. rewrite fset_same. lia.
  - rewrite IH; auto. lia.
Qed.
Lemma scan_shift : forall l x, scan x l = map (Nat.add x) (scan 0 l).
Proof.
  induction l as [|a l IH]; intros x; simpl; auto. rewrite (IH (x + a)), (IH a), map_map.
  f_equal; [lia|]. apply map_ext. intros. lia.
Qed.
Lemma number_scan_same sz : forall cs pn x, number_scan sz pn x cs = number sz pn x cs.
Proof.
  unfold number_scan.
  assert (X : forall cs pn x a, fold_left (fun pn ca => fset pn (fst ca) (x + snd ca)) (combine cs (scan a (map sz cs))) pn = number sz pn (x + a) cs).
  { induction cs as [|c cs IH]; intros pn x a; simpl; auto. rewrite IH. f_equal. lia. }
  intros. rewrite X. f_equal. lia.
Qed.

Section Pre.
  Variable n : nat.
  Variable P dep : nat -> nat.
  Hypothesis HPn : forall v, v < n -> P v < n.
  Hypothesis HP : forall v, v < n -> P v = v /\ dep v = 0 \/ P v <> v /\ dep v = S (dep (P v)).
  Variable ch : nat -> list nat.
  Hypothesis Hch : forall v, v < n -> NoDup (ch v) /\ forall c, In c (ch v) <-> c < n /\ P c = v /\ c <> v.
  Variable srcs : list nat.
  Hypothesis Hsrc : NoDup srcs /\ forall s, In s srcs <-> s < n /\ P s = s.
  Variable sz : nat -> nat.
  Variable cut : nat.

  Definition numbered (pn : nat -> nat) (v : nat) : Prop :=
    forall l1 c l2, ch v = l1 ++ c :: l2 -> pn c = pn v + 1 + list_sum (map sz l1).
  Lemma nc_other pn v y : ~ In y (ch v) -> number_children ch cut sz pn v y = pn y.
  Proof. intros H. unfold number_children. destruct (_ <? _); [|rewrite number_scan_same]; now apply number_other. Qed.
  Lemma nc_at pn v : v < n -> numbered (number_children ch cut sz pn v) v.
  Proof.
    intros Hv l1 c l2 E. assert (Hnv : ~ In v (ch v)) by (intros X; apply (Hch Hv) in X; tauto).
    rewrite (nc_other pn Hnv). unfold number_children. pose proof (proj1 (Hch Hv)) as Hnd.
    destruct (_ <? _); [|rewrite number_scan_same]; rewrite E in *; now apply number_at.
  Qed.
  Lemma ch_dep v c : v < n -> In c (ch v) -> c < n /\ dep c = S (dep v) /\ P c = v.
  Proof.
    intros Hv Hc. apply (Hch Hv) in Hc as (A1 & A2 & A3). destruct (HP A1) as [[B _]|[_ B]]; [congruence|]. rewrite A2 in B. auto.
  Qed.
  Lemma numbered_keep pn pn' v : (forall y, y = v \/ In y (ch v) -> pn' y = pn y) -> numbered pn v -> numbered pn' v.
  Proof.
    intros H HN l1 c l2 E. rewrite (H v), (H c); [now apply HN with l2| |now left]. right. rewrite E. apply in_app_iff. right. now left.
  Qed.

  Record PInv (k : nat) (pn : nat -> nat) (F : list nat) : Prop := {
    p_nd : NoDup F;
    p_F : forall v, In v F <-> v < n /\ dep v = k;
    p_root : forall r, r < n -> P r = r -> pn r = 0;
    p_num : forall v, v < n -> dep v < k -> numbered pn v }.

  Lemma dep0 v : v < n -> (P v = v <-> dep v = 0).
  Proof. intros Hv. destruct (HP Hv) as [[A B]|[A B]]; lia. Qed.
  Lemma pre_inv pn0 k pn F : preorder ch cut srcs sz pn0 k pn F -> PInv k pn F.
  Proof.
    intros H. induction H as [|k pn F order H HI HF Hp].
    - split.
      + apply Hsrc.
      + intros v. rewrite (proj2 Hsrc). split; intros [A B]; split; auto; now apply dep0.
      + intros r Hr Er. assert (Hin : In r srcs) by now apply (proj2 Hsrc).
        clear - Hin. assert (X : forall l pn, In r l \/ pn r = 0 -> fold_left (fun pn s => fset pn s 0) l pn r = 0).
        { induction l as [|a l IH]; intros pn [X|X]; simpl; auto; try easy.
          - apply IH. destruct (in_dec Nat.eq_dec r l); auto. destruct X as [->|X]; [|contradiction]. right. apply fset_same.
          - apply IH. right. destruct (Nat.eq_dec r a) as [->|E]; [apply fset_same|now rewrite fset_other]. }
        apply X. auto.
      + intros. lia.
    - destruct HI as [H1 H2 H3 H4].
      assert (Hord : forall v, In v order -> v < n /\ dep v = k).
      { intros v Hv. apply H2. eapply Permutation_in; eauto. }
      assert (Hnd : NoDup order) by (eapply Permutation_NoDup; [apply Permutation_sym|]; eauto).
      (* during the round *)
      assert (X : forall l pn1, (forall v, In v l -> v < n /\ dep v = k) -> NoDup l ->
        let pn2 := fold_left (number_children ch cut sz) l pn1 in
        (forall y, (forall v, In v l -> ~ In y (ch v)) -> pn2 y = pn1 y) /\ (forall v, In v l -> numbered pn2 v)).
      { induction l as [|a l IH]; intros pn1 Hl Hndl; simpl; [split; [auto|easy]|].
        inversion Hndl; subst. destruct (IH (number_children ch cut sz pn1 a)) as [I1 I2]; auto.
        { intros v Hv. apply Hl. now right. }
        destruct (Hl a (or_introl eq_refl)) as [Ha Hda]. split.
        - intros y Hy. rewrite I1 by (intros v Hv; apply Hy; now right). apply nc_other. apply Hy. now left.
        - intros v [<-|Hv]; auto. apply numbered_keep with (number_children ch cut sz pn1 a); [|now apply nc_at].
          intros y Hy. apply I1. intros v Hv Hyv. destruct (Hl v (or_intror Hv)) as [Hvn Hvd].
          destruct (ch_dep Hvn Hyv) as (B1 & B2 & B3). destruct Hy as [->|Hy]; [lia|].
          destruct (ch_dep Ha Hy) as (_ & _ & B4). congruence. }
      destruct (X order pn Hord Hnd) as [X1 X2]. cbv zeta in X1, X2.
      assert (Hlow : forall y, y < n -> dep y <= k -> fold_left (number_children ch cut sz) order pn y = pn y).
      { intros y Hy Hdy. apply X1. intros v Hv Hyv. destruct (Hord v Hv) as [Hvn Hvd].
        destruct (ch_dep Hvn Hyv) as (_ & B2 & _). lia. }
      split.
      + assert (Y : forall l, NoDup l -> (forall v, In v l -> v < n) -> NoDup (flat_map ch l)).
        { induction l as [|a l IH]; intros Hl Hln; simpl; [constructor|]. inversion Hl; subst.
          assert (Ha : a < n) by (apply Hln; now left).
          apply NoDup_app_iff. split; [apply (Hch Ha)|]. split; [apply IH; auto; intros; apply Hln; now right|].
          intros x Hx Hx'. apply in_flat_map in Hx' as (b & Hb & Hx').
          assert (Hbn : b < n) by (apply Hln; now right).
          destruct (ch_dep Ha Hx) as (_ & _ & E1). destruct (ch_dep Hbn Hx') as (_ & _ & E2). congruence. }
        apply Y; auto. intros v Hv. apply H2. auto.
      + intros v. rewrite in_flat_map. split.
        * intros (a & Ha & Hv). apply H2 in Ha as [Ha Hda]. destruct (ch_dep Ha Hv) as (B1 & B2 & _). lia.
        * intros [Hv Hd]. destruct (HP Hv) as [[_ B]|[B1 B2]]; [lia|]. exists (P v). split; [apply H2; split; auto; lia|].
          apply (Hch (HPn Hv)). auto.
      + intros r Hr Er. rewrite Hlow; auto. apply dep0 in Er; auto. lia.
      + intros v Hv Hd. destruct (Nat.eq_dec (dep v) k) as [E|E].
        * apply X2. eapply Permutation_in; [apply Permutation_sym; eauto|]. now apply H2.
        * apply numbered_keep with pn; [|apply H4; auto; lia]. intros y [->|Hy]; apply Hlow; auto; try lia.
          -- now apply (ch_dep Hv Hy).
          -- destruct (ch_dep Hv Hy) as (_ & B & _). lia.
  Qed.
  Lemma pre_result pn : preorder_result ch cut srcs sz pn ->
    (forall r, r < n -> P r = r -> pn r = 0) /\ forall v, v < n -> numbered pn v.
  Proof.
    intros (pn0 & k & H). apply pre_inv in H as [_ HF Hr HN]. split; auto. intros v Hv. apply HN; auto.
    assert (X : forall j u, u < n -> dep u = k + j -> False).
    { induction j as [|j IH]; intros u Hu Hd.
      - rewrite Nat.add_0_r in Hd. assert (In u []) by now apply HF. contradiction.
      - destruct (HP Hu) as [[_ B]|[B1 B2]]; [lia|]. apply (IH (P u)); auto. lia. }
    destruct (le_lt_dec k (dep v)) as [L|L]; auto. exfalso. apply (X (dep v - k) v Hv). lia.
  Qed.
  Lemma pre_ends : exists pn, preorder_result ch cut srcs sz pn.
  Proof.
    assert (X : forall j, (exists pn, preorder_result ch cut srcs sz pn) \/ exists pn F, preorder ch cut srcs sz (fun _ => 0) j pn F).
    { induction j as [|j [H|(pn & F & H)]]; auto.
      - right. do 2 eexists. constructor.
      - destruct F as [|f F]; [left; exists pn, (fun _ => 0), j; auto|]. right. do 2 eexists. eapply pre_round; eauto. easy. }
    destruct (X (S (list_max (map dep (seq 0 n))))) as [H|(pn & F & H)]; auto.
    exists pn, (fun _ => 0), (S (list_max (map dep (seq 0 n)))). destruct F as [|f F]; auto. exfalso.
    apply pre_inv in H. assert (Hf : In f (f :: F)) by now left. apply (p_F H) in Hf as [Hf Hd].
    pose proof (proj1 (list_max_le (map dep (seq 0 n)) _) (le_n _)) as HF. rewrite Forall_forall in HF.
    assert (Hle : dep f <= list_max (map dep (seq 0 n))); [|lia]. apply HF. apply in_map, in_seq. lia.
  Qed.

  (* -- intervals -------------------------------------------------------------------------- *)
  Hypothesis Hsz : forall d, d < n -> sz d = 1 + list_sum (map sz (ch d)).
  Variable pn : nat -> nat.
  Hypothesis Hpn : forall v, v < n -> numbered pn v.

  Lemma sz_pos d : d < n -> 1 <= sz d.
  Proof. intros H. rewrite Hsz; auto. lia. Qed.
  Lemma child_inside c : c < n -> P c <> c -> pn (P c) < pn c /\ pn c + sz c <= pn (P c) + sz (P c).
  Proof.
    intros Hc Hne. assert (Hin : In c (ch (P c))) by (apply (Hch (HPn Hc)); auto).
    apply in_split in Hin as (l1 & l2 & E). rewrite (Hpn (HPn Hc) E), (Hsz (HPn Hc)), E, map_app, list_sum_app. simpl. lia.
  Qed.
  Lemma siblings c c' : c < n -> c' < n -> P c = P c' -> P c <> c -> P c' <> c' -> c <> c' ->
    pn c + sz c <= pn c' \/ pn c' + sz c' <= pn c.
  Proof.
    intros Hc Hc' Ep Hne Hne' Hd. set (q := P c) in *. assert (Hq : q < n) by (unfold q; auto).
    assert (H1 : In c (ch q)) by (apply (Hch Hq); auto). assert (H2 : In c' (ch q)) by (apply (Hch Hq); repeat split; auto; congruence).
    apply in_split in H1 as (l1 & l2 & E). rewrite E in H2. apply in_app_iff in H2 as [H2|[H2|H2]]; [|congruence|].
    - right. apply in_split in H2 as (a & b & ->). pose proof (Hpn Hq E) as N1. rewrite <- app_assoc in E. simpl in E.
      pose proof (Hpn Hq E) as N2. rewrite N1, N2, map_app, list_sum_app. simpl. lia.
    - left. apply in_split in H2 as (a & b & ->). pose proof (Hpn Hq E) as N1.
      replace (l1 ++ c :: a ++ c' :: b) with ((l1 ++ c :: a) ++ c' :: b) in E by now rewrite <- app_assoc.
      pose proof (Hpn Hq E) as N2. rewrite N1, N2, map_app, list_sum_app. simpl. lia.
  Qed.
  Lemma sub_inside a y : y < n -> sub P a y -> pn a <= pn y /\ pn y + sz y <= pn a + sz a.
  Proof.
    intros Hy [k Hk]. revert a Hk. induction k as [|k IH]; intros a Hk; simpl in Hk; [subst; lia|].
    specialize (IH _ eq_refl). set (b := Nat.iter k P y) in *.
    assert (Hb : b < n). { unfold b. clear - HPn Hy. induction k; simpl; auto. }
    subst a. destruct (Nat.eq_dec (P b) b) as [->|Hne]; auto. pose proof (child_inside Hb Hne). lia.
  Qed.
End Pre.
