From Verif Require Import Base ListUtil GBModel GBSpec ISSpec ISProofs.

Section Keys.
  Context {W : Type}.
  Notation edge := (edge W).
  Definition key (e : edge) : nat * nat := fst e.
  Definition kle (a b : edge) : Prop := key_lt b a = false.
  Definition klt (a b : edge) : Prop := key_lt a b = true.

  Lemma key_eq (a b : edge) : key a = key b <-> src a = src b /\ dst a = dst b.
  Proof. unfold key, src, dst. destruct (fst a), (fst b). simpl. split; [intros E; injection E; auto|intros [-> ->]; auto]. Qed.
  Lemma klt_iff a b : klt a b <-> src a < src b \/ (src a = src b /\ dst a < dst b).
  Proof. unfold klt, key_lt. rewrite orb_true_iff, andb_true_iff, !Nat.ltb_lt, Nat.eqb_eq. tauto. Qed.
  Lemma kle_iff a b : kle a b <-> klt a b \/ key a = key b.
  Proof.
    unfold kle. rewrite key_eq. destruct (key_lt b a) eqn:E.
    - split; [discriminate|]. intros H. exfalso. apply klt_iff in E. rewrite klt_iff in H. lia.
    - split; auto. intros _. assert (H : ~ klt b a) by (unfold klt; congruence). rewrite klt_iff in H. rewrite klt_iff. lia.
  Qed.
  Lemma kle_src a b : kle a b -> src a <= src b.
  Proof. rewrite kle_iff, klt_iff, key_eq. lia. Qed.
  Lemma klt_trans a b c : klt a b -> klt b c -> klt a c.
  Proof. rewrite !klt_iff. lia. Qed.
  Lemma klt_key_l a b c : key a = key b -> klt b c -> klt a c.
  Proof. rewrite key_eq, !klt_iff. lia. Qed.

  (* -- duplicate removal -------------------------------------------------------- *)
  Definition keepg (ok : edge -> bool) (prev : option edge) (e : edge) : bool :=
    ok e && match prev with None => true | Some p => negb ((src p =? src e) && (dst p =? dst e)) end.
  Lemma keep_sym_g prev e : keep_sym prev e = keepg (fun _ => true) prev e.
  Proof. unfold keep_sym, keepg. destruct prev; simpl; auto. now rewrite negb_andb. Qed.
  Lemma filter_prev_ext k1 k2 prev (es : list edge) : (forall p e, k1 p e = k2 p e) -> filter_prev k1 prev es = filter_prev k2 prev es.
  Proof. intros H. revert prev; induction es as [|e es IH]; intros prev; simpl; auto. now rewrite H, !IH. Qed.

  Definition from_prev (prev : option edge) (x : edge) : Prop := match prev with None => True | Some p => klt p x end.
  Definition prev_le (prev : option edge) (es : list edge) : Prop := match prev with None => True | Some p => Forall (kle p) es end.

  Lemma keepg_true ok prev e : keepg ok prev e = true <-> ok e = true /\ match prev with None => True | Some p => key p <> key e end.
  Proof.
    unfold keepg. rewrite andb_true_iff. destruct prev as [p|]; [|tauto].
    rewrite negb_true_iff, key_eq. split; intros [H1 H2]; split; auto.
    - intros [E1 E2]. rewrite E1, E2, !Nat.eqb_refl in H2. discriminate.
    - apply not_true_iff_false. rewrite andb_true_iff, !Nat.eqb_eq. auto.
  Qed.

  Lemma dedupe_sorted ok es : forall prev, StronglySorted kle es -> prev_le prev es ->
    let r := filter_prev (keepg ok) prev es in
    StronglySorted klt r /\ forall x, In x r -> In x es /\ ok x = true /\ from_prev prev x.
  Proof.
    induction es as [|e es IH]; intros prev Hs Hp; simpl; [split; [constructor|easy]|].
    inversion Hs as [|? ? Hs' He]; subst. destruct (IH (Some e) Hs' He) as [I1 I2].
    destruct (keepg ok prev e) eqn:Ek.
    - apply keepg_true in Ek as [Ok Ne].
      assert (Hpe : from_prev prev e).
      { destruct prev as [p|]; simpl; auto. simpl in Hp. inversion Hp as [|? ? Hpe ?]; subst.
        apply kle_iff in Hpe as [?|?]; auto. contradiction. }
      split.
      + constructor; auto. apply Forall_forall. intros x Hx. apply I2 in Hx. apply Hx.
      + intros x [<-|Hx]; [split; auto|]. apply I2 in Hx as (H1 & H2 & H3). simpl in H3.
        repeat split; auto. destruct prev as [p|]; simpl in *; auto. eapply klt_trans; eauto.
    - split; auto. intros x Hx. apply I2 in Hx as (H1 & H2 & H3). simpl in H3. repeat split; auto.
      destruct prev as [p|]; simpl in *; auto. inversion Hp as [|? ? Hpe ?]; subst.
      apply kle_iff in Hpe as [?|?]; [eapply klt_trans|eapply klt_key_l]; eauto.
  Qed.
  Lemma dedupe_covers ok es : (forall a b, key a = key b -> ok a = ok b) -> forall prev x, In x es -> ok x = true ->
    (exists y, In y (filter_prev (keepg ok) prev es) /\ key y = key x) \/ (exists p, prev = Some p /\ key p = key x).
  Proof.
    intros Hok. induction es as [|e es IH]; intros prev x Hx Hox; simpl; [destruct Hx|].
    destruct (keepg ok prev e) eqn:Ek.
    - left. destruct Hx as [->|Hx]; [exists x; simpl; auto|].
      destruct (IH (Some e) x Hx Hox) as [(y & H1 & H2)|(p & H1 & H2)]; [exists y; simpl; auto|].
      injection H1 as <-. exists e. simpl. auto.
    - assert (Hcase : key e = key x -> exists p, prev = Some p /\ key p = key x).
      { intros Exx. destruct prev as [p|].
        - exists p. split; auto. destruct (Nat.eq_dec (src p) (src e)), (Nat.eq_dec (dst p) (dst e)).
          + transitivity (key e); auto. now apply key_eq.
          + exfalso. assert (keepg ok (Some p) e = true); [|congruence]. apply keepg_true. split; [now rewrite (Hok e x)|].
            rewrite key_eq. tauto.
          + exfalso. assert (keepg ok (Some p) e = true); [|congruence]. apply keepg_true. split; [now rewrite (Hok e x)|].
            rewrite key_eq. tauto.
          + exfalso. assert (keepg ok (Some p) e = true); [|congruence]. apply keepg_true. split; [now rewrite (Hok e x)|].
            rewrite key_eq. tauto.
        - exfalso. assert (keepg ok None e = true); [|congruence]. apply keepg_true. split; auto. now rewrite (Hok e x). }
      destruct Hx as [->|Hx]; [right; auto|].
      destruct (IH (Some e) x Hx Hox) as [?|(p & H1 & H2)]; [now left|]. injection H1 as <-. right. auto.
  Qed.
End Keys.

(* -- ranks and offsets ------------------------------------------------------------ *)
Section Rank.
  Context {W : Type}.
  Variable es : list (edge W).
  Definition src_le (a b : edge W) : Prop := src a <= src b.
  Hypothesis Hs : StronglySorted src_le es.
  Definition rank (k : nat) : nat := length (filter (fun e => src e <? k) es).

  Lemma rank_le k : rank k <= length es.
  Proof. apply filter_len_le. Qed.

  Lemma nth_src_nth i e : i < length es -> nth_src es i = src (nth i es e).
  Proof. intros H. unfold nth_src. rewrite (nth_indep _ 0 (src e)) by now rewrite map_length. now rewrite map_nth. Qed.
End Rank.

Lemma sorted_src_tail {W} (x : edge W) l : StronglySorted src_le (x :: l) -> StronglySorted src_le l /\ forall y, In y l -> src x <= src y.
Proof. intros H. inversion H; subst. split; auto. now apply Forall_forall. Qed.

Lemma rank_spec {W} (es : list (edge W)) k i : StronglySorted src_le es -> i < length es -> (nth_src es i < k <-> i < rank es k).
Proof.
  revert i; induction es as [|x l IH]; intros i Hs Hi; [simpl in Hi; lia|].
  apply sorted_src_tail in Hs as [Hs Hx]. unfold rank. simpl. destruct (Nat.ltb_spec (src x) k) as [Hlt|Hge].
  - simpl. destruct i as [|i]; [unfold nth_src; simpl; lia|]. simpl in Hi.
    change (nth_src (x :: l) (S i)) with (nth_src l i). rewrite (IH i Hs ltac:(lia)). unfold rank. lia.
  - assert (E : filter (fun e => src e <? k) l = []).
    { apply filter_none. intros y Hy. apply Hx in Hy. apply Nat.ltb_ge. lia. }
    rewrite E. simpl. split; [|lia]. intros H. exfalso. destruct i as [|i]; [unfold nth_src in H; simpl in H; lia|].
    change (nth_src (x :: l) (S i)) with (nth_src l i) in H. simpl in Hi.
    rewrite (nth_src_nth l x) in H by lia. pose proof (Hx (nth i l x) ltac:(apply nth_In; lia)). lia.
Qed.

Lemma nth_src_mono {W} (es : list (edge W)) i : StronglySorted src_le es -> S i < length es -> nth_src es i <= nth_src es (S i).
Proof.
  revert i; induction es as [|x l IH]; intros i Hs Hi; [simpl in Hi; lia|]. apply sorted_src_tail in Hs as [Hs Hx].
  simpl in Hi. destruct i as [|i].
  - change (nth_src (x :: l) 1) with (nth_src l 0). rewrite (nth_src_nth l x) by lia. unfold nth_src. simpl. apply Hx, nth_In. lia.
  - apply (IH i Hs). lia.
Qed.

Lemma rank_0 {W} (es : list (edge W)) : rank es 0 = 0.
Proof. unfold rank. now rewrite filter_none. Qed.
Lemma rank_all {W} (es : list (edge W)) n : Forall (fun e => src e < n) es -> rank es n = length es.
Proof. intros H. unfold rank. rewrite filter_all; auto. intros e He. rewrite Forall_forall in H. apply Nat.ltb_lt. auto. Qed.
Lemma split_rank {W} (es : list (edge W)) v : StronglySorted src_le es ->
  filter (fun e => src e <? S v) es = filter (fun e => src e <? v) es ++ filter (fun e => src e =? v) es.
Proof.
  induction es as [|x l IH]; intros Hs; simpl; auto. apply sorted_src_tail in Hs as [Hs Hx].
  destruct (Nat.ltb_spec (src x) v) as [H1|H1].
  - rewrite (proj2 (Nat.ltb_lt _ _)) by lia. destruct (Nat.eqb_spec (src x) v); [lia|]. simpl. now rewrite IH.
  - assert (E : filter (fun e => src e <? v) l = []).
    { apply filter_none. intros y Hy. apply Hx in Hy. apply Nat.ltb_ge. lia. }
    rewrite E in IH |- *. destruct (Nat.eqb_spec (src x) v) as [H2|H2].
    + rewrite (proj2 (Nat.ltb_lt _ _)) by lia. simpl. now rewrite IH.
    + rewrite (proj2 (Nat.ltb_ge _ _)) by lia. now rewrite IH.
Qed.
Lemma filter_firstn_rank {W} (es : list (edge W)) k : StronglySorted src_le es -> firstn (rank es k) es = filter (fun e => src e <? k) es.
Proof.
  unfold rank. induction es as [|x l IH]; intros Hs; simpl; auto. apply sorted_src_tail in Hs as [Hs Hx].
  destruct (Nat.ltb_spec (src x) k) as [H1|H1]; simpl; [now rewrite IH|].
  assert (E : filter (fun e => src e <? k) l = []).
  { apply filter_none. intros y Hy. apply Hx in Hy. apply Nat.ltb_ge. lia. }
  now rewrite E.
Qed.
Lemma segment {W} (es : list (edge W)) v : StronglySorted src_le es ->
  firstn (rank es (S v) - rank es v) (skipn (rank es v) es) = filter (fun e => src e =? v) es.
Proof.
  intros Hs. assert (Hle : rank es v <= rank es (S v)).
  { unfold rank. rewrite (split_rank v Hs), app_length. lia. }
  rewrite firstn_skipn_comm. replace (rank es v + (rank es (S v) - rank es v)) with (rank es (S v)) by lia.
  rewrite filter_firstn_rank, (split_rank v Hs) by auto. unfold rank. rewrite skipn_app, skipn_all, Nat.sub_diag. reflexivity.
Qed.

(* -- stores in any order ------------------------------------------------------------ *)
Lemma run_stores_consistent {A} (f : nat -> A) n (st : list (nat * A)) : forall arr, length arr = n ->
  (forall k x, In (k, x) st -> k < n /\ x = f k) ->
  exists arr', run_stores st arr = Some arr' /\ length arr' = n /\
    forall k, k < n -> (nth_error arr' k = Some (f k) /\ (exists x, In (k, x) st)) \/
                       (nth_error arr' k = nth_error arr k /\ forall x, ~ In (k, x) st).
Proof.
  induction st as [|[k x] st IH]; intros arr Hl H; simpl.
  - exists arr. repeat split; auto.
  - destruct (H k x (or_introl eq_refl)) as [Hk ->]. rewrite Hl, (proj2 (Nat.ltb_lt _ _) Hk).
    destruct (IH (lset arr k (f k))) as (arr' & E & Hl' & HA); [now rewrite length_lset|intros; apply H; now right|].
    exists arr'. split; auto. split; auto. intros k' Hk'. destruct (HA k' Hk') as [[H1 (x & Hx)]|[H1 H2]].
    + left. split; eauto.
    + destruct (Nat.eq_dec k k') as [->|Hne].
      * left. split; [|eauto]. rewrite H1. apply nth_error_lset_same. lia.
      * right. split; [rewrite H1; now apply nth_error_lset_other|]. intros x [E'|Hx]; [congruence|]. eapply H2; eauto.
Qed.

Section Offsets.
  Context {W : Type}.
  Variable es : list (edge W).
  Variable n : nat.
  Hypothesis Hs : StronglySorted src_le es.
  Hypothesis Hn : Forall (fun e => src e < n) es.

  Lemma nth_src_lt i : i < length es -> nth_src es i < n.
  Proof.
    intros Hi. destruct es as [|e0 l] eqn:E; [simpl in Hi; lia|]. rewrite <- E in *. rewrite (nth_src_nth es e0) by auto.
    rewrite Forall_forall in Hn. apply Hn. now apply nth_In.
  Qed.
  Lemma rank_at i k : i < length es -> nth_src es i < k -> (i + 1 = length es \/ k <= nth_src es (i + 1)) -> rank es k = i + 1.
  Proof.
    intros Hi H1 H2. pose proof (rank_le es k). apply (rank_spec k Hs Hi) in H1. destruct H2 as [H2|H2]; [lia|].
    destruct (Nat.eq_dec (i + 1) (length es)); [lia|].
    assert (~ (i + 1 < rank es k)); [|lia]. rewrite <- (rank_spec k Hs) by lia. lia.
  Qed.

  Lemma stores_rank i k x : i < length es -> In (k, x) (offset_stores n es i) -> k < n /\ x = rank es k.
  Proof.
    intros Hi. unfold offset_stores. rewrite !in_app_iff. intros [H|[H|H]].
    - destruct (i =? 0) eqn:E0; simpl in H.
      + destruct H as [H|[]]. injection H as <- <-. apply Nat.eqb_eq in E0. subst i. split; [now apply nth_src_lt|].
        symmetry. pose proof (rank_spec (nth_src es 0) Hs Hi). lia.
      + apply Nat.eqb_neq in E0. destruct (Nat.eqb_spec (nth_src es i) (nth_src es (i - 1))) as [E|E]; [destruct H|].
        destruct H as [H|[]]. injection H as <- <-. split; [now apply nth_src_lt|]. symmetry.
        pose proof (@nth_src_mono W es (i - 1) Hs ltac:(lia)) as Hm. replace (S (i - 1)) with i in Hm by lia.
        rewrite (@rank_at (i - 1)); try lia. right. replace (i - 1 + 1) with i by lia. lia.
    - destruct (Nat.eqb_spec i (length es - 1)) as [E|E]; [destruct H|]. cbv [negb] in H.
      destruct (_ && _) eqn:E2 in H; [|destruct H]. apply in_map_iff in H as (k' & E' & Hk'). injection E' as -> <-.
      apply in_seq in Hk'. assert (Hlt : i + 1 < length es) by lia. pose proof (nth_src_lt Hlt). split; [lia|].
      symmetry. apply rank_at; auto; lia.
    - destruct (Nat.eqb_spec i (length es - 1)) as [E|E]; [|destruct H].
      apply in_map_iff in H as (j & E' & Hj). injection E' as -> <-. apply in_seq in Hj. split; [lia|].
      symmetry. rewrite (@rank_at i); lia.
  Qed.
  Lemma stores_cover k : k < n -> rank es k = 0 \/ exists x, In (k, x) (all_offset_stores n es).
  Proof.
    intros Hk. destruct (Nat.eq_dec (rank es k) 0) as [E|E]; [now left|]. right.
    pose proof (rank_le es k) as Hle. set (r := rank es k) in *.
    assert (H1 : nth_src es (r - 1) < k) by (apply (rank_spec k Hs); fold r; lia).
    destruct (Nat.eq_dec r (length es)) as [Er|Er].
    - exists (length es). apply in_flat_map. exists (r - 1). split; [apply in_seq; lia|].
      unfold offset_stores. rewrite !in_app_iff. right. right. rewrite (proj2 (Nat.eqb_eq _ _)) by lia.
      apply in_map_iff. exists k. split; auto. apply in_seq. lia.
    - assert (H2 : k <= nth_src es r).
      { assert (~ nth_src es r < k); [|lia]. rewrite (rank_spec k Hs) by lia. fold r. lia. }
      destruct (Nat.eq_dec (nth_src es r) k) as [Ek|Ek].
      + exists r. apply in_flat_map. exists r. split; [apply in_seq; lia|]. unfold offset_stores. rewrite !in_app_iff. left.
        destruct (Nat.eqb_spec r 0); [lia|]. destruct (Nat.eqb_spec (nth_src es r) (nth_src es (r - 1))); [lia|].
        simpl. left. congruence.
      + exists (r - 1 + 1). apply in_flat_map. exists (r - 1). split; [apply in_seq; lia|]. unfold offset_stores. rewrite !in_app_iff. right. left.
        destruct (Nat.eqb_spec (r - 1) (length es - 1)); [lia|]. simpl. replace (r - 1 + 1) with r by lia.
        destruct (Nat.eqb_spec (nth_src es (r - 1)) (nth_src es r)); [lia|].
        destruct (Nat.eqb_spec (nth_src es (r - 1) + 1) (nth_src es r)); [lia|]. simpl.
        apply in_map_iff. exists k. split; auto. apply in_seq. lia.
  Qed.

  Definition good_offs (offs : list nat) : Prop := length offs = n /\ forall k, k < n -> nth k offs 0 = rank es k.

  Lemma compute_offsets_ok order : Permutation order (all_offset_stores n es) ->
    exists offs, compute_offsets n order = Some offs /\ good_offs offs.
  Proof.
    intros Hp. unfold compute_offsets.
    destruct (@run_stores_consistent nat (rank es) n order (repeat 0 n)) as (offs & E & Hl & HA).
    { apply repeat_length. }
    { intros k x Hx. apply (Permutation_in _ Hp) in Hx. unfold all_offset_stores in Hx.
      apply in_flat_map in Hx as (i & Hi & Hx). apply in_seq in Hi. apply (@stores_rank i); auto. lia. }
    exists offs. split; auto. split; auto. intros k Hk. destruct (HA k Hk) as [[H1 _]|[H1 H2]].
    - now apply nth_error_nth.
    - destruct (stores_cover Hk) as [E0|(x & Hx)]; [|exfalso; apply (H2 x), (Permutation_in _ (Permutation_sym Hp)), Hx].
      rewrite E0. apply nth_error_nth. rewrite H1. apply nth_error_nth' with (d := 0) in Hk || idtac.
      rewrite (nth_error_nth' _ 0) by now rewrite repeat_length. f_equal. apply nth_repeat.
  Qed.

  Lemma rank_top : rank es n = length es.
  Proof. now apply rank_all. Qed.

  Lemma csr_good offs : good_offs offs ->
    let G := {| gn := n; gm := length es; goff := offs; gdeg := degrees_of n (length es) offs; gngh := get_neighbors es |} in
    tiled G /\ forall v, v < n -> neighbors G v = get_neighbors (filter (fun e => src e =? v) es).
  Proof.
    intros [Hl Ho] G.
    assert (Hdeg : forall v, v < n -> nth v (gdeg G) 0 = rank es (S v) - rank es v).
    { intros v Hv. unfold G, degrees_of. cbn [gdeg]. rewrite nth_map_seq by auto. rewrite (Ho v Hv).
      destruct (Nat.eqb_spec v (n - 1)) as [E|E].
      - replace (S v) with n by lia. now rewrite rank_top.
      - rewrite Ho by lia. now rewrite Nat.add_1_r. }
    assert (Hmono : forall v, rank es v <= rank es (S v)).
    { intros v. unfold rank. rewrite (split_rank v Hs), app_length. lia. }
    split.
    - split; [exact Hl|]. split; [unfold G, degrees_of; cbn [gdeg gn]; now rewrite map_length, seq_length|].
      split; [apply map_length|]. split.
      + intros H. cbn [goff G]. unfold G. cbn [goff gn]. unfold G in H; cbn [gn] in H. rewrite Ho by auto. apply rank_0.
      + intros v Hv. change (gn G) with n in *. rewrite Hdeg by auto. change (goff G) with offs. change (gm G) with (length es).
        rewrite (Ho v Hv). pose proof (Hmono v). destruct (Nat.eqb_spec v (n - 1)) as [E|E].
        * rewrite <- rank_top. replace n with (S v) by lia. lia.
        * rewrite Ho by lia. rewrite Nat.add_1_r. lia.
    - intros v Hv. unfold neighbors. rewrite Hdeg by auto. change (goff G) with offs. rewrite (Ho v Hv).
      change (gngh G) with (get_neighbors es). unfold get_neighbors. rewrite skipn_map, firstn_map. now rewrite segment.
  Qed.
  Lemma csr_of_ok order : Permutation order (all_offset_stores n es) ->
    exists G, csr_of n es order = Some G /\ gn G = n /\ gm G = length es /\ tiled G /\
      forall v, v < n -> neighbors G v = get_neighbors (filter (fun e => src e =? v) es).
  Proof.
    intros Hp. destruct (compute_offsets_ok Hp) as (offs & E & Hg). unfold csr_of. rewrite E.
    eexists. split; [reflexivity|]. split; [reflexivity|]. split; [reflexivity|]. now apply csr_good.
  Qed.

  (* -- the edge-list variant ------------------------------------------------------- *)
  Hypothesis Hne : es <> [].
  Lemma es_len : 0 < length es.
  Proof. destruct es; [congruence|simpl; lia]. Qed.
  Lemma vdata_rank k x : In (k, x) (vdata_stores n es) -> k < n /\ x = Some (rank es k).
  Proof.
    pose proof es_len as Hlen. unfold vdata_stores. rewrite !in_app_iff. intros [H|[H|H]].
    - apply in_map_iff in H as (j & E & Hj). injection E as -> <-. apply in_seq in Hj. pose proof (nth_src_lt Hlen).
      split; [lia|]. f_equal. pose proof (rank_spec k Hs Hlen). lia.
    - apply in_flat_map in H as (i & Hi & H). apply in_seq in Hi.
      destruct (Nat.eqb_spec (nth_src es i) (nth_src es (i - 1))) as [E|E]; [destruct H|]. cbv [negb] in H.
      apply in_map_iff in H as (j & E' & Hj). injection E' as -> <-. apply in_seq in Hj.
      assert (Hlt : i < length es) by lia. pose proof (nth_src_lt Hlt). split; [lia|]. f_equal.
      symmetry. rewrite (@rank_at (i - 1)); try lia. right. replace (i - 1 + 1) with i by lia. lia.
    - apply in_map_iff in H as (j & E' & Hj). injection E' as -> <-. apply in_seq in Hj. split; [lia|]. f_equal.
      symmetry. rewrite (@rank_at (length es - 1)); lia.
  Qed.
  Lemma vdata_cover k : k < n -> exists x, In (k, x) (vdata_stores n es).
  Proof.
    intros Hk. pose proof es_len as Hlen. pose proof (rank_le es k) as Hle. set (r := rank es k) in *.
    unfold vdata_stores. destruct (Nat.eq_dec r 0) as [E|E].
    - exists (Some 0). rewrite !in_app_iff. left. apply in_map_iff. exists k. split; auto. apply in_seq.
      assert (~ nth_src es 0 < k); [|lia]. rewrite (rank_spec k Hs Hlen). fold r. lia.
    - assert (H1 : nth_src es (r - 1) < k) by (apply (rank_spec k Hs); fold r; lia).
      destruct (Nat.eq_dec r (length es)) as [Er|Er].
      + exists (Some (length es)). rewrite !in_app_iff. right. right. apply in_map_iff. exists k. split; auto. apply in_seq. rewrite <- Er. lia.
      + assert (H2 : k <= nth_src es r).
        { assert (~ nth_src es r < k); [|lia]. rewrite (rank_spec k Hs) by lia. fold r. lia. }
        exists (Some r). rewrite !in_app_iff. right. left. apply in_flat_map. exists r. split; [apply in_seq; lia|].
        destruct (Nat.eqb_spec (nth_src es r) (nth_src es (r - 1))); [lia|]. simpl.
        apply in_map_iff. exists k. split; auto. apply in_seq. lia.
  Qed.
  Lemma all_some_nth {A} (l : list (option A)) d : (forall i, i < length l -> exists x, nth_error l i = Some (Some x)) ->
    exists l', all_some l = Some l' /\ length l' = length l /\ forall i, i < length l -> nth_error l i = Some (Some (nth i l' d)).
  Proof.
    induction l as [|o l IH]; intros H; simpl.
    - exists []. repeat split; auto. simpl. lia.
    - destruct (H 0 ltac:(simpl; lia)) as (x & E). simpl in E. injection E as ->.
      destruct IH as (l' & E' & Hl & Hn'). { intros i Hi. apply (H (S i)). simpl. lia. }
      exists (x :: l'). rewrite E'. simpl. repeat split; auto.
      intros i Hi. destruct i; simpl; auto. apply Hn'. lia.
  Qed.
  Lemma vdata_offsets_ok order : Permutation order (vdata_stores n es) ->
    exists offs, vdata_offsets n order = Some offs /\ good_offs offs.
  Proof.
    intros Hp. unfold vdata_offsets.
    destruct (@run_stores_consistent (option nat) (fun k => Some (rank es k)) n order (repeat None n)) as (arr & E & Hl & HA).
    { apply repeat_length. }
    { intros k x Hx. apply vdata_rank. eapply Permutation_in; eauto. }
    rewrite E.
    assert (HB : forall k, k < n -> nth_error arr k = Some (Some (rank es k))).
    { intros k Hk. destruct (HA k Hk) as [[H1 _]|[_ H2]]; auto. exfalso. destruct (vdata_cover Hk) as (x & Hx).
      apply (H2 x). eapply Permutation_in; [apply Permutation_sym|]; eauto. }
    destruct (@all_some_nth nat arr 0) as (l' & E' & Hl' & Hn'). { intros i Hi. rewrite Hl in Hi. eauto. }
    exists l'. split; auto. split; [congruence|]. intros k Hk. pose proof (Hn' k ltac:(lia)) as H1. rewrite HB in H1 by auto. congruence.
  Qed.
  Lemma edges_to_csr_ok order : Permutation order (vdata_stores n es) ->
    exists G, edges_to_csr n es order = Some (Built G) /\ gn G = n /\ gm G = length es /\ tiled G /\
      forall v, v < n -> neighbors G v = get_neighbors (filter (fun e => src e =? v) es).
  Proof.
    intros Hp. destruct (vdata_offsets_ok Hp) as (offs & E & Hg). unfold edges_to_csr. rewrite E.
    destruct (Nat.eqb_spec (length es) 0) as [E0|_]; [pose proof es_len; lia|].
    eexists. split; [reflexivity|]. split; [reflexivity|]. split; [reflexivity|]. now apply csr_good.
  Qed.
End Offsets.

Lemma sorted_impl {A} (R S : A -> A -> Prop) l : (forall a b, R a b -> S a b) -> StronglySorted R l -> StronglySorted S l.
Proof. intros H. induction 1 as [|a l Hl IH Ha]; constructor; auto. eapply Forall_impl; [|exact Ha]. auto. Qed.
Lemma sorted_filter {A} (R : A -> A -> Prop) f l : StronglySorted R l -> StronglySorted R (filter f l).
Proof.
  induction 1 as [|a l Hl IH Ha]; simpl; [constructor|]. destruct (f a); auto. constructor; auto.
  apply Forall_forall. intros x Hx. apply filter_In in Hx. rewrite Forall_forall in Ha. now apply Ha.
Qed.
Lemma sorted_map {A B} (f : A -> B) (R : B -> B -> Prop) l : StronglySorted (fun a b => R (f a) (f b)) l -> StronglySorted R (map f l).
Proof.
  induction 1 as [|a l Hl IH Ha]; simpl; constructor; auto. now apply Forall_map.
Qed.
Lemma sorted_in_impl {A} (R S : A -> A -> Prop) l : (forall a b, In a l -> In b l -> R a b -> S a b) -> StronglySorted R l -> StronglySorted S l.
Proof.
  intros H HR. revert H. induction HR as [|a l Hl IH Ha]; intros H; constructor.
  - apply IH. intros; apply H; auto; now right.
  - apply Forall_forall. intros x Hx. apply H; [now left|now right|]. rewrite Forall_forall in Ha. auto.
Qed.
Lemma klt_src_le {W} (l : list (edge W)) : StronglySorted klt l -> StronglySorted src_le l.
Proof. apply sorted_impl. intros a b H. apply klt_iff in H. unfold src_le. lia. Qed.
Lemma kle_src_le {W} (l : list (edge W)) : StronglySorted kle l -> StronglySorted src_le l.
Proof. apply sorted_impl. intros a b H. now apply kle_src. Qed.

(* the neighbour list of v in a strictly sorted edge list *)
Lemma ids_increasing {W} (l : list (edge W)) v : StronglySorted klt l ->
  increasing (ids (get_neighbors (filter (fun e => src e =? v) l))).
Proof.
  intros H. unfold ids, get_neighbors. rewrite map_map. simpl. apply sorted_map.
  apply sorted_in_impl with (R := klt); [|now apply sorted_filter].
  intros a b Ha Hb Hab. apply filter_In in Ha as [_ Ha], Hb as [_ Hb]. apply Nat.eqb_eq in Ha, Hb. apply klt_iff in Hab. lia.
Qed.
Lemma ids_sorted {W} (l : list (edge W)) v : StronglySorted kle l ->
  StronglySorted le (ids (get_neighbors (filter (fun e => src e =? v) l))).
Proof.
  intros H. unfold ids, get_neighbors. rewrite map_map. simpl. apply sorted_map.
  apply sorted_in_impl with (R := kle); [|now apply sorted_filter].
  intros a b Ha Hb Hab. apply filter_In in Ha as [_ Ha], Hb as [_ Hb]. apply Nat.eqb_eq in Ha, Hb.
  apply kle_iff in Hab. rewrite klt_iff, key_eq in Hab. lia.
Qed.
Lemma In_neighbors {W} (l : list (edge W)) v u w :
  In (u, w) (get_neighbors (filter (fun e => src e =? v) l)) <-> In (v, u, w) l.
Proof.
  unfold get_neighbors. rewrite in_map_iff. split.
  - intros ([[a b] c] & E & H). apply filter_In in H as [H Hv]. unfold src in Hv. simpl in *. apply Nat.eqb_eq in Hv.
    unfold dst, wgh in E. simpl in E. now injection E as <- <-; subst.
  - intros H. exists (v, u, w). split; auto. apply filter_In. split; auto. unfold src. simpl. apply Nat.eqb_refl.
Qed.
Lemma In_ids {W} (l : list (edge W)) v u :
  In u (ids (get_neighbors (filter (fun e => src e =? v) l))) <-> exists w, In (v, u, w) l.
Proof.
  unfold ids. rewrite in_map_iff. split.
  - intros ([u' w] & E & H). simpl in E. subst. apply In_neighbors in H. eauto.
  - intros (w & H). exists (u, w). split; auto. now apply In_neighbors.
Qed.
Lemma In_both {W} (es : list (edge W)) v u w : In (v, u, w) (both es) <-> In (v, u, w) es \/ In (u, v, w) es.
Proof.
  unfold both. rewrite in_flat_map. split.
  - intros ([[a b] c] & H & [E|[E|[]]]); [left; rewrite <- E; exact H|]. unfold flip, src, dst, wgh in E. simpl in E. injection E as <- <- <-. auto.
  - intros [H|H]; [exists (v, u, w)|exists (u, v, w)]; (split; [exact H|simpl; auto]).
Qed.
