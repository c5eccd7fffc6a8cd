From Coq Require Import Permutation.
From Verif Require Import Base GBModel TUProofs GNSpec CZModel CZSpec.
Unset Strict Implicit.

Fixpoint idx (c : nat) (l : list nat) : option nat :=
  match l with [] => None | x :: l => if x =? c then Some 0 else option_map S (idx c l) end.
Lemma idx_some c l k : idx c l = Some k -> nth_error l k = Some c.
Proof.
  revert k. induction l as [|x l IH]; intros k H; simpl in H; [discriminate|]. destruct (Nat.eqb_spec x c).
  - inversion H; subst. reflexivity.
  - destruct (idx c l) as [k'|]; [|discriminate]. inversion H; subst. simpl. auto.
Qed.
Lemma idx_none c l : idx c l = None <-> ~ In c l.
Proof.
  induction l as [|x l IH]; simpl; [tauto|]. destruct (Nat.eqb_spec x c).
  - split; [discriminate|]. intros H. exfalso. auto.
  - destruct (idx c l) as [k|]; simpl.
    + split; [discriminate|]. intros H. assert (X : Some k = None) by (apply (proj2 IH); tauto). discriminate X.
    + split; auto. intros _ [H|H]; [congruence|]. apply (proj1 IH); auto.
Qed.
Lemma idx_nodup l k c : NoDup l -> nth_error l k = Some c -> idx c l = Some k.
Proof.
  revert k. induction l as [|x l IH]; intros [|k] Hd H; simpl in *; try discriminate.
  - inversion H; subst. now rewrite Nat.eqb_refl.
  - inversion Hd; subst. destruct (Nat.eqb_spec x c) as [->|].
    + exfalso. apply H2. eapply nth_error_In. exact H.
    + rewrite (IH k); auto.
Qed.
Lemma idx_app c l r : In c l -> idx c (l ++ r) = idx c l.
Proof.
  induction l as [|x l IH]; simpl; intros H; [tauto|]. destruct (Nat.eqb_spec x c); auto. destruct H; [congruence|]. now rewrite IH.
Qed.

Fixpoint ranks (seen l : list nat) : list nat :=
  match l with
  | [] => []
  | c :: l => match idx c seen with Some k => S k :: ranks seen l | None => S (length seen) :: ranks (seen ++ [c]) l end
  end.
Lemma idx_snoc c d seen : ~ In c seen -> idx d (seen ++ [c]) = if d =? c then Some (length seen) else idx d seen.
Proof.
  intros H. induction seen as [|x l IH]; simpl.
  - rewrite Nat.eqb_sym. destruct (d =? c); reflexivity.
  - simpl in H. destruct (Nat.eqb_spec x d).
    + destruct (Nat.eqb_spec d c); auto. subst. tauto.
    + rewrite IH by tauto. destruct (d =? c); reflexivity.
Qed.
Lemma loop_ranks l : forall cm seen, (forall c, In c l -> c < length cm) ->
  (forall c, c < length cm -> nth_error cm c = Some (match idx c seen with Some k => S k | None => 0 end)) ->
  relabel_loop cm (S (length seen)) l = Some (ranks seen l).
Proof.
  induction l as [|c l IH]; intros cm seen Hl Hcm; simpl; auto. rewrite Hcm by (apply Hl; simpl; auto).
  destruct (idx c seen) as [k|] eqn:E.
  - rewrite IH; auto. intros d Hd. apply Hl. simpl; auto.
  - assert (E2 : S (S (length seen)) = S (length (seen ++ [c]))) by (rewrite app_length; simpl; lia). rewrite E2, IH; auto.
    + intros d Hd. rewrite length_lset. apply Hl. simpl; auto.
    + intros d Hd. rewrite length_lset in Hd. apply idx_none in E. rewrite idx_snoc by auto. destruct (Nat.eqb_spec d c) as [->|Hne].
      * apply nth_error_lset_same. exact Hd.
      * rewrite nth_error_lset_other by auto. apply Hcm. exact Hd.
Qed.
Lemma nth_error_repeat0 n c : c < n -> nth_error (repeat 0 n) c = Some 0.
Proof. revert c. induction n as [|n IH]; intros [|c] H; simpl; auto; try lia. apply IH. lia. Qed.
Lemma lset_repeat0 n c : lset (repeat 0 n) c 0 = repeat 0 n.
Proof. revert c. induction n as [|n IH]; intros [|c]; simpl; auto. now rewrite IH. Qed.
Theorem relabel_eq c l : (forall x, In x (c :: l) -> x <= length (c :: l)) -> RelabelDet (c :: l) = Some (0 :: ranks [] l).
Proof.
  intros H. unfold RelabelDet. set (m := length (c :: l) + 1). cbn [relabel_loop].
  rewrite nth_error_repeat0 by (specialize (H c (or_introl eq_refl)); unfold m; lia). rewrite lset_repeat0.
  change 1 with (S (length (@nil nat))). rewrite loop_ranks; auto.
  - intros x Hx. rewrite repeat_length. specialize (H x (or_intror Hx)). unfold m. lia.
  - intros x Hx. rewrite repeat_length in Hx. cbn [idx]. now apply nth_error_repeat0.
Qed.

Definition pattern (a b : list nat) : Prop := forall i j, i < length a -> j < length a -> (nth i a 0 = nth j a 0 <-> nth i b 0 = nth j b 0).
Lemma idx_pattern s1 s2 c1 c2 l1 l2 : length s1 = length s2 -> NoDup s1 -> NoDup s2 -> pattern (s1 ++ c1 :: l1) (s2 ++ c2 :: l2) -> idx c1 s1 = idx c2 s2.
Proof.
  intros Hl N1 N2 Hp.
  assert (H : forall k, k < length s1 -> (nth k s1 0 = c1 <-> nth k s2 0 = c2)).
  { intros k Hk. specialize (Hp k (length s1)). rewrite app_length in Hp. simpl in Hp. specialize (Hp ltac:(lia) ltac:(lia)).
    rewrite !(app_nth1 _ _ 0 (n := k)) in Hp by lia. rewrite Hl in Hp at 2. rewrite !app_nth2 in Hp by lia. rewrite <- Hl in Hp at 2.
    rewrite Hl, !Nat.sub_diag in Hp. simpl in Hp. exact Hp. }
  destruct (idx c1 s1) as [k|] eqn:E.
  - apply idx_some in E. assert (Hk : k < length s1) by (apply nth_error_Some; congruence). pose proof (nth_error_nth s1 k 0 E) as En.
    apply H in En; auto. symmetry. apply idx_nodup; auto. rewrite <- En. apply nth_error_nth'. lia.
  - symmetry. apply idx_none. intros Hin. apply (In_nth _ _ 0) in Hin as (k & Hk & En). apply H in En; [|lia].
    apply idx_none in E. apply E. rewrite <- En. apply nth_In. lia.
Qed.
Lemma ranks_pattern l1 : forall l2 s1 s2, length l1 = length l2 -> length s1 = length s2 -> NoDup s1 -> NoDup s2 -> pattern (s1 ++ l1) (s2 ++ l2) -> ranks s1 l1 = ranks s2 l2.
Proof.
  induction l1 as [|c1 l1 IH]; intros [|c2 l2] s1 s2 Hl Hs N1 N2 Hp; simpl in Hl; try discriminate; auto.
  pose proof (idx_pattern Hs N1 N2 Hp) as E. cbn [ranks]. rewrite <- E.
  assert (Hdrop : pattern (s1 ++ l1) (s2 ++ l2)).
  { intros i j Hi Hj. rewrite app_length in Hi, Hj.
    assert (F : forall (s : list nat) c l k, nth k (s ++ l) 0 = nth (if k <? length s then k else S k) (s ++ c :: l) 0).
    { intros s c l k. destruct (Nat.ltb_spec k (length s)); [now rewrite !app_nth1 by auto|]. rewrite !app_nth2 by lia.
      replace (S k - length s) with (S (k - length s)) by lia. reflexivity. }
    rewrite (F s1 c1 l1 i), (F s1 c1 l1 j), (F s2 c2 l2 i), (F s2 c2 l2 j). rewrite <- Hs. apply Hp; rewrite app_length; simpl.
    - destruct (i <? length s1); lia.
    - destruct (j <? length s1); lia. }
  destruct (idx c1 s1) as [k|] eqn:E1.
  - f_equal. apply IH; auto.
  - rewrite Hs. f_equal. symmetry in E. apply idx_none in E1. apply idx_none in E. apply IH; auto.
    + rewrite !app_length. simpl. lia.
    + apply (Permutation_NoDup (Permutation_cons_append s1 c1)). now constructor.
    + apply (Permutation_NoDup (Permutation_cons_append s2 c2)). now constructor.
    + rewrite <- !app_assoc. exact Hp.
Qed.
Lemma ranks_final l : forall seen, NoDup seen -> exists F, NoDup F /\ (forall c, In c l -> In c F) /\ (exists r, F = seen ++ r) /\
  ranks seen l = map (fun c => match idx c F with Some k => S k | None => 0 end) l.
Proof.
  induction l as [|c l IH]; intros seen N; simpl.
  - exists seen. split; auto. split; [tauto|]. split; auto. exists []. now rewrite app_nil_r.
  - destruct (idx c seen) as [k|] eqn:E.
    + destruct (IH seen N) as (F & NF & Hin & (r & ->) & ->). exists (seen ++ r).
      assert (Hc : In c seen) by (eapply nth_error_In; apply idx_some; exact E).
      split; auto. split; [intros d [<-|Hd]; auto; apply in_or_app; auto|]. split; eauto. rewrite idx_app, E by auto. reflexivity.
    + apply idx_none in E. assert (N2 : NoDup (seen ++ [c])) by (apply (Permutation_NoDup (Permutation_cons_append seen c)); now constructor).
      destruct (IH _ N2) as (F & NF & Hin & (r & EF) & ->). exists F. assert (Hc : idx c F = Some (length seen)).
      { subst F. rewrite idx_app by (apply in_or_app; simpl; auto). rewrite idx_snoc by auto. now rewrite Nat.eqb_refl. }
      split; auto. split; [intros d [<-|Hd]; auto; eapply nth_error_In; apply idx_some; exact Hc|].
      split; [exists (c :: r); rewrite EF, <- app_assoc; reflexivity|]. now rewrite Hc.
Qed.
Lemma ranks_length l : forall seen, length (ranks seen l) = length l.
Proof. induction l as [|c l IH]; intros seen; simpl; auto. destruct (idx c seen); simpl; now rewrite IH. Qed.
Lemma ranks_groups l i j : i < length l -> j < length l -> (nth i (ranks [] l) 0 = nth j (ranks [] l) 0 <-> nth i l 0 = nth j l 0).
Proof.
  intros Hi Hj. destruct (@ranks_final l [] (NoDup_nil _)) as (F & NF & Hin & _ & E). rewrite E.
  set (g := fun c => match idx c F with Some k => S k | None => 0 end).
  rewrite !(nth_indep _ 0 (g 0)) by (now rewrite map_length). rewrite !map_nth. split; [|congruence]. unfold g. intros H.
  assert (A : In (nth i l 0) F) by (apply Hin, nth_In; auto). assert (B : In (nth j l 0) F) by (apply Hin, nth_In; auto).
  destruct (idx (nth i l 0) F) as [a|] eqn:Ea; [|apply idx_none in Ea; tauto].
  destruct (idx (nth j l 0) F) as [b|] eqn:Eb; [|apply idx_none in Eb; tauto]. inversion H; subst. apply idx_some in Ea. apply idx_some in Eb. congruence.
Qed.
Lemma ranks_pos l i : i < length l -> 0 < nth i (ranks [] l) 0.
Proof.
  intros Hi. destruct (@ranks_final l [] (NoDup_nil _)) as (F & NF & Hin & _ & E). rewrite E.
  set (g := fun c => match idx c F with Some k => S k | None => 0 end). rewrite (nth_indep _ 0 (g 0)) by (now rewrite map_length). rewrite map_nth. unfold g.
  destruct (idx (nth i l 0) F) eqn:Ei; [lia|]. apply idx_none in Ei. exfalso. apply Ei, Hin, nth_In. auto.
Qed.
Lemma forallb_combine (a b : list nat) : length a = length b -> (forallb (fun p => fst p =? snd p) (combine a b) = true <-> a = b).
Proof.
  revert b. induction a as [|x a IH]; intros [|y b] H; simpl in *; try discriminate; [tauto|]. rewrite Bool.andb_true_iff, Nat.eqb_eq, IH by lia.
  split; [intros [-> ->]; auto|intros E; now inversion E].
Qed.

Theorem relabel_spec ids : ids <> [] -> (forall x, In x ids -> x <= length ids) ->
  exists r, RelabelDet ids = Some r /\ length r = length ids /\ nth 0 r 0 = 0 /\
    forall i j, 1 <= i < length ids -> 1 <= j < length ids -> nth i r 0 <> 0 /\ (nth i r 0 = nth j r 0 <-> nth i ids 0 = nth j ids 0).
Proof.
  destruct ids as [|c l]; [congruence|]. intros _ H. exists (0 :: ranks [] l). split; [now apply relabel_eq|]. split; [simpl; now rewrite ranks_length|].
  split; [reflexivity|]. intros [|i] [|j] Hi Hj; try lia. simpl in *. split.
  - pose proof (@ranks_pos l i ltac:(lia)). lia.
  - apply ranks_groups; lia.
Qed.
Theorem cc_check_spec a b : length a = length b -> (forall x, In x a -> x <= length a) -> (forall x, In x b -> x <= length b) ->
  exists r, cc_check a b = Some r /\ (r = true <-> forall i j, 1 <= i < length a -> 1 <= j < length a -> (nth i a 0 = nth j a 0 <-> nth i b 0 = nth j b 0)).
Proof.
  intros Hl Ha Hb. destruct a as [|c a], b as [|d b]; try discriminate.
  - exists true. split; [reflexivity|]. split; auto. intros _ i j Hi. simpl in Hi. lia.
  - unfold cc_check. rewrite !relabel_eq by auto. cbn [length] in *. rewrite !ranks_length.
    destruct (Nat.leb_spec (S (length a)) (S (length b))); [|lia]. eexists. split; [reflexivity|].
    rewrite forallb_combine by (simpl; rewrite !ranks_length; lia). split.
    + intros E. inversion E as [E2]. intros [|i] [|j] Hi Hj; try lia. cbn [nth]. rewrite <- (@ranks_groups a i j), <- (@ranks_groups b i j) by lia. now rewrite E2.
    + intros HP. f_equal. apply ranks_pattern; [lia|reflexivity|constructor|constructor|]. intros i j Hi Hj. simpl in Hi, Hj.
      specialize (HP (S i) (S j) ltac:(lia) ltac:(lia)). exact HP.
Qed.
Theorem relabel_bounds ids x : In x ids -> length ids < x -> RelabelDet ids = None.
Proof.
  assert (G : forall l cm cur, In x l -> length cm <= x -> relabel_loop cm cur l = None).
  { induction l as [|c l IH]; intros cm cur H Hx; [destruct H|]. cbn [relabel_loop]. destruct (nth_error cm c) as [[|v]|] eqn:E; auto.
    - destruct H as [->|H]; [|now rewrite IH by (auto; rewrite length_lset; auto)]. apply nth_error_None in Hx. congruence.
    - destruct H as [->|H]; [|now rewrite IH]. apply nth_error_None in Hx. congruence. }
  intros H Hx. apply G; auto. rewrite repeat_length. lia.
Qed.

(* -- double_edges and the forest check ------------------------------------------------------------------------------ *)
Lemma double_in es u v : In (u, v) (double_edges es) <-> In (u, v) es \/ In (v, u) es.
Proof.
  unfold double_edges. rewrite in_map_iff. split.
  - intros (i & E & Hi). apply in_seq in Hi. assert (Hh : i / 2 < length es) by (apply Nat.div_lt_upper_bound; lia).
    pose proof (nth_In es (0, 0) Hh) as Hn. destruct (nth (i / 2) es (0, 0)) as [a b]. destruct (i mod 2 =? 0); inversion E; subst; auto.
  - intros [H|H]; apply (In_nth _ _ (0, 0)) in H as (k & Hk & E).
    + exists (2 * k). assert (Ed : 2 * k / 2 = k) by (rewrite Nat.mul_comm; apply Nat.div_mul; lia).
      assert (Em : (2 * k) mod 2 = 0) by (rewrite Nat.mul_comm; apply Nat.mod_mul; lia). rewrite Ed, Em, E. split; [reflexivity|]. apply in_seq. lia.
    + exists (2 * k + 1). assert (Ed : (2 * k + 1) / 2 = k) by (rewrite Nat.add_comm, (Nat.mul_comm 2), Nat.div_add by lia; reflexivity).
      assert (Em : (2 * k + 1) mod 2 = 1) by (rewrite Nat.add_comm, (Nat.mul_comm 2), Nat.mod_add by lia; reflexivity). rewrite Ed, Em, E.
      split; [reflexivity|]. apply in_seq. lia.
Qed.
Lemma joined_double es u v : joined (double_edges es) u v <-> joined es u v.
Proof.
  split; induction 1; try constructor; eapply j_edge; try eassumption.
  - rewrite !double_in in *. tauto.
  - rewrite !double_in. tauto.
Qed.
Theorem forest_check_spec cc n correct check :
  labels_components n (double_edges correct) (cc n (double_edges correct)) -> labels_components n (double_edges check) (cc n (double_edges check)) ->
  exists r, check_spanning_forest cc n correct check = Some r /\
    (r = true <-> length correct = length check /\ forall i j, 1 <= i < n -> 1 <= j < n -> (joined correct i j <-> joined check i j)).
Proof.
  intros (L1 & B1 & C1) (L2 & B2 & C2). unfold check_spanning_forest. destruct (Nat.eqb_spec (length correct) (length check)) as [E|E]; cbn [negb].
  - set (a := cc n (double_edges correct)) in *. set (b := cc n (double_edges check)) in *.
    destruct (@cc_check_spec a b) as (r & Er & Hr); [lia| | |].
    + intros x Hx. apply (In_nth _ _ 0) in Hx as (k & Hk & <-). rewrite L1 in *. specialize (B1 k Hk). lia.
    + intros x Hx. apply (In_nth _ _ 0) in Hx as (k & Hk & <-). rewrite L2 in *. specialize (B2 k Hk). lia.
    + exists r. split; auto. rewrite Hr, L1. split.
      * intros H. split; auto. intros i j Hi Hj. specialize (H i j Hi Hj). rewrite C1, C2, !joined_double in H by lia. exact H.
      * intros [_ H] i j Hi Hj. rewrite C1, C2, !joined_double by lia. auto.
  - exists false. split; auto. split; [discriminate|]. intros [H _]. congruence.
Qed.

(* -- the statistics ---------------------------------------------------------------------------------------------------- *)
Lemma nth_lset_d (l : list nat) k x s : k < length l -> nth s (lset l k x) 0 = if s =? k then x else nth s l 0.
Proof.
  revert k s. induction l as [|a l IH]; intros k s H; [simpl in H; lia|]. destruct k as [|k], s as [|s]; simpl; auto. apply IH. simpl in H. lia.
Qed.
Lemma flags_ok xs : forall fl, (forall x, In x xs -> x < length fl) -> exists fl', fold_left set_flag xs (Some fl) = Some fl' /\ length fl' = length fl /\
  forall c, nth c fl' 0 = if existsb (Nat.eqb c) xs then 1 else nth c fl 0.
Proof.
  induction xs as [|x xs IH]; intros fl H; cbn [fold_left set_flag existsb]; [eauto|].
  destruct (Nat.ltb_spec x (length fl)) as [L|L]; [|specialize (H x (or_introl eq_refl)); lia].
  destruct (IH (lset fl x 1)) as (fl' & E & El & Hc). { intros y Hy. rewrite length_lset. apply H. now right. }
  exists fl'. split; auto. split; [now rewrite El, length_lset|]. intros c. rewrite Hc, nth_lset_d by auto. destruct (existsb (Nat.eqb c) xs), (c =? x); auto.
Qed.
Lemma repeat_nth0 n c : nth c (repeat 0 n) 0 = 0.
Proof. revert c. induction n as [|n IH]; intros [|c]; simpl; auto. Qed.
Lemma sum_flags (p : nat -> bool) fl n : length fl = n + 1 -> (forall c, c <= n -> nth c fl 0 = if p c then 1 else 0) -> list_sum (firstn n fl) = length (filter p (seq 0 n)).
Proof.
  intros Hl H. assert (E : firstn n fl = map (fun c => if p c then 1 else 0) (seq 0 n)).
  { apply (nth_ext _ _ 0 0). - rewrite firstn_length, map_length, seq_length. lia.
    - intros k Hk. rewrite firstn_length in Hk. rewrite (nth_mseq (fun c => if p c then 1 else 0)) by lia. rewrite <- H by lia. clear - Hk. revert k Hk. generalize n. induction fl as [|x fl IH]; intros [|m] [|k] Hk; simpl in *; auto; try lia. apply IH. lia. }
  rewrite E. clear. induction (seq 0 n) as [|c l IH]; simpl; auto. destruct (p c); simpl; lia.
Qed.
Theorem num_cc_spec labels order : (forall x, In x labels -> x < length labels) -> Permutation order (seq 0 (length labels)) ->
  num_cc labels order = Some (length (nodup Nat.eq_dec labels)).
Proof.
  intros H Hp. unfold num_cc. set (n := length labels) in *. set (xs := map (fun i => nth i labels 0) order).
  assert (Hx : forall c, In c xs <-> In c labels).
  { intros c. unfold xs. rewrite in_map_iff. split.
    - intros (i & <- & Hi). apply (Permutation_in _ Hp) in Hi. apply in_seq in Hi. apply nth_In. unfold n in Hi. lia.
    - intros Hc. apply (In_nth _ _ 0) in Hc as (i & Hi & E). exists i. split; auto. eapply Permutation_in; [apply Permutation_sym; exact Hp|]. apply in_seq. unfold n. lia. }
  destruct (@flags_ok xs (repeat 0 (n + 1))) as (fl & E & El & Hc). { intros x Hxs. rewrite repeat_length. apply Hx in Hxs. specialize (H x Hxs). lia. }
  rewrite E. f_equal. rewrite repeat_length in El. rewrite (@sum_flags (fun c => existsb (Nat.eqb c) xs) fl n El).
  2:{ intros c _. rewrite Hc, repeat_nth0. reflexivity. }
  apply Permutation_length. apply NoDup_Permutation.
  - apply NoDup_filter, seq_NoDup.
  - apply NoDup_nodup.
  - intros c. rewrite filter_In, nodup_In, in_seq, existsb_exists. split.
    + intros [_ (y & Hy & Ey)]. apply Nat.eqb_eq in Ey. subst. apply Hx. exact Hy.
    + intros Hcl. split; [specialize (H c Hcl); lia|]. exists c. split; [apply Hx; exact Hcl|apply Nat.eqb_refl].
Qed.
Lemma adds_ok xs : forall fl, (forall x, In x xs -> x < length fl) -> exists fl', fold_left add_flag xs (Some fl) = Some fl' /\ length fl' = length fl /\
  forall c, nth c fl' 0 = nth c fl 0 + count_occ Nat.eq_dec xs c.
Proof.
  induction xs as [|x xs IH]; intros fl H; cbn [fold_left add_flag count_occ]; [eauto|].
  destruct (Nat.ltb_spec x (length fl)) as [L|L]; [|specialize (H x (or_introl eq_refl)); lia].
  destruct (IH (lset fl x (nth x fl 0 + 1))) as (fl' & E & El & Hc). { intros y Hy. rewrite length_lset. apply H. now right. }
  exists fl'. split; auto. split; [now rewrite El, length_lset|]. intros c. rewrite Hc, nth_lset_d by auto.
  destruct (Nat.eqb_spec c x) as [E2|E2], (Nat.eq_dec x c) as [E3|E3]; try congruence; subst; lia.
Qed.
Lemma list_max_nth l k : nth k l 0 <= list_max l.
Proof. revert k. induction l as [|x l IH]; intros [|k]; simpl; try lia. specialize (IH k). lia. Qed.
Lemma list_max_at l : l <> [] -> exists k, k < length l /\ nth k l 0 = list_max l.
Proof.
  induction l as [|x l IH]; intros H; [congruence|]. destruct l as [|y l].
  - exists 0. simpl. lia.
  - destruct IH as (k & Hk & E); [discriminate|]. destruct (Nat.le_gt_cases (list_max (y :: l)) x).
    + exists 0. split; [simpl; lia|]. cbn [nth]. change (list_max (x :: y :: l)) with (Nat.max x (list_max (y :: l))). lia.
    + exists (S k). split; [simpl in *; lia|]. change (nth (S k) (x :: y :: l) 0) with (nth k (y :: l) 0). rewrite E. change (list_max (x :: y :: l)) with (Nat.max x (list_max (y :: l))). lia.
Qed.
Theorem largest_cc_spec labels : labels <> [] -> (forall x, In x labels -> x < length labels) ->
  exists s, largest_cc labels = Some s /\ (exists c, In c labels /\ count_occ Nat.eq_dec labels c = s) /\ forall c, count_occ Nat.eq_dec labels c <= s.
Proof.
  intros Hne H. unfold largest_cc. destruct (@adds_ok labels (repeat 0 (length labels + 1))) as (fl & E & El & Hc). { intros x Hx. rewrite repeat_length. specialize (H x Hx). lia. }
  rewrite E. exists (list_max fl). split; auto.
  assert (Hall : forall c, count_occ Nat.eq_dec labels c <= list_max fl).
  { intros c. specialize (Hc c). rewrite repeat_nth0 in Hc. simpl in Hc. rewrite <- Hc. apply list_max_nth. }
  split; auto. rewrite repeat_length in El. destruct (@list_max_at fl) as (k & Hk & Ek). { intros ->. simpl in El. lia. }
  exists k. specialize (Hc k). rewrite repeat_nth0, Ek in Hc. simpl in Hc. split; auto. apply (count_occ_In Nat.eq_dec).
  destruct labels as [|x l]; [congruence|]. specialize (Hall x). rewrite Hc in Hall. assert (count_occ Nat.eq_dec (x :: l) x > 0) by (apply count_occ_In; now left). unfold gt in *. lia.
Qed.
