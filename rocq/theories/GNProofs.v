From Coq Require Import NArith QArith Permutation.
From Verif Require Import Base GBModel TUProofs GNModel GNSpec.
Unset Strict Implicit.
Open Scope nat_scope.

Lemma stores_len {A} (st : list (nat * A)) : forall arr, (forall i x, In (i, x) st -> i < length arr) ->
  exists arr', run_stores st arr = Some arr' /\ length arr' = length arr.
Proof.
  induction st as [|[i x] st IH]; intros arr H; simpl; eauto.
  destruct (Nat.ltb_spec i (length arr)) as [L|L].
  - destruct (IH (lset arr i x)) as (a & E & El). { intros k y Hk. rewrite length_lset. eapply H. right. exact Hk. }
    exists a. rewrite length_lset in El. auto.
  - specialize (H i x (or_introl eq_refl)). lia.
Qed.
Lemma group_nth {A} (g : nat -> list A) k d : forall c b i j, (forall x, length (g x) = k) -> i < c -> j < k ->
  nth (i * k + j) (flat_map g (seq b c)) d = nth j (g (b + i)) d.
Proof.
  induction c as [|c IH]; intros b i j Hl Hi Hj; [lia|]. simpl. destruct i as [|i].
  - simpl. rewrite app_nth1 by (rewrite Hl; lia). now rewrite Nat.add_0_r.
  - rewrite app_nth2 by (rewrite Hl; simpl; lia). rewrite Hl. replace (S i * k + j - k) with (i * k + j) by (simpl; lia).
    rewrite IH by (auto; lia). f_equal. f_equal. lia.
Qed.
Lemma group_len {A} (g : nat -> list A) k l : (forall x, length (g x) = k) -> length (flat_map g l) = length l * k.
Proof. intros H. induction l as [|a l IH]; simpl; auto. now rewrite app_length, IH, H. Qed.

Section BA.
  Variable rnd : nat -> nat -> nat.
  Variable trunc : nat -> nat.
  Variables n epn : nat.
  Hypothesis Htr : forall x, trunc x <= x.
  Hypothesis Hn : 1 <= n.
  Hypothesis He : 1 <= epn.

  Lemma draw_ok fuel i : 1 <= i -> forall p prev idx p', ba_draw rnd trunc epn fuel i p prev = Some (idx, p') -> ~ In idx prev /\ idx < 2 * i * epn.
  Proof.
    intros Hi. induction fuel as [|fuel IH]; intros p prev idx p' H; cbn [ba_draw] in H; [discriminate|].
    destruct (existsb (Nat.eqb _) prev) eqn:E; [eapply IH; exact H|]. inversion H; subst. split.
    - intros Hin. apply (proj2 (ex_in prev _)) in Hin. congruence.
    - eapply Nat.le_lt_trans; [apply Htr|]. apply Nat.mod_upper_bound. nia.
  Qed.
  Lemma draws_ok fuel i : 1 <= i -> forall todo p prev ids, ba_draws rnd trunc epn fuel i todo p prev = Some ids ->
    NoDup prev -> (forall x, In x prev -> x < 2 * i * epn) -> length ids = length prev + todo /\ NoDup ids /\ forall x, In x ids -> x < 2 * i * epn.
  Proof.
    intros Hi. induction todo as [|todo IH]; intros p prev ids H Hnd Hlt; cbn [ba_draws] in H.
    - inversion H; subst. rewrite Nat.add_0_r. auto.
    - destruct (ba_draw rnd trunc epn fuel i p prev) as [[idx p']|] eqn:E; [|discriminate]. destruct (draw_ok Hi E) as [Hf Hl].
      destruct (IH _ _ _ H) as (A & B & C).
      + apply (Permutation_NoDup (Permutation_cons_append prev idx)). now constructor.
      + intros x Hx. apply in_app_or in Hx as [Hx|[<-|[]]]; auto.
      + rewrite app_length in A. simpl in A. split; [lia|auto].
  Qed.

  Definition fulls (fuel i : nat) : list (nat * nat) :=
    if i =? 0 then map (fun j => (j, j + 1)) (seq 0 epn)
    else match ba_draws rnd trunc epn fuel i epn 0 [] with Some ids => map (fun idx => (i, idx)) ids | None => repeat (0, 0) epn end.
  Lemma fulls_len fuel i : length (fulls fuel i) = epn.
  Proof.
    unfold fulls. destruct (Nat.eqb_spec i 0); [now rewrite map_length, seq_length|].
    destruct (ba_draws rnd trunc epn fuel i epn 0 []) as [ids|] eqn:E; [|now rewrite repeat_length].
    rewrite map_length. assert (Hi : 1 <= i) by lia. destruct (@draws_ok fuel i Hi _ _ _ _ E) as (A & _); [constructor|intros x []|exact A].
  Qed.
  Definition wr (fuel i : nat) (arr : list (nat * nat)) : option (list (nat * nat)) := run_stores (combine (seq (i * epn) epn) (fulls fuel i)) arr.
  Lemma path_wr fuel arr : run_stores (ba_path epn) arr = wr fuel 0 arr.
  Proof.
    unfold wr, ba_path, fulls. cbn [Nat.eqb Nat.mul]. f_equal. generalize (seq 0 epn). induction l as [|x l IH]; [reflexivity|]. cbn [map combine]. now rewrite IH.
  Qed.
  Lemma fill_run fuel order : (forall i, In i order -> 1 <= i) -> forall arr res, ba_fill rnd trunc epn fuel order arr = Done res ->
    run_f (wr fuel) order arr = Some res /\ forall i, In i order -> ba_draws rnd trunc epn fuel i epn 0 [] <> None.
  Proof.
    induction order as [|i order IH]; intros Hi arr res H; cbn [ba_fill run_f] in *.
    - inversion H; subst. split; [reflexivity|intros i []].
    - destruct (ba_draws rnd trunc epn fuel i epn 0 []) as [ids|] eqn:E; [|discriminate].
      assert (E2 : wr fuel i arr = run_stores (combine (seq (i * epn) epn) (map (fun idx => (i, idx)) ids)) arr).
      { unfold wr, fulls. destruct (Nat.eqb_spec i 0) as [E0|]; [specialize (Hi i (or_introl eq_refl)); lia|]. now rewrite E. }
      rewrite E2. destruct (run_stores _ arr) as [arr'|]; [|discriminate].
      destruct (IH (fun k Hk => Hi k (or_intror Hk)) _ _ H) as [A B]. split; auto. intros k [<-|Hk]; [congruence|auto].
  Qed.
  Lemma run_fill fuel order : (forall i, In i order -> 1 <= i) -> (forall i, In i order -> ba_draws rnd trunc epn fuel i epn 0 [] <> None) ->
    forall arr res, run_f (wr fuel) order arr = Some res -> ba_fill rnd trunc epn fuel order arr = Done res.
  Proof.
    induction order as [|i order IH]; intros Hi Hd arr res H; cbn [ba_fill run_f] in *.
    - now inversion H.
    - destruct (ba_draws rnd trunc epn fuel i epn 0 []) as [ids|] eqn:E; [|exfalso; eapply Hd; [left; reflexivity|exact E]].
      assert (E2 : wr fuel i arr = run_stores (combine (seq (i * epn) epn) (map (fun idx => (i, idx)) ids)) arr).
      { unfold wr, fulls. destruct (Nat.eqb_spec i 0) as [E0|]; [specialize (Hi i (or_introl eq_refl)); lia|]. now rewrite E. }
      rewrite E2 in H. destruct (run_stores _ arr) as [arr'|]; [|discriminate]. apply IH; auto.
      + intros k Hk. apply Hi. now right.
      + intros k Hk. apply Hd. now right.
  Qed.
  Lemma fill_bounds fuel order : (forall i, In i order -> 1 <= i < n) -> forall arr, length arr = n * epn ->
    ba_fill rnd trunc epn fuel order arr <> Undef /\ ba_fill rnd trunc epn fuel order arr <> Aborted.
  Proof.
    induction order as [|i order IH]; intros Hi arr Hl; cbn [ba_fill]; [split; discriminate|].
    destruct (ba_draws rnd trunc epn fuel i epn 0 []) as [ids|] eqn:E; [|split; discriminate].
    destruct (@stores_len _ (combine (seq (i * epn) epn) (map (fun idx => (i, idx)) ids)) arr) as (a & Ea & La).
    { intros k x Hk. apply in_combine_l in Hk. apply in_seq in Hk. rewrite Hl. specialize (Hi i (or_introl eq_refl)). nia. }
    rewrite Ea. apply IH; [intros k Hk; apply Hi; now right|congruence].
  Qed.

  Lemma filled fuel order : Permutation order (seq 1 (n - 1)) ->
    run_f (wr fuel) (0 :: order) (repeat (0, 0) (n * epn)) = Some (flat_map (fulls fuel) (seq 0 n)).
  Proof.
    intros Hp. assert (Er : repeat (0, 0) (n * epn) = flat_map (fun _ => repeat (0, 0) epn) (seq 0 n) ++ []).
    { rewrite app_nil_r. clear. rewrite <- (seq_length n 0) at 1. induction (seq 0 n) as [|x l IH]; [reflexivity|]. cbn [length Nat.mul flat_map]. now rewrite repeat_app, IH. }
    rewrite Er, (@blocks _ n (fun _ => repeat (0, 0) epn) (fulls fuel)).
    - now rewrite app_nil_r.
    - intros i. now rewrite repeat_length, fulls_len.
    - intros i pre post Hi Hpre.
      assert (Eo : off (fulls fuel) i = i * epn).
      { unfold off. rewrite (map_ext _ (fun _ => epn)) by apply fulls_len. clear. rewrite <- (seq_length i 0) at 2.
        induction (seq 0 i); simpl; auto. }
      unfold wr. rewrite <- Eo, <- Hpre. replace epn with (length (fulls fuel i)) at 1 by apply fulls_len. apply stores_range.
      now rewrite repeat_length, fulls_len.
    - replace n with (S (n - 1)) by lia. cbn [seq]. now constructor.
  Qed.

  (* -- the sequential pass ---------------------------------------------------------------------------------------- *)
  Section Resolve.
    Variable arr0 : list (nat * nat).
    Hypothesis Hlen : length arr0 = n * epn.
    Hypothesis Hback : forall s, epn <= s < n * epn -> snd (nth s arr0 (0, 0)) / 2 < s.
    Definition okslot (arr : list (nat * nat)) (s : nat) : Prop :=
      nth s arr (0, 0) = if s <? epn then nth s arr0 (0, 0) else (fst (nth s arr0 (0, 0)), endpoint arr (snd (nth s arr0 (0, 0)))).
    Lemma nth_lset {A} (l : list A) k x s d : k < length l -> nth s (lset l k x) d = if s =? k then x else nth s l d.
    Proof.
      revert k s. induction l as [|a l IH]; intros k s H; [simpl in H; lia|]. destruct k as [|k], s as [|s]; simpl; auto.
      apply IH. simpl in H. lia.
    Qed.
    Lemma resolve_ok c : forall k arr, k + c = n * epn -> epn <= k -> length arr = n * epn -> (forall s, s < k -> okslot arr s) ->
      (forall s, k <= s -> s < n * epn -> nth s arr (0, 0) = nth s arr0 (0, 0)) ->
      exists res, ba_resolve (seq k c) arr = Done res /\ length res = n * epn /\ forall s, s < n * epn -> okslot res s.
    Proof.
      induction c as [|c IH]; intros k arr Hk Hke Hl Hok Hrest; cbn [seq ba_resolve].
      - exists arr. split; auto. split; auto. intros s Hs. apply Hok. lia.
      - pose proof (Hback (s := k) ltac:(lia)) as Hb. destruct (nth_error arr k) as [[u o]|] eqn:E.
        2:{ apply nth_error_None in E. lia. }
        pose proof (nth_error_nth arr k (0, 0) E) as E2. rewrite Hrest in E2 by lia. rewrite E2 in Hb. cbn [snd] in Hb.
        destruct (nth_error arr (o / 2)) as [[a b]|] eqn:Eo. 2:{ apply nth_error_None in Eo. lia. }
        pose proof (nth_error_nth arr (o / 2) (0, 0) Eo) as Eo2.
        set (arr1 := lset arr k (u, if o mod 2 =? 0 then a else b)).
        assert (Hnth : forall s, s <> k -> nth s arr1 (0, 0) = nth s arr (0, 0)).
        { intros s Hs. unfold arr1. rewrite nth_lset by lia. destruct (Nat.eqb_spec s k); congruence. }
        assert (Hep : forall q, q / 2 < k -> endpoint arr1 q = endpoint arr q).
        { intros q Hq. unfold endpoint. rewrite Hnth by lia. reflexivity. }
        apply (IH (S k) arr1); try lia.
        + unfold arr1. now rewrite length_lset.
        + intros s Hs. unfold okslot. destruct (Nat.eq_dec s k) as [->|Hne].
          * unfold arr1 at 1. rewrite nth_lset by lia. rewrite Nat.eqb_refl. destruct (Nat.ltb_spec k epn); [lia|]. rewrite E2. cbn [fst snd].
            rewrite Hep by lia. unfold endpoint. rewrite Eo2. reflexivity.
          * rewrite Hnth by auto. rewrite (Hok s) by lia. destruct (Nat.ltb_spec s epn); auto. f_equal. symmetry. apply Hep.
            pose proof (Hback (s := s) ltac:(lia)). lia.
        + intros s H1 H2. rewrite Hnth by lia. apply Hrest; lia.
    Qed.
  End Resolve.

  Definition shape (es : list (nat * nat)) : Prop :=
    length es = n * epn /\ (forall j, j < epn -> nth j es (0, 0) = (j, j + 1)) /\
    forall i, 1 <= i < n -> exists ids, length ids = epn /\ NoDup ids /\ (forall x, In x ids -> x / 2 < i * epn) /\
      forall j, j < epn -> nth (i * epn + j) es (0, 0) = (i, endpoint es (nth j ids 0)).

  Lemma slot_group s : s < n * epn -> exists i j, s = i * epn + j /\ i < n /\ j < epn.
  Proof.
    intros H. exists (s / epn), (s mod epn). pose proof (Nat.div_mod s epn ltac:(lia)). pose proof (Nat.mod_upper_bound s epn ltac:(lia)).
    split; [lia|]. split; auto. apply Nat.div_lt_upper_bound; lia.
  Qed.
  Lemma half x y : x < 2 * y -> x / 2 < y.
  Proof. intros H. apply Nat.div_lt_upper_bound; lia. Qed.
  Lemma resolved fuel : (forall i, 1 <= i < n -> ba_draws rnd trunc epn fuel i epn 0 [] <> None) ->
    exists es, ba_resolve (seq epn (n * epn - epn)) (flat_map (fulls fuel) (seq 0 n)) = Done es /\ shape es.
  Proof.
    intros Hd. set (arr0 := flat_map (fulls fuel) (seq 0 n)).
    assert (Hl : length arr0 = n * epn) by (unfold arr0; rewrite (group_len _ (fulls_len fuel)), seq_length; reflexivity).
    assert (Hg : forall i j, i < n -> j < epn -> nth (i * epn + j) arr0 (0, 0) = nth j (fulls fuel i) (0, 0)).
    { intros i j Hi Hj. unfold arr0. rewrite (@group_nth _ (fulls fuel) epn) by (auto using fulls_len). reflexivity. }
    assert (H0 : forall j, j < epn -> nth j arr0 (0, 0) = (j, j + 1)).
    { intros j Hj. specialize (Hg 0 j ltac:(lia) Hj). simpl in Hg. rewrite Hg. unfold fulls. simpl. apply (@nth_mseq _ (fun j => (j, j + 1))). exact Hj. }
    assert (Hids : forall i, 1 <= i < n -> exists ids, length ids = epn /\ NoDup ids /\ (forall x, In x ids -> x / 2 < i * epn) /\
      forall j, j < epn -> nth (i * epn + j) arr0 (0, 0) = (i, nth j ids 0)).
    { intros i Hi. specialize (Hd i Hi). destruct (ba_draws rnd trunc epn fuel i epn 0 []) as [ids|] eqn:E; [|congruence]. exists ids.
      destruct (@draws_ok fuel i (proj1 Hi) _ _ _ _ E) as (A & B & C); [constructor|intros x []|]. simpl in A. split; [exact A|]. split; [exact B|].
      split. { intros x Hx. apply half. specialize (C x Hx). lia. }
      intros j Hj. rewrite Hg by lia. unfold fulls. destruct (Nat.eqb_spec i 0); [lia|]. rewrite E.
      rewrite (nth_indep _ (0, 0) ((fun idx => (i, idx)) 0)) by (rewrite map_length; lia). apply (map_nth (fun idx => (i, idx))). }
    assert (Hb : forall s, epn <= s < n * epn -> snd (nth s arr0 (0, 0)) / 2 < s).
    { intros s Hs. destruct (slot_group (proj2 Hs)) as (i & j & -> & Hi & Hj). assert (1 <= i) by (destruct i; [simpl in Hs; lia|lia]).
      destruct (Hids i) as (ids & L & _ & B & N); [lia|]. rewrite N by auto. cbn [snd].
      assert (nth j ids 0 / 2 < i * epn) by (apply B, nth_In; lia). lia. }
    destruct (@resolve_ok arr0 Hl Hb (n * epn - epn) epn arr0) as (es & E & Le & Hok); auto; try nia.
    { intros s Hs. unfold okslot. destruct (Nat.ltb_spec s epn); [auto|lia]. }
    exists es. split; [exact E|]. split; [exact Le|]. split.
    - intros j Hj. rewrite (Hok j) by nia. destruct (Nat.ltb_spec j epn); [auto|lia].
    - intros i Hi. destruct (Hids i Hi) as (ids & L & D & B & N). exists ids. split; [|split; [|split]]; auto. intros j Hj.
      rewrite (Hok (i * epn + j)) by nia. destruct (Nat.ltb_spec (i * epn + j) epn); [nia|]. rewrite N by auto. reflexivity.
  Qed.

  Theorem generate_shape fuel order es : Permutation order (seq 1 (n - 1)) -> ba_generate rnd trunc n epn fuel order = Done es -> shape es.
  Proof.
    intros Hp H. unfold ba_generate in H. pose proof (filled fuel Hp) as F. cbn [run_f] in F. rewrite (path_wr fuel) in H.
    destruct (wr fuel 0 (repeat (0, 0) (n * epn))) as [a|]; [|discriminate].
    destruct (ba_fill rnd trunc epn fuel order a) as [a2| | |] eqn:E; try discriminate.
    assert (Hin : forall i, In i order -> 1 <= i) by (intros i Hi; apply (Permutation_in _ Hp) in Hi; apply in_seq in Hi; lia).
    destruct (fill_run Hin E) as [R D]. rewrite R in F. inversion F; subst.
    destruct (@resolved fuel) as (es2 & E2 & S2). { intros i Hi. apply D. eapply Permutation_in; [apply Permutation_sym; exact Hp|]. apply in_seq. lia. }
    rewrite E2 in H. inversion H; subst. exact S2.
  Qed.
  Theorem generate_defined fuel order : Permutation order (seq 1 (n - 1)) ->
    ba_generate rnd trunc n epn fuel order = Running \/ exists es, ba_generate rnd trunc n epn fuel order = Done es.
  Proof.
    intros Hp. unfold ba_generate. pose proof (filled fuel Hp) as F. cbn [run_f] in F. rewrite (path_wr fuel).
    destruct (wr fuel 0 (repeat (0, 0) (n * epn))) as [a|] eqn:E0; [|discriminate].
    assert (Hin : forall i, In i order -> 1 <= i < n) by (intros i Hi; apply (Permutation_in _ Hp) in Hi; apply in_seq in Hi; lia).
    assert (La : length a = n * epn).
    { unfold wr in E0. destruct (@stores_len _ (combine (seq (0 * epn) epn) (fulls fuel 0)) (repeat (0, 0) (n * epn))) as (a' & Ea & L).
      - intros k x Hk. apply in_combine_l in Hk. apply in_seq in Hk. rewrite repeat_length. nia.
      - rewrite E0 in Ea. inversion Ea; subst. now rewrite L, repeat_length. }
    destruct (@fill_bounds fuel order Hin a La) as [N1 N2].
    destruct (ba_fill rnd trunc epn fuel order a) as [a2| | |] eqn:E; try congruence; auto. right.
    destruct (fill_run (fun i Hi => proj1 (Hin i Hi)) E) as [R D]. rewrite R in F. inversion F; subst.
    destruct (@resolved fuel) as (es2 & E2 & S2). { intros i Hi. apply D. eapply Permutation_in; [apply Permutation_sym; exact Hp|]. apply in_seq. lia. }
    eauto.
  Qed.

  (* -- consequences of the shape ------------------------------------------------------------------------------------- *)
  Section Shape.
    Variable es : list (nat * nat).
    Hypothesis Hs : shape es.
    Lemma slot_bounds : forall s, s < n * epn -> forall i j, s = i * epn + j -> j < epn ->
      fst (nth s es (0, 0)) <= Nat.max i (epn - 1) /\ snd (nth s es (0, 0)) <= Nat.max (i - 1) epn.
    Proof.
      destruct Hs as (Hl & H0 & Hg). intros s. induction s as [s IH] using lt_wf_ind. intros Hsl i j -> Hj.
      assert (Hi : i < n) by nia. destruct (Nat.eq_dec i 0) as [->|Hi0].
      - simpl. rewrite H0 by auto. cbn [fst snd]. lia.
      - destruct (Hg i) as (ids & L & _ & B & N); [lia|]. rewrite N by auto. cbn [fst snd]. split; [lia|].
        assert (Hq : nth j ids 0 / 2 < i * epn) by (apply B, nth_In; lia). destruct (@slot_group (nth j ids 0 / 2)) as (i' & j' & E & Hi' & Hj'); [nia|].
        destruct (IH (nth j ids 0 / 2)) with (i := i') (j := j') as [A1 A2]; auto; try nia.
        assert (i' < i) by nia. unfold endpoint. destruct (nth j ids 0 mod 2 =? 0); lia.
    Qed.
    Lemma joined_trans u v w : joined es u v -> joined es v w -> joined es u w.
    Proof. intros H1 H2. induction H2 as [|a b c Hab IH Hbc]; auto. eapply j_edge; [exact (IH H1)|exact Hbc]. Qed.
    Lemma joined_sym u v : joined es u v -> joined es v u.
    Proof.
      induction 1; [constructor|]. eapply joined_trans; [|exact IHjoined]. eapply j_edge; [constructor|]. tauto.
    Qed.
    Lemma in_slot s : s < n * epn -> In (nth s es (0, 0)) es.
    Proof. intros H. apply nth_In. destruct Hs as [-> _]. exact H. Qed.
    Lemma joined_slot s : s < n * epn -> joined es 0 (fst (nth s es (0, 0))) /\ joined es 0 (snd (nth s es (0, 0))).
    Proof.
      destruct Hs as (Hl & H0 & Hg). induction s as [s IH] using lt_wf_ind. intros Hsl.
      pose proof (in_slot Hsl) as Hin. destruct (slot_group Hsl) as (i & j & -> & Hi & Hj). destruct (Nat.eq_dec i 0) as [->|Hi0].
      - simpl in *. rewrite H0 in * by auto. cbn [fst snd]. assert (Hj0 : joined es 0 j).
        { destruct j as [|j]; [constructor|]. destruct (IH j) as [_ A]; try lia. rewrite H0 in A by lia. simpl in A. now rewrite Nat.add_1_r in A. }
        split; auto. eapply j_edge; [exact Hj0|]. auto.
      - destruct (Hg i) as (ids & L & _ & B & N); [lia|]. rewrite N in * by auto. cbn [fst snd].
        assert (Hq : nth j ids 0 / 2 < i * epn) by (apply B, nth_In; lia).
        destruct (IH (nth j ids 0 / 2)) as [A1 A2]; try nia.
        assert (A : joined es 0 (endpoint es (nth j ids 0))) by (unfold endpoint; destruct (nth j ids 0 mod 2 =? 0); auto).
        split; auto. eapply j_edge; [exact A|]. auto.
    Qed.
    Theorem all_joined u v : u <= Nat.max (n - 1) epn -> v <= Nat.max (n - 1) epn -> joined es u v.
    Proof.
      assert (H : forall u, u <= Nat.max (n - 1) epn -> joined es 0 u).
      { clear u v. intros u Hu. destruct Hs as (Hl & H0 & Hg). destruct (Nat.le_gt_cases u epn) as [L|L].
        - destruct u as [|u]; [constructor|]. destruct (@joined_slot u) as [_ A]; [nia|]. rewrite H0 in A by lia. simpl in A. now rewrite Nat.add_1_r in A.
        - destruct (@joined_slot (u * epn + 0)) as [A _]; [nia|]. destruct (Hg u) as (ids & _ & _ & _ & N); [lia|]. rewrite N in A by lia. exact A. }
      intros Hu Hv. eapply joined_trans; [apply joined_sym; apply H; auto|auto].
    Qed.
    Theorem ids_bounded u v : In (u, v) es -> u <= Nat.max (n - 1) epn /\ v <= Nat.max (n - 1) epn.
    Proof.
      intros H. apply (In_nth _ _ (0, 0)) in H as (s & Hsl & E). destruct Hs as (Hl & _). rewrite Hl in Hsl.
      destruct (slot_group Hsl) as (i & j & Es & Hi & Hj). destruct (slot_bounds Hsl Es Hj) as [A B]. rewrite E in A, B. cbn [fst snd] in *. lia.
    Qed.
    Theorem target_earlier u v : In (u, v) es -> epn < u -> v < u.
    Proof.
      intros H Hu. apply (In_nth _ _ (0, 0)) in H as (s & Hsl & E). pose proof Hs as (Hl & H0 & Hg). rewrite Hl in Hsl.
      destruct (slot_group Hsl) as (i & j & Es & Hi & Hj). destruct (slot_bounds Hsl Es Hj) as [A B]. rewrite E in A, B. cbn [fst snd] in *.
      destruct (Nat.eq_dec i 0) as [->|Hi0]; [lia|]. destruct (Hg i) as (ids & _ & _ & _ & N); [lia|]. rewrite Es, N in E by auto. inversion E; subst. lia.
    Qed.
  End Shape.

  (* -- termination ------------------------------------------------------------------------------------------------------- *)
  Section Fair.
    Hypothesis Hid : forall x, x < 2 * n * epn -> trunc x = x.
    Hypothesis Hfair : forall i p r, 1 <= i < n -> r < 2 * i * epn -> exists q, p <= q /\ rnd i q mod (2 * i * epn) = r.
    Lemma draw_mono fuel i : forall p prev r fuel', ba_draw rnd trunc epn fuel i p prev = Some r -> fuel <= fuel' -> ba_draw rnd trunc epn fuel' i p prev = Some r.
    Proof.
      induction fuel as [|fuel IH]; intros p prev r [|fuel'] H L; cbn [ba_draw] in *; try discriminate; try lia.
      destruct (existsb _ prev); auto. apply IH; auto. lia.
    Qed.
    Lemma draws_mono fuel fuel' i : fuel <= fuel' -> forall todo p prev r, ba_draws rnd trunc epn fuel i todo p prev = Some r -> ba_draws rnd trunc epn fuel' i todo p prev = Some r.
    Proof.
      intros L. induction todo as [|todo IH]; intros p prev r H; cbn [ba_draws] in *; auto.
      destruct (ba_draw rnd trunc epn fuel i p prev) as [[x q]|] eqn:E; [|discriminate]. rewrite (draw_mono E L). auto.
    Qed.
    Lemma free_id prev N : length prev < N -> exists r, r < N /\ ~ In r prev.
    Proof.
      intros H. destruct (existsb (fun r => negb (existsb (Nat.eqb r) prev)) (seq 0 N)) eqn:E.
      - apply existsb_exists in E as (r & Hr & E). apply in_seq in Hr. exists r. split; [lia|]. intros Hin. apply (proj2 (ex_in prev r)) in Hin. rewrite Hin in E. discriminate.
      - exfalso. assert (incl (seq 0 N) prev).
        { intros r Hr. apply ex_in. destruct (existsb (Nat.eqb r) prev) eqn:F; auto. exfalso.
          assert (X : existsb (fun r => negb (existsb (Nat.eqb r) prev)) (seq 0 N) = true); [|congruence]. apply existsb_exists. exists r. split; auto. now rewrite F. }
        apply NoDup_incl_length in H0; [|apply seq_NoDup]. rewrite seq_length in H0. lia.
    Qed.
    Lemma draw_ends i p prev : 1 <= i < n -> length prev < epn -> exists fuel r, ba_draw rnd trunc epn fuel i p prev = Some r.
    Proof.
      intros Hi Hl. destruct (@free_id prev (2 * i * epn)) as (r & Hr & Hf); [nia|]. destruct (@Hfair i p r Hi Hr) as (q & Hq & E).
      exists (S (q - p)). remember (q - p) as d eqn:Ed. revert p Hq Ed. induction d as [|d IH]; intros p Hq Ed; cbn [ba_draw].
      - assert (p = q) by lia. subst p. rewrite E, Hid by nia. destruct (existsb (Nat.eqb r) prev) eqn:X; eauto. apply ex_in in X. contradiction.
      - destruct (existsb _ prev); [|eauto]. apply IH; lia.
    Qed.
    Lemma draws_end i todo : 1 <= i < n -> forall p prev, length prev + todo <= epn -> exists fuel ids, ba_draws rnd trunc epn fuel i todo p prev = Some ids.
    Proof.
      intros Hi. induction todo as [|todo IH]; intros p prev Hl; [exists 0, prev; reflexivity|].
      destruct (@draw_ends i p prev Hi ltac:(lia)) as (f1 & [x q] & E1). destruct (IH q (prev ++ [x])) as (f2 & ids & E2). { rewrite app_length. simpl. lia. }
      exists (Nat.max f1 f2), ids. cbn [ba_draws]. rewrite (draw_mono E1 (Nat.le_max_l f1 f2)). exact (draws_mono (Nat.le_max_r f1 f2) E2).
    Qed.
    Lemma all_end : exists fuel, forall i, 1 <= i < n -> ba_draws rnd trunc epn fuel i epn 0 [] <> None.
    Proof.
      assert (H : forall k, k <= n -> exists fuel, forall i, 1 <= i < k -> ba_draws rnd trunc epn fuel i epn 0 [] <> None).
      { induction k as [|k IH]; intros Hk; [exists 0; lia|]. destruct IH as [f1 H1]; [lia|]. destruct (Nat.eq_dec k 0) as [->|]; [exists 0; lia|].
        destruct (@draws_end k epn ltac:(lia) 0 [] ltac:(simpl; lia)) as (f2 & ids & E2). exists (Nat.max f1 f2). intros i Hi.
        destruct (Nat.eq_dec i k) as [->|].
        - now rewrite (draws_mono (Nat.le_max_r f1 f2) E2).
        - specialize (H1 i ltac:(lia)). destruct (ba_draws rnd trunc epn f1 i epn 0 []) as [l|] eqn:E; [|congruence]. now rewrite (draws_mono (Nat.le_max_l f1 f2) E). }
      apply H. lia.
    Qed.
    Theorem generate_ends : exists fuel, forall order, Permutation order (seq 1 (n - 1)) -> exists es, ba_generate rnd trunc n epn fuel order = Done es.
    Proof.
      destruct all_end as [fuel Hf]. exists fuel. intros order Hp. unfold ba_generate. pose proof (filled fuel Hp) as F. cbn [run_f] in F. rewrite (path_wr fuel).
      destruct (wr fuel 0 (repeat (0, 0) (n * epn))) as [a|]; [|discriminate].
      assert (Hin : forall i, In i order -> 1 <= i < n) by (intros i Hi; apply (Permutation_in _ Hp) in Hi; apply in_seq in Hi; lia).
      rewrite (run_fill (fun i Hi => proj1 (Hin i Hi)) (fun i Hi => Hf i (Hin i Hi)) F).
      destruct (resolved Hf) as (es & E & _). eauto.
    Qed.
  End Fair.
End BA.
