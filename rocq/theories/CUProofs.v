(* C72: renumbering and hubs. *)
From Verif Require Import Base ListUtil SIModel SIProofs CUSpec CUModel.
Local Open Scope nat_scope.
Unset Strict Implicit.

Section Compact.
  Variable mx : nat.
  Variable cl : list nat.
  Hypothesis Hcl : forall i, i < length cl -> nth i cl mx = mx \/ nth i cl mx < length cl.
  Notation n := (length cl).
  (* what holds during the marking *)
  Record marking (s : list nat * list mpc) : Prop := {
    mk_l1 : length (fst s) = n;
    mk_l2 : length (snd s) = n;
    mk_bits : forall c, c < n -> nth c (fst s) 0 = 0 \/ (nth c (fst s) 0 = 1 /\ exists i, i < n /\ nth i cl mx = c /\ c <> mx);
    mk_set : forall i, nth_error (snd s) i = Some MSet -> nth i cl mx <> mx;
    mk_done : forall i, nth_error (snd s) i = Some MDone -> nth i cl mx = mx \/ nth (nth i cl mx) (fst s) 0 = 1;
    mk_fail : forall i, nth_error (snd s) i <> Some MFail }.
  Lemma nth_error_repeat' A (x : A) k i y : nth_error (repeat x k) i = Some y -> y = x.
  Proof. intros H. apply nth_error_In in H. now apply repeat_spec in H. Qed.
  Lemma marking_start : marking (mark_start cl).
  Proof.
    unfold mark_start. constructor; cbn [fst snd]; try apply repeat_length.
    - intros c Hc. left. destruct (nth_in_or_default c (repeat 0 n) 0) as [H|H]; auto. now apply repeat_spec in H.
    - intros i H. apply nth_error_repeat' in H. discriminate.
    - intros i H. apply nth_error_repeat' in H. discriminate.
    - intros i H. apply nth_error_repeat' in H. discriminate.
  Qed.
  Lemma marking_step s i : marking s -> marking (mark_sys mx cl s i).
  Proof.
    intros HM. unfold mark_sys. destruct (nth_error (snd s) i) as [p|] eqn:Ep; auto. pose proof HM as [L1 L2 B S D F].
    assert (Hi : i < n) by (rewrite <- L2; apply nth_error_Some; congruence).
    (* a step that changes only the program counter *)
    assert (Pc : forall p', p' <> MFail -> (p' = MSet -> nth i cl mx <> mx) -> (p' = MDone -> nth i cl mx = mx \/ nth (nth i cl mx) (fst s) 0 = 1) -> marking (fst s, lset (snd s) i p')).
    { intros p' N1 N2 N3. constructor; cbn [fst snd]; auto; [now rewrite length_lset| | |]; intros j Hj; (destruct (Nat.eq_dec j i) as [->|Hne]; [rewrite nth_error_lset_same in Hj by lia; injection Hj as Hj|rewrite nth_error_lset_other in Hj by auto]); auto. now apply (F j). }
    unfold mark_step. rewrite (nth_error_nth' cl mx Hi). destruct p; cbn [fst snd].
    - destruct (Nat.eqb_spec (nth i cl mx) mx) as [E|E]; [apply Pc; auto; discriminate|]. destruct (Hcl Hi) as [|Hc]; [tauto|].
      rewrite (nth_error_nth' (fst s) 0) by lia. destruct (B _ Hc) as [Q|[Q _]]; rewrite Q; cbn [fst snd]; apply Pc; auto; discriminate.
    - pose proof (S i Ep) as E. destruct (Hcl Hi) as [|Hc]; [tauto|]. rewrite L1. rewrite (proj2 (Nat.ltb_lt _ _) Hc). cbn [fst snd].
      assert (N : forall c, nth c (lset (fst s) (nth i cl mx) 1) 0 = if c =? nth i cl mx then 1 else nth c (fst s) 0).
      { intros c. destruct (Nat.eqb_spec c (nth i cl mx)) as [->|Hd]; [apply nth_lset_same; lia|apply nth_lset_other; auto]. }
      constructor; cbn [fst snd]; try (now rewrite length_lset).
      + intros c Hcn. rewrite N. destruct (Nat.eqb_spec c (nth i cl mx)) as [->|]; [right; split; auto; exists i; auto|]. apply B; auto.
      + intros j Hj. destruct (Nat.eq_dec j i) as [->|Hne]; auto. rewrite nth_error_lset_other in Hj by auto. auto.
      + intros j Hj. rewrite N. destruct (Nat.eqb_spec (nth j cl mx) (nth i cl mx)) as [|Hd]; auto. destruct (Nat.eq_dec j i) as [->|Hne]; [tauto|]. rewrite nth_error_lset_other in Hj by auto. auto.
      + intros j Hj. destruct (Nat.eq_dec j i) as [->|Hne]; [rewrite nth_error_lset_same in Hj by lia; discriminate|]. rewrite nth_error_lset_other in Hj by auto. now apply (F j).
    - apply Pc; auto; discriminate.
    - destruct (F i Ep).
  Qed.
  Lemma marking_run sched : marking (mark_run mx cl sched).
  Proof.
    unfold mark_run. assert (G : forall s, marking s -> marking (fold_left (mark_sys mx cl) sched s)); [|apply G, marking_start].
    induction sched as [|i sched IH]; intros s H; cbn [fold_left]; auto. apply IH. now apply marking_step.
  Qed.

  (* sums of bits *)
  Lemma sum_mono (l : list nat) a b : a <= b -> list_sum (firstn a l) <= list_sum (firstn b l).
  Proof.
    revert a b. induction l as [|x l IH]; intros a b H; [now rewrite !firstn_nil|]. destruct a; [cbn; lia|]. destruct b; [lia|]. cbn [firstn list_sum fold_right]. unfold list_sum in *. cbn [fold_right]. specialize (IH a b). lia.
  Qed.
  Lemma sum_step (l : list nat) a : a < length l -> list_sum (firstn (S a) l) = list_sum (firstn a l) + nth a l 0.
  Proof. intros H. rewrite (@firstn_snoc _ l a _ (nth_error_nth' l 0 H)). rewrite list_sum_app. cbn. lia. Qed.
  Lemma nth_scan l a : a < length l -> nth_error (scan_exclusive l) a = Some (list_sum (firstn a l)).
  Proof. intros H. unfold scan_exclusive. rewrite nth_error_map. rewrite (nth_error_nth' _ 0) by now rewrite seq_length. now rewrite seq_nth by auto. Qed.

  Lemma compact_ok sched : all_marked (mark_run mx cl sched) = true -> n <= mx ->
    exists out k, compact mx cl sched = Some (out, k) /\ renumbers mx cl out k /\ k <= n.
  Proof.
    intros Hall Hmx. unfold compact. rewrite Hall. pose proof (marking_run sched) as [L1 L2 B _ D _]. set (s := mark_run mx cl sched) in *. set (bits := fst s) in *.
    assert (Dn : forall i, i < n -> nth i cl mx = mx \/ nth (nth i cl mx) bits 0 = 1).
    { intros i Hi. apply D. unfold all_marked in Hall. rewrite forallb_forall in Hall. assert (Hl : i < length (snd s)) by lia. pose proof (nth_error_nth' (snd s) MTest Hl) as E.
      specialize (Hall _ (nth_error_In _ _ E)). rewrite E. destruct (nth i (snd s) MTest); try discriminate. reflexivity. }
    set (R := fun c => list_sum (firstn c bits)).
    assert (Mono : forall a b, a < b -> b <= n -> nth a bits 0 = 1 -> R a < R b).
    { intros a b Hab Hb H1. assert (Ha : a < length bits) by lia. pose proof (@sum_step bits a Ha). pose proof (@sum_mono bits (S a) b Hab). unfold R. lia. }
    set (g := fun c => if c =? mx then c else R c).
    assert (E : relabel_all mx cl (scan_exclusive bits) = Some (map g cl)).
    { unfold relabel_all. apply all_some_map. intros c Hc. unfold g. destruct (Nat.eqb_spec c mx) as [|Hne]; auto. apply (In_nth _ _ mx) in Hc as (i & Hi & <-).
      destruct (Hcl Hi) as [|Hc]; [tauto|]. apply nth_scan. lia. }
    rewrite E. exists (map g cl), (list_sum bits). split; auto.
    assert (Hlen : list_sum bits = R n) by (unfold R; rewrite <- L1; now rewrite firstn_all).
    assert (Ng : forall i, i < n -> nth i (map g cl) mx = g (nth i cl mx)).
    { intros i Hi. rewrite (nth_indep _ mx (g mx)) by now rewrite map_length. apply map_nth. }
    assert (Rn : forall i, i < n -> nth i cl mx <> mx -> R (nth i cl mx) < R n).
    { intros i Hi Hne. destruct (Hcl Hi) as [|Hc]; [tauto|]. destruct (Dn i Hi) as [|H1]; [tauto|]. now apply Mono. }
    assert (Rk : R n <= n).
    { unfold R. rewrite <- L1. rewrite firstn_all. assert (G : Forall (fun x => x <= 1) bits).
      { apply Forall_forall. intros x Hx. apply (In_nth _ _ 0) in Hx as (c & Hc & <-). rewrite L1 in Hc. destruct (B c Hc) as [Q|[Q _]]; fold bits in Q; lia. }
      clear -G. induction G as [|x l Hx _ IH]; cbn [list_sum fold_right length]; [lia|]. unfold list_sum in *. cbn [fold_right length]. lia. }
    split; [|lia]. constructor.
    - apply map_length.
    - intros i Hi. rewrite Ng by auto. unfold g. destruct (Nat.eqb_spec (nth i cl mx) mx) as [|Hne]; [tauto|]. specialize (Rn i Hi Hne). split; [lia|tauto].
    - intros i Hi Hne. rewrite Ng by auto. unfold g. destruct (Nat.eqb_spec (nth i cl mx) mx); [tauto|]. rewrite Hlen. auto.
    - intros i j Hi Hj Hni Hnj. rewrite !Ng by auto. unfold g. destruct (Nat.eqb_spec (nth i cl mx) mx); [tauto|]. destruct (Nat.eqb_spec (nth j cl mx) mx); [tauto|].
      destruct (Hcl Hi) as [|Ci]; [tauto|]. destruct (Hcl Hj) as [|Cj]; [tauto|]. destruct (Dn i Hi) as [|Di]; [tauto|]. destruct (Dn j Hj) as [|Dj]; [tauto|]. split.
      + intros H. destruct (Nat.lt_trichotomy (nth i cl mx) (nth j cl mx)) as [|[Q|Q]]; auto; [rewrite Q in H; lia|]. assert (R (nth j cl mx) < R (nth i cl mx)) by (apply Mono; auto; lia). lia.
      + intros H. apply Mono; auto; lia.
    - intros c Hc. rewrite Hlen in Hc.
      assert (X : forall b, b <= n -> c < R b -> exists a, a < b /\ nth a bits 0 = 1 /\ R a = c).
      { induction b as [|b IH]; intros Hb Hcb; [unfold R in Hcb; cbn in Hcb; lia|]. destruct (Nat.lt_ge_cases c (R b)) as [Q|Q]; [destruct IH as (a & A1 & A2); [lia|auto|]; exists a; split; auto; lia|].
        assert (Hbl : b < length bits) by lia. pose proof (@sum_step bits b Hbl) as St. fold (R b) in St. fold (R (S b)) in St. assert (Hbn : b < n) by lia. destruct (B b Hbn) as [Z|[Z _]]; fold bits in Z; [lia|]. exists b. split; [lia|]. split; auto. lia. }
      destruct (X n (le_n _) Hc) as (a & Ha & Hb1 & <-). destruct (B a Ha) as [Z|[_ (i & Hi & Ei & Hne)]]; [fold bits in Z; lia|]. exists i. split; auto. subst a. split; auto. rewrite Ng by auto. unfold g.
      destruct (Nat.eqb_spec (nth i cl mx) mx); tauto.
  Qed.

  (* two steps of each iteration are enough *)
  Definition mleft (p : mpc) : nat := match p with MTest => 2 | MSet => 1 | _ => 0 end.
  Lemma mark_progress sched : (forall i, i < n -> 2 <= count_occ Nat.eq_dec sched i) -> all_marked (mark_run mx cl sched) = true.
  Proof.
    intros Hs. pose proof (marking_run sched) as [L1 L2 _ _ _ F].
    assert (G : forall sched s i p, nth_error (snd s) i = Some p -> exists q, nth_error (snd (fold_left (mark_sys mx cl) sched s)) i = Some q /\ mleft q <= mleft p - count_occ Nat.eq_dec sched i).
    { clear. induction sched as [|j sched IH]; intros s i p Hp; cbn [fold_left count_occ]; [exists p; split; auto; lia|].
      assert (X : exists q, nth_error (snd (mark_sys mx cl s j)) i = Some q /\ mleft q <= mleft p - (if Nat.eq_dec j i then 1 else 0)).
      { unfold mark_sys. destruct (nth_error (snd s) j) as [pj|] eqn:Ej; cbn [snd].
        - destruct (Nat.eq_dec j i) as [->|Hne].
          + rewrite Hp in Ej. injection Ej as <-. assert (i < length (snd s)) by (apply nth_error_Some; congruence). rewrite nth_error_lset_same by auto. eexists. split; [reflexivity|].
            unfold mark_step. destruct (nth_error cl i) as [c|]; cbn [snd mleft]; [|lia]. destruct p; cbn [snd mleft]; try lia.
            * destruct (c =? mx); cbn [snd mleft]; [lia|]. destruct (nth_error (fst s) c) as [[|b]|]; cbn [snd mleft]; lia.
            * destruct (c <? length (fst s)); cbn [snd mleft]; lia.
          + rewrite nth_error_lset_other by auto. exists p. split; auto. lia.
        - exists p. split; auto. destruct (Nat.eq_dec j i) as [->|]; [congruence|lia]. }
      destruct X as (q & Hq & Lq). destruct (IH _ _ _ Hq) as (r & Hr & Lr). exists r. split; auto. destruct (Nat.eq_dec j i); lia. }
    unfold all_marked. apply forallb_forall. intros p Hp. apply In_nth_error in Hp as (i & Hi). assert (Hin : i < n) by (rewrite <- L2; apply nth_error_Some; congruence).
    destruct (G sched (mark_start cl) i MTest) as (q & Hq & Lq).
    { unfold mark_start. cbn [snd]. rewrite (nth_error_nth' _ MTest) by now rewrite repeat_length. f_equal. apply nth_repeat. }
    change (fold_left (mark_sys mx cl) sched (mark_start cl)) with (mark_run mx cl sched) in Hq. rewrite Hi in Hq. injection Hq as <-. specialize (Hs i Hin). cbn [mleft] in Lq.
    destruct p; cbn [mleft] in Lq; try lia; auto. destruct (F i Hi).
  Qed.
End Compact.

Section Hub.
  Variable mx : nat.
  Variable cl : list nat.
  Variable nghs : list nat.
  Notation C i := (nth (nth i nghs 0) cl mx).
  Notation k := (length nghs).
  Record hubbing (s : hst) : Prop := {
    hb_len : length (hpcs s) = k;
    hb_cand : candidate s = mx \/ (exists i, i < k /\ C i = candidate s);
    hb_in : forall i p, nth_error (hpcs s) i = Some p -> p <> HTest -> p <> HDone -> C i <> mx;
    hb_compare : forall i p, nth_error (hpcs s) i = Some p -> p = HCompare \/ p = HLook \/ p = HSet -> candidate s <> mx;
    hb_differs : forall i p, nth_error (hpcs s) i = Some p -> p = HLook \/ p = HSet -> C i <> candidate s;
    hb_done : forall i, nth_error (hpcs s) i = Some HDone -> C i = mx \/ (candidate s <> mx /\ (C i = candidate s \/ is_hub s = true));
    hb_hub : is_hub s = true -> exists i, i < k /\ C i <> mx /\ candidate s <> mx /\ C i <> candidate s }.
  Lemma hubbing_start : hubbing (hub_start mx nghs).
  Proof.
    unfold hub_start. constructor; cbn [candidate is_hub hpcs].
    - apply repeat_length.
    - auto.
    - intros i p Hp. apply nth_error_repeat' in Hp. tauto.
    - intros i p Hp. apply nth_error_repeat' in Hp. subst p. intuition discriminate.
    - intros i p Hp. apply nth_error_repeat' in Hp. subst p. intuition discriminate.
    - intros i Hp. apply nth_error_repeat' in Hp. discriminate.
    - discriminate.
  Qed.
  Lemma hubbing_step s i : hubbing s -> hubbing (hub_sys mx cl nghs s i).
  Proof.
    intros HH. unfold hub_sys. destruct (nth_error nghs i) as [x|] eqn:Ex; auto. destruct (nth_error (hpcs s) i) as [p|] eqn:Ep; auto.
    pose proof HH as [L HC HI HP HD HF HU]. assert (Hi : i < k) by (apply nth_error_Some; congruence).
    assert (EC : nth x cl mx = C i) by (now rewrite (nth_error_nth _ _ 0 Ex)). rewrite EC.
    (* only the program counter changes *)
    assert (Pc : forall p', (p' <> HTest -> p' <> HDone -> C i <> mx) -> (p' = HCompare \/ p' = HLook \/ p' = HSet -> candidate s <> mx) -> (p' = HLook \/ p' = HSet -> C i <> candidate s) ->
                (p' = HDone -> C i = mx \/ (candidate s <> mx /\ (C i = candidate s \/ is_hub s = true))) -> hubbing {| candidate := candidate s; is_hub := is_hub s; hpcs := lset (hpcs s) i p' |}).
    { intros p' P1 P2 P3 P4. constructor; cbn [candidate is_hub hpcs]; auto; [now rewrite length_lset|intros j q Hj|intros j q Hj|intros j q Hj|intros j Hj];
        (destruct (Nat.eq_dec j i) as [->|Hne]; [rewrite nth_error_lset_same in Hj by lia; injection Hj as Hj; try subst q|rewrite nth_error_lset_other in Hj by auto]); eauto. }
    destruct p; cbn [hub_step].
    - apply Pc; destruct (Nat.eqb_spec (C i) mx); destruct (Nat.eqb_spec (candidate s) mx); try tauto; intuition discriminate.
    - assert (Ne : C i <> mx) by (apply (HI i HCas Ep); discriminate). destruct (Nat.eqb_spec (candidate s) mx) as [E|E].
      + constructor; cbn [candidate is_hub hpcs].
        * now rewrite length_lset.
        * right. exists i. auto.
        * intros j q Hj. destruct (Nat.eq_dec j i) as [->|Hne]; [rewrite nth_error_lset_same in Hj by lia; injection Hj as <-; tauto|rewrite nth_error_lset_other in Hj by auto]; eauto.
        * auto.
        * intros j q Hj Hq. destruct (Nat.eq_dec j i) as [->|Hne]; [rewrite nth_error_lset_same in Hj by lia; injection Hj as <-; intuition discriminate|rewrite nth_error_lset_other in Hj by auto].
          destruct (HP j q Hj); tauto.
        * intros j Hj. destruct (Nat.eq_dec j i) as [->|Hne]; [auto|rewrite nth_error_lset_other in Hj by auto]. destruct (HF j Hj) as [|[]]; tauto.
        * intros Hh. destruct (HU Hh) as (j & _ & _ & Q & _). tauto.
      + apply Pc; try tauto; intuition discriminate.
    - assert (Ne : C i <> mx) by (apply (HI i HCompare Ep); discriminate). assert (Nc : candidate s <> mx) by (apply (HP i HCompare Ep); auto).
      apply Pc; destruct (Nat.eqb_spec (candidate s) (C i)) as [E|E]; try tauto; try (intuition discriminate); intros _; auto.
    - assert (Ne : C i <> mx) by (apply (HI i HLook Ep); discriminate). assert (Nc : candidate s <> mx) by (apply (HP i HLook Ep); auto). assert (Nd : C i <> candidate s) by (apply (HD i HLook Ep); auto).
      apply Pc; destruct (is_hub s) eqn:E; try tauto; try (intuition discriminate).
    - assert (Ne : C i <> mx) by (apply (HI i HSet Ep); discriminate). assert (Nc : candidate s <> mx) by (apply (HP i HSet Ep); auto). assert (Nd : C i <> candidate s) by (apply (HD i HSet Ep); auto).
      constructor; cbn [candidate is_hub hpcs].
      + now rewrite length_lset.
      + auto.
      + intros j q Hj. destruct (Nat.eq_dec j i) as [->|Hne]; [auto|rewrite nth_error_lset_other in Hj by auto]; eauto.
      + auto.
      + intros j q Hj. destruct (Nat.eq_dec j i) as [->|Hne]; [auto|rewrite nth_error_lset_other in Hj by auto]; eauto.
      + intros j Hj. destruct (Nat.eq_dec j i) as [->|Hne]; [auto|rewrite nth_error_lset_other in Hj by auto]. destruct (HF j Hj) as [|[]]; auto.
      + intros _. exists i. auto.
    - apply Pc; try tauto; try (intuition discriminate). intros _. now apply HF.
  Qed.
  Lemma hubbing_run sched : hubbing (hub_run mx cl nghs sched).
  Proof.
    unfold hub_run. assert (G : forall s, hubbing s -> hubbing (fold_left (hub_sys mx cl nghs) sched s)); [|apply G, hubbing_start].
    induction sched as [|i sched IH]; intros s H; cbn [fold_left]; auto. apply IH. now apply hubbing_step.
  Qed.
  Lemma type_ok sched b : unclustered_type mx cl nghs sched = Some b -> (b = true <-> hub mx cl nghs).
  Proof.
    unfold unclustered_type. pose proof (hubbing_run sched) as [L HC HI HP HD HF HU]. set (s := hub_run mx cl nghs sched) in *. destruct (forallb _ (hpcs s)) eqn:E; [|discriminate]. intros Q. injection Q as <-.
    assert (Dn : forall i, i < k -> nth_error (hpcs s) i = Some HDone).
    { intros i Hi. rewrite forallb_forall in E. assert (Hl : i < length (hpcs s)) by lia. pose proof (nth_error_nth' (hpcs s) HTest Hl) as X. specialize (E _ (nth_error_In _ _ X)). rewrite X.
      destruct (nth i (hpcs s) HTest); try discriminate. reflexivity. }
    split.
    - intros Hh. destruct (HU Hh) as (i & Hi & A1 & A2 & A3). destruct HC as [|(j & Hj & Ej)]; [tauto|]. exists (nth i nghs 0), (nth j nghs 0). split; [now apply nth_In|]. split; [now apply nth_In|]. rewrite Ej. auto.
    - intros (u & v & Hu & Hv & Nu & Nv & Ne). apply (In_nth _ _ 0) in Hu as (i & Hi & <-), Hv as (j & Hj & <-). destruct (HF i (Dn i Hi)) as [|[_ [A|A]]]; [tauto| |auto]. destruct (HF j (Dn j Hj)) as [|[_ [B|B]]]; [tauto| |auto]. congruence.
  Qed.
  Definition hleft (p : hpc) : nat := match p with HTest => 5 | HCas => 4 | HCompare => 3 | HLook => 2 | HSet => 1 | HDone => 0 end.
  Lemma hub_progress sched : (forall i, i < k -> 5 <= count_occ Nat.eq_dec sched i) -> exists b, unclustered_type mx cl nghs sched = Some b.
  Proof.
    intros Hs. unfold unclustered_type. pose proof (hubbing_run sched) as [L _ _ _ _ _ _].
    assert (G : forall sched s i p, i < k -> nth_error (hpcs s) i = Some p -> exists q, nth_error (hpcs (fold_left (hub_sys mx cl nghs) sched s)) i = Some q /\ hleft q <= hleft p - count_occ Nat.eq_dec sched i).
    { clear. induction sched as [|j sched IH]; intros s i p Hi Hp; cbn [fold_left count_occ]; [exists p; split; auto; lia|].
      assert (X : exists q, nth_error (hpcs (hub_sys mx cl nghs s j)) i = Some q /\ hleft q <= hleft p - (if Nat.eq_dec j i then 1 else 0)).
      { unfold hub_sys. destruct (Nat.eq_dec j i) as [->|Hne].
        - rewrite Hp. rewrite (nth_error_nth' nghs 0 Hi). destruct (hub_step mx (C i) s p) as [[a b] q] eqn:E. cbn [hpcs]. assert (i < length (hpcs s)) by (apply nth_error_Some; congruence). rewrite nth_error_lset_same by auto.
          exists q. split; auto. destruct p; cbn [hub_step] in E; repeat match type of E with context [if ?c then _ else _] => destruct c end; injection E as _ _ <-; cbn [hleft]; lia.
        - destruct (nth_error nghs j); [|exists p; split; auto; lia]. destruct (nth_error (hpcs s) j); [|exists p; split; auto; lia]. destruct (hub_step _ _ _ _) as [[a b] q]. cbn [hpcs]. rewrite nth_error_lset_other by auto. exists p. split; auto. lia. }
      destruct X as (q & Hq & Lq). destruct (IH _ _ _ Hi Hq) as (r & Hr & Lr). exists r. split; auto. destruct (Nat.eq_dec j i); lia. }
    rewrite (proj2 (forallb_forall _ _)); [eauto|]. intros p Hp. apply In_nth_error in Hp as (i & Hi). assert (Hin : i < k) by (rewrite <- L; apply nth_error_Some; congruence).
    destruct (G sched (hub_start mx nghs) i HTest Hin) as (q & Hq & Lq).
    { unfold hub_start. cbn [hpcs]. rewrite (nth_error_nth' _ HTest) by now rewrite repeat_length. f_equal. apply nth_repeat. }
    change (fold_left (hub_sys mx cl nghs) sched (hub_start mx nghs)) with (hub_run mx cl nghs sched) in Hq. rewrite Hi in Hq. injection Hq as <-. specialize (Hs i Hin). cbn [hleft] in Lq.
    destruct p; cbn [hleft] in Lq; try lia; auto.
  Qed.
End Hub.
