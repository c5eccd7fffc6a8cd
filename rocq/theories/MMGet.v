(* Proofs for C42: get_edges. *)
From Coq Require Import Permutation.
From Verif Require Import Base ListUtil GBModel GBProofs MIModel MMModel MMSpec.

Lemma run_stores_any {A} (st : list (nat * A)) : forall arr, (forall k x, In (k, x) st -> k < length arr) ->
  exists arr', run_stores st arr = Some arr' /\ length arr' = length arr /\
    forall k, (exists x, In (k, x) st /\ nth_error arr' k = Some x) \/ (nth_error arr' k = nth_error arr k /\ forall x, ~ In (k, x) st).
Proof.
  induction st as [|[k x] st IH]; intros arr H; simpl.
  - exists arr. repeat split; auto.
  - pose proof (H k x (or_introl eq_refl)) as Hk. rewrite (proj2 (Nat.ltb_lt _ _) Hk).
    destruct (IH (lset arr k x)) as (arr' & E & Hl' & HA); [intros; rewrite length_lset; eapply H; right; eauto|]. rewrite length_lset in Hl'.
    exists arr'. split; auto. split; auto. intros k'. destruct (HA k') as [(y & Hy & E')|[H1 H2]].
    + left. exists y. auto.
    + destruct (Nat.eq_dec k k') as [->|Hne].
      * left. exists x. split; auto. rewrite H1. now apply nth_error_lset_same.
      * right. split; [rewrite H1; now apply nth_error_lset_other|]. intros y [E'|Hx]; [congruence|]. eapply H2; eauto.
Qed.

Section Get.
  Variable W : Type.
  Variable w0 : W.
  Variable n : nat.
  Variable outw : nat -> list (nat * W).
  Variable matched : nat -> bool.
  Variable first : bool.
  Variable idxs : list nat.
  Notation k := (length idxs).
  Notation ldeg := (live_degree outw matched first).
  Notation live := (live outw matched first).
  Notation tot := (tot n outw matched first).
  Notation search := (search n outw matched first).
  Notation skip := (skip n outw matched first).
  Notation pick := (pick matched idxs).
  Notation block_iter := (block_iter n outw matched first idxs).
  Notation block_loop := (block_loop n outw matched first idxs).
  Notation block := (block n outw matched first idxs).
  Definition alive (c : nat) (vw : nat * W) : bool := negb (matched (fst vw)) && (c <? fst vw).

  (* -- the traversal of one vertex --------------------------------------------------------- *)
  Section Pick.
    Variables c c0 i t0 : nat.
    Hypothesis Hi : i < k.
    Hypothesis Ht : t0 = nth i idxs 0.
    Lemma pick_fold (d : nat * W) l : exists ctr target offset ws, fold_left (pick c) l (c0, Some t0, i, []) = (ctr, target, offset, ws) /\
      ctr = c0 + length (filter (alive c) l) /\
      (forall t, target = Some t -> offset < k /\ t = nth offset idxs 0) /\
      i <= offset <= k /\
      (forall j e, In (j, e) ws -> i <= j < offset /\ c0 <= nth j idxs 0 < ctr /\
         e = (c, fst (nth (nth j idxs 0 - c0) (filter (alive c) l) d), snd (nth (nth j idxs 0 - c0) (filter (alive c) l) d))) /\
      ((offset = i /\ target = Some t0 /\ ws = [] /\ (c0 <= t0 -> ctr <= t0)) \/ (i < offset /\ exists e, In (i, e) ws)).
    Proof.
      induction l as [|vw l IH] using rev_ind.
      - simpl. eexists _, _, _, _. split; [reflexivity|]. split; [lia|]. split; [intros t E; injection E as <-; auto|]. split; [lia|]. split; [intros j e []|]. left. auto.
      - destruct IH as (ctr & target & offset & ws & Ef & Hctr & Htgt & Hoff & Hws & Hpr).
        rewrite fold_left_app, Ef. cbn [fold_left]. unfold MMModel.pick. fold (alive c vw). rewrite filter_app. cbn [filter].
        destruct (alive c vw) eqn:Ea.
        + assert (Hnth : forall j, c0 <= nth j idxs 0 < ctr -> nth (nth j idxs 0 - c0) (filter (alive c) l ++ [vw]) d = nth (nth j idxs 0 - c0) (filter (alive c) l) d).
          { intros j Hj. apply app_nth1. lia. }
          destruct (match target with Some t => t =? ctr | None => false end) eqn:Et.
          * destruct target as [t|]; [|discriminate]. apply Nat.eqb_eq in Et. subst t. destruct (Htgt ctr eq_refl) as [Ho1 Ho2].
            eexists _, _, _, _. split; [reflexivity|]. rewrite app_length. simpl. split; [lia|]. split; [|split; [lia|split]].
            -- intros t E. destruct (Nat.ltb_spec (S offset) k); [|discriminate]. injection E as <-. auto.
            -- intros j e H. apply in_app_iff in H as [H|[H|[]]].
               ++ destruct (Hws j e H) as (A & B & C). split; [lia|]. split; [lia|]. now rewrite Hnth.
               ++ injection H as <- <-. split; [lia|]. split; [lia|]. rewrite app_nth2 by lia. rewrite <- Ho2, Hctr.
                  replace (c0 + length (filter (alive c) l) - c0 - length (filter (alive c) l)) with 0 by lia. reflexivity.
            -- right. split; [lia|]. destruct Hpr as [(-> & _)|(_ & e & He)]; [|exists e; apply in_app_iff; auto].
               eexists. apply in_app_iff. right. now left.
          * eexists _, _, _, _. split; [reflexivity|]. rewrite app_length. simpl. split; [lia|]. split; auto. split; auto. split.
            -- intros j e H. destruct (Hws j e H) as (A & B & C). split; [lia|]. split; [lia|]. now rewrite Hnth.
            -- destruct Hpr as [(A & B & C & D)|H]; auto. left. split; auto. split; auto. split; auto. intros H0. specialize (D H0). rewrite B in Et. apply Nat.eqb_neq in Et. lia.
        + eexists _, _, _, _. split; [reflexivity|]. rewrite app_nil_r. auto.
    Qed.
  End Pick.

  Lemma pick_sound c c0 i t0 : i < k -> t0 = nth i idxs 0 -> forall ctr target offset ws,
    fold_left (pick c) (outw c) (c0, Some t0, i, []) = (ctr, target, offset, ws) ->
    i <= offset /\ forall j e, In (j, e) ws -> j < k /\ eu e = c /\ In (ev e, snd e) (outw c) /\ c < ev e /\ matched (ev e) = false.
  Proof.
    intros Hi Ht ctr target offset ws E. destruct (pick_fold c c0 Hi Ht (0, w0) (outw c)) as (ctr' & tg' & off' & ws' & E' & A & B & C & D & _).
    rewrite E in E'. injection E' as <- <- <- <-. split; [lia|]. intros j e H. destruct (D j e H) as (D1 & D2 & ->). split; [lia|]. split; [reflexivity|].
    assert (X : In (nth (nth j idxs 0 - c0) (filter (alive c) (outw c)) (0, w0)) (filter (alive c) (outw c))) by (apply nth_In; lia).
    apply filter_In in X as [X1 X2]. unfold alive in X2. apply andb_true_iff in X2 as [X2 X3]. apply negb_true_iff in X2. apply Nat.ltb_lt in X3.
    unfold eu, ev. simpl. split; [now rewrite <- surjective_pairing|]. auto.
  Qed.
  Definition sound (je : nat * medge W) : Prop := fst je < k /\ eu (snd je) < n /\ In (ev (snd je), snd (snd je)) (outw (eu (snd je))) /\ eu (snd je) < ev (snd je) /\ matched (ev (snd je)) = false.
  Lemma skip_lt fuel : forall idx c c', skip fuel idx c = Some c' -> c' < n.
  Proof.
    induction fuel as [|f IH]; intros idx c c' H; simpl in H; [discriminate|]. destruct (Nat.ltb_spec c n); [|discriminate].
    destruct (edge_end n outw matched first idx c) as [e|]; [|discriminate]. destruct (e - live c =? 0); [eauto|]. now injection H as <-.
  Qed.
  Lemma iter_sound i cur i' cur' ws : i < k -> block_iter i cur = Some (i', cur', ws) -> i <= i' /\ forall je, In je ws -> sound je.
  Proof.
    intros Hi H. unfold MMModel.block_iter in H. destruct (search cur (nth i idxs 0) <? n); [|discriminate].
    destruct (skip _ _ _) as [c|] eqn:Es; [|discriminate]. apply skip_lt in Es. destruct ((i =? 0) || _).
    - destruct (fold_left _ _ _) as [[[ctr tg] off] ws1] eqn:Ef. injection H as <- <- <-. destruct (pick_sound c (live c) Hi eq_refl Ef) as [Ho HD].
      split; [lia|]. intros [j e] Hj. destruct (HD j e Hj) as (A & B & C & D). unfold sound. simpl. rewrite B. auto.
    - injection H as <- <- <-. split; [lia|]. intros je [].
  Qed.
  Lemma loop_sound fuel : forall stop i cur ws ws', stop <= k -> (forall je, In je ws -> sound je) -> block_loop fuel stop i cur ws = Some (Some ws') ->
    forall je, In je ws' -> sound je.
  Proof.
    induction fuel as [|f IH]; intros stop i cur ws ws' Hst Hws H; simpl in H; (destruct (Nat.ltb_spec i stop); [|now injection H as <-]); [discriminate|].
    destruct (block_iter i cur) as [[[i' cur'] ws1]|] eqn:Ei; [|discriminate]. destruct (iter_sound (i:=i) cur ltac:(lia) Ei) as [_ X]. eapply IH; [exact Hst| |exact H].
    intros je Hje. apply in_app_iff in Hje as [Hje|Hje]; auto.
  Qed.
  Lemma extracted_sound bs E : extracted w0 n outw matched first idxs bs E ->
    length E = k /\ forall j, j < k -> nth j E (0, 0, w0) = (0, 0, w0) \/ sound (j, nth j E (0, 0, w0)).
  Proof.
    intros (wss & order & Hl & Hb & Hp & Hr).
    assert (Hs : forall je, In je order -> sound je).
    { intros je Hje. apply (Permutation_in _ Hp) in Hje. apply in_concat in Hje as (ws & Hws & Hje). apply In_nth with (d := []) in Hws as (b & Hlt & <-).
      destruct (Hb b) as [fuel Hf]; [lia|]. unfold MMModel.block in Hf. eapply loop_sound; [| |exact Hf|exact Hje]; [lia|intros ? []]. }
    destruct (@run_stores_any _ order (repeat (0, 0, w0) k)) as (arr & E1 & Hl1 & HA).
    { intros q x H. rewrite repeat_length. apply (Hs _ H). }
    rewrite repeat_length in *. assert (arr = E) as -> by congruence. split; auto. intros j Hj. destruct (HA j) as [(x & Hx & Hn)|[Hn _]].
    - right. rewrite (nth_error_nth _ _ _ Hn). apply (Hs (j, x) Hx).
    - left. apply nth_error_nth. rewrite Hn. apply nth_error_nth' with (d := (0, 0, w0)) in Hj || idtac. rewrite nth_error_repeat; auto.
  Qed.

  (* -- the search for the vertex ------------------------------------------------------------ *)
  Lemma live_S c : live (S c) = live c + ldeg c.
  Proof. unfold MMModel.live. rewrite seq_S, map_app, list_sum_app. simpl. lia. Qed.
  Lemma live_mono a b : a <= b -> live a <= live b.
  Proof. induction 1; auto. rewrite live_S. lia. Qed.
  Hypothesis Hnb : forall u v w, u < n -> In (v, w) (outw u) -> v < n.
  Lemma live_last c : n <= S c -> c < n -> live c = tot.
  Proof.
    intros H1 H2. assert (n = S c) as E by lia. unfold MMModel.tot. rewrite E, live_S. assert (ldeg c = 0); [|lia].
    unfold live_degree. destruct (matched c); auto. rewrite filter_none; auto. intros [v w] Hv. apply Hnb in Hv; [|lia]. simpl.
    destruct (Nat.ltb_spec c v); [lia|]. now rewrite andb_false_r.
  Qed.
  Definition owns (c idx : nat) : Prop := live c <= idx < live (S c).
  Lemma owner_exists idx : idx < tot -> exists c, c < n /\ owns c idx.
  Proof.
    unfold MMModel.tot. intros H. assert (X : forall m, idx < live m -> exists c, c < m /\ owns c idx).
    { induction m as [|m IH]; intros Hm; [cbn in Hm; lia|]. destruct (Nat.lt_ge_cases idx (live m)) as [Hl|Hl].
      - destruct (IH Hl) as (c & Hc & Ho). exists c. split; auto.
      - exists m. split; auto. split; auto. }
    auto.
  Qed.
  Lemma owner_lt c idx : c < n -> owns c idx -> S c < n.
  Proof.
    intros Hc [H1 H2]. destruct (Nat.lt_ge_cases (S c) n) as [|Hge]; auto. assert (live c = tot) by (apply live_last; auto).
    assert (S c = n) as E by lia. rewrite E in H2. unfold MMModel.tot in *. lia.
  Qed.
  Lemma owner_mono c1 i1 c2 i2 : owns c1 i1 -> owns c2 i2 -> i1 <= i2 -> c1 <= c2.
  Proof.
    intros [A B] [C D] H. destruct (Nat.le_gt_cases c1 c2) as [|Hgt]; auto. assert (live (S c2) <= live c1) by (apply live_mono; lia). lia.
  Qed.
  Lemma owner_unique c1 c2 i : owns c1 i -> owns c2 i -> c1 = c2.
  Proof. intros A B. apply Nat.le_antisymm; eapply owner_mono; eauto. Qed.

  Lemma search_spec cur idx : (cur <= search cur idx < n /\ idx <= live (search cur idx) /\ forall c, cur <= c < search cur idx -> live c < idx) \/
    (search cur idx = n /\ forall c, cur <= c < n -> live c < idx).
  Proof.
    unfold MMModel.search. assert (X : forall m a, match find (fun c => idx <=? live c) (seq a m) with
      | Some c => a <= c < a + m /\ idx <= live c /\ forall c', a <= c' < c -> live c' < idx
      | None => forall c, a <= c < a + m -> live c < idx end).
    { induction m as [|m IH]; intros a; simpl; [intros; lia|]. destruct (Nat.leb_spec idx (live a)).
      - split; [lia|]. split; auto. intros; lia.
      - specialize (IH (S a)). destruct (find _ _) as [c|].
        + destruct IH as (A & B & C). split; [lia|]. split; auto. intros c' Hc'. destruct (Nat.eq_dec c' a) as [->|]; auto. apply C. lia.
        + intros c Hc. destruct (Nat.eq_dec c a) as [->|]; auto. apply IH. lia. }
    specialize (X (n - cur) cur). destruct (find _ _) as [c|]; [left|right].
    - destruct X as (A & B & C). split; [lia|]. auto.
    - split; auto. intros c Hc. apply X. lia.
  Qed.
  (* the position after the search, with the correction of line 136 *)
  Definition start_at (cur idx : nat) : nat := if idx <? live (search cur idx) then search cur idx - 1 else search cur idx.
  Lemma start_ok cur idx o : o < n -> owns o idx -> cur <= o \/ cur = S o ->
    search cur idx < n /\ (start_at cur idx = o \/ (start_at cur idx < o /\ live (start_at cur idx) = idx)).
  Proof.
    intros Ho Hown Hcur. pose proof (owner_lt Ho Hown) as HSo. destruct Hown as [O1 O2]. unfold start_at.
    destruct (search_spec cur idx) as [(A & B & C)|[A C]].
    - split; [lia|]. set (s := search cur idx) in *. destruct (Nat.ltb_spec idx (live s)) as [Hl|Hl].
      + left. assert (o < s).
        { destruct (Nat.lt_ge_cases o s); auto. assert (live s <= live o) by (apply live_mono; auto). lia. }
        destruct (Nat.eq_dec s (S o)) as [->|]; [lia|]. exfalso. assert (live (S o) < idx) by (apply C; lia). lia.
      + assert (s <= o) by (destruct (Nat.le_gt_cases s o); auto; assert (live (S o) <= live s) by (apply live_mono; lia); lia).
        destruct (Nat.eq_dec s o); auto. right. lia.
    - exfalso. assert (live (S o) < idx) by (apply C; lia). lia.
  Qed.
  (* no vertex without live edges starts at the live edge number n-1 *)
  Definition boundary_ok : Prop := n - 1 < tot -> forall c, c < n -> live c = n - 1 -> ldeg c <> 0.
  Lemma skip_ok idx o : boundary_ok -> o < n -> owns o idx -> idx < tot -> forall fuel c, n < fuel + c -> c = o \/ (c < o /\ live c = idx) -> skip fuel idx c = Some o.
  Proof.
    intros Hb Ho Hown Hidx. pose proof (owner_lt Ho Hown) as HSo. destruct Hown as [O1 O2]. induction fuel as [|f IH]; intros c Hf Hc; [lia|]. simpl.
    destruct (Nat.ltb_spec c n); [|lia]. unfold edge_end. destruct (Nat.eqb_spec idx (n - 1)) as [->|Hne].
    - destruct Hc as [->|[Hc1 Hc2]].
      + destruct (Nat.eqb_spec (tot - live o) 0); [lia|reflexivity].
      + exfalso. apply (Hb Hidx c); auto. pose proof (live_S c). assert (live (S c) <= live o) by (apply live_mono; lia). lia.
    - destruct (Nat.ltb_spec (S c) n); [|lia]. destruct Hc as [->|[Hc1 Hc2]].
      + destruct (Nat.eqb_spec (live (S o) - live o) 0); [lia|reflexivity].
      + assert (live (S c) <= live o) by (apply live_mono; lia). pose proof (@live_mono c (S c) ltac:(lia)). destruct (Nat.eqb_spec (live (S c) - live c) 0); [|lia]. apply IH; [lia|].
        destruct (Nat.eq_dec (S c) o); auto. right. lia.
  Qed.

  (* -- a block ------------------------------------------------------------------------------- *)
  Hypothesis Hfirst : first = true -> forall x, matched x = false.
  Hypothesis Hbound : boundary_ok.
  Hypothesis Hsorted : forall i j, i <= j < k -> nth i idxs 0 <= nth j idxs 0.
  Hypothesis Hidxs : forall i, i < k -> nth i idxs 0 < tot.

  Lemma ldeg_alive c : 0 < ldeg c -> matched c = false /\ ldeg c = length (filter (alive c) (outw c)).
  Proof.
    unfold live_degree. destruct (matched c) eqn:Em; [lia|]. intros _. split; auto. f_equal. apply filter_ext. intros [v w]. unfold alive. simpl. destruct first eqn:Ef; auto. simpl.
    now rewrite Hfirst.
  Qed.
  (* the write of live edge number idxs[j] *)
  Definition right_write (je : nat * medge W) : Prop := fst je < k /\ exists c, c < n /\ owns c (nth (fst je) idxs 0) /\ matched c = false /\
    snd je = (c, fst (nth (nth (fst je) idxs 0 - live c) (filter (alive c) (outw c)) (0, w0)), snd (nth (nth (fst je) idxs 0 - live c) (filter (alive c) (outw c)) (0, w0))).
  Lemma iter_ok i cur o : i < k -> o < n -> owns o (nth i idxs 0) -> cur <= o \/ cur = S o ->
    exists i' ws, block_iter i cur = Some (i', o, ws) /\ i < i' /\ (forall je, In je ws -> right_write je) /\ (i = 0 -> exists e, In (0, e) ws).
  Proof.
    intros Hi Ho Hown Hcur. destruct (start_ok Ho Hown Hcur) as [A B]. unfold MMModel.block_iter. rewrite (proj2 (Nat.ltb_lt _ _) A).
    fold (start_at cur (nth i idxs 0)). rewrite (@skip_ok (nth i idxs 0) o); auto; [|lia].
    assert (Hd : 0 < ldeg o) by (destruct Hown; rewrite live_S in *; lia). destruct (ldeg_alive _ Hd) as [Hm Hld].
    destruct ((i =? 0) || (nth (i - 1) idxs 0 <? live o)) eqn:Ef.
    - destruct (pick_fold o (live o) Hi eq_refl (0, w0) (outw o)) as (ctr & tg & off & ws & E' & P1 & P2 & P3 & P4 & P5). rewrite E'.
      exists off, ws. split; auto. destruct Hown as [O1 O2]. rewrite live_S in O2. destruct P5 as [(-> & _ & _ & X)|(X & e & He)]; [specialize (X O1); lia|].
      split; auto. split; [|intros ->; eauto]. intros [j e'] Hj. destruct (P4 j e' Hj) as (Q1 & Q2 & Q3). unfold right_write. simpl. split; [lia|].
      exists o. split; auto. split; [|auto]. unfold owns. rewrite live_S. lia.
    - exists (S i), []. split; auto. split; auto. split; [intros je []|]. intros ->. discriminate.
  Qed.
  Lemma loop_ok fuel : forall stop i cur ws, stop <= k -> stop <= i + fuel -> (forall je, In je ws -> right_write je) ->
    (i < stop -> exists o, o < n /\ owns o (nth i idxs 0) /\ (cur <= o \/ cur = S o)) ->
    exists ws', block_loop fuel stop i cur ws = Some (Some ws') /\ (forall je, In je ws' -> right_write je) /\
      ((i = 0 /\ 0 < stop) \/ (exists e, In (0, e) ws) -> exists e, In (0, e) ws').
  Proof.
    induction fuel as [|f IH]; intros stop i cur ws Hst Hf Hws Hcur; simpl; (destruct (Nat.ltb_spec i stop) as [Hi|Hi]; [|exists ws; split; auto; split; auto; intros [[? ?]|?]; auto; lia]); [lia|].
    destruct (Hcur Hi) as (o & Ho & Hown & Hc). assert (Hik : i < k) by lia. destruct (iter_ok Hik Ho Hown Hc) as (i' & ws1 & -> & Hlt & Hw1 & H0).
    destruct (IH stop i' o (ws ++ ws1)) as (ws' & E & Hw' & H0'); auto; try lia.
    - intros je Hje. apply in_app_iff in Hje as [Hje|Hje]; auto.
    - intros Hi'. destruct (@owner_exists (nth i' idxs 0)) as (o' & Ho' & Hown'); [apply Hidxs; lia|]. exists o'. split; auto. split; auto. left.
      eapply owner_mono; [exact Hown|exact Hown'|]. apply Hsorted. lia.
    - exists ws'. split; auto. split; auto. intros H. apply H0'. right. destruct H as [[-> _]|[e He]].
      + destruct (H0 eq_refl) as [e He]. exists e. apply in_app_iff. auto.
      + exists e. apply in_app_iff. auto.
  Qed.
  Lemma block_ok bs b : 0 < bs -> b * bs < k -> exists ws', block bs k b = Some (Some ws') /\ (forall je, In je ws' -> right_write je) /\ (b = 0 -> exists e, In (0, e) ws').
  Proof.
    intros Hbs Hb. unfold MMModel.block. destruct (@loop_ok k (Nat.min k ((b + 1) * bs)) (b * bs) (search 0 (nth (b * bs) idxs 0)) []) as (ws' & E & A & B); try lia; [intros je []| |].
    - intros Hi. destruct (@owner_exists (nth (b * bs) idxs 0)) as (o & Ho & Hown); [apply Hidxs; lia|]. exists o. split; auto. split; auto.
      pose proof (start_ok Ho Hown (or_introl (Nat.le_0_l _))) as [_ X]. unfold start_at in X. destruct Hown as [O1 O2].
      destruct (search_spec 0 (nth (b * bs) idxs 0)) as [(S1 & S2 & S3)|[S1 S3]].
      + destruct (Nat.ltb_spec (nth (b * bs) idxs 0) (live (search 0 (nth (b * bs) idxs 0)))) as [Hl|Hl]; [|lia].
        assert (search 0 (nth (b * bs) idxs 0) <> 0) by (intros E; rewrite E in Hl; cbn in Hl; lia). lia.
      + pose proof (owner_lt Ho (conj O1 O2)). specialize (S3 (S o)). lia.
    - exists ws'. split; auto. split; auto. intros ->. apply B. left. split; auto. lia.
  Qed.
  Lemma loop_fuel f : forall stop i cur ws r, block_loop f stop i cur ws = Some r -> forall f', f <= f' -> block_loop f' stop i cur ws = Some r.
  Proof.
    induction f as [|f IH]; intros stop i cur ws r H f' Hle.
    - simpl in H. destruct (i <? stop) eqn:Ei; [discriminate|]. destruct f'; simpl; now rewrite Ei.
    - destruct f' as [|f']; [lia|]. simpl in *. destruct (i <? stop); auto. destruct (block_iter i cur) as [[[i' cur'] ws1]|]; auto. apply (IH _ _ _ _ _ H). lia.
  Qed.
  Lemma loop_det f1 f2 stop i cur ws r1 r2 : block_loop f1 stop i cur ws = Some r1 -> block_loop f2 stop i cur ws = Some r2 -> r1 = r2.
  Proof.
    intros H1 H2. pose proof (loop_fuel _ _ _ _ H1 (Nat.le_max_l f1 f2)). pose proof (loop_fuel _ _ _ _ H2 (Nat.le_max_r f1 f2)). congruence.
  Qed.
  Lemma nblocks_lt bs b : 0 < bs -> b < num_blocks idxs bs -> b * bs < k.
  Proof.
    unfold num_blocks. intros Hbs Hb. pose proof (Nat.div_mod (k + bs - 1) bs ltac:(lia)). set (q := (k + bs - 1) / bs) in *.
    assert ((b + 1) * bs <= q * bs) by (apply Nat.mul_le_mono_r; lia). lia.
  Qed.
  Lemma no_hang bs : 0 < bs -> ~ hangs n outw matched first idxs bs.
  Proof. intros Hbs (b & Hb & H). destruct (block_ok _ Hbs (nblocks_lt Hbs Hb)) as (ws & E & _). rewrite H in E. discriminate. Qed.
  Lemma right_sound je : right_write je -> sound je.
  Proof.
    intros (Hk & c & Hc & Hown & Hm & E). destruct je as [j e]. simpl in *. subst e. unfold sound, eu, ev. simpl. split; auto. split; auto. set (d := nth j idxs 0 - live c).
    assert (Hd : 0 < ldeg c) by (destruct Hown; rewrite live_S in *; lia). destruct (ldeg_alive _ Hd) as [_ Hld].
    assert (X : In (nth d (filter (alive c) (outw c)) (0, w0)) (filter (alive c) (outw c))) by (apply nth_In; unfold d; destruct Hown as [A B]; rewrite live_S in B; lia).
    apply filter_In in X as [X1 X2]. unfold alive in X2. apply andb_true_iff in X2 as [X2 X3]. apply negb_true_iff in X2. apply Nat.ltb_lt in X3.
    split; [now rewrite <- surjective_pairing|]. auto.
  Qed.
  Lemma blocks_writes bs wss : 0 < bs -> length wss = num_blocks idxs bs ->
    (forall b, b < num_blocks idxs bs -> exists fuel, block bs fuel b = Some (Some (nth b wss []))) ->
    (forall je, In je (concat wss) -> right_write je) /\ (0 < k -> exists e, In (0, e) (concat wss)).
  Proof.
    intros Hbs Hl Hb. split.
    - intros je Hje. apply in_concat in Hje as (ws & Hws & Hje). apply In_nth with (d := []) in Hws as (b & Hlt & <-). rewrite Hl in Hlt.
      destruct (block_ok _ Hbs (nblocks_lt Hbs Hlt)) as (ws' & E & A & _). destruct (Hb b Hlt) as [fuel Hf]. unfold MMModel.block in *.
      pose proof (loop_det _ _ _ _ _ _ E Hf) as X. injection X as X. apply A. now rewrite X.
    - intros Hk. assert (H0 : 0 < num_blocks idxs bs) by (unfold num_blocks; apply Nat.div_str_pos; lia).
      destruct (block_ok _ Hbs (nblocks_lt Hbs H0)) as (ws' & E & _ & B). destruct (Hb 0 H0) as [fuel Hf]. unfold MMModel.block in *. pose proof (loop_det _ _ _ _ _ _ E Hf) as X. injection X as X.
      destruct (B eq_refl) as [e He]. exists e. apply in_concat. exists (nth 0 wss []). rewrite X in He. split; auto. apply nth_In. lia.
  Qed.
  Lemma right_same j e1 e2 : right_write (j, e1) -> right_write (j, e2) -> e1 = e2.
  Proof.
    intros (_ & c1 & _ & O1 & _ & E1) (_ & c2 & _ & O2 & _ & E2). simpl in *. assert (c1 = c2) by (eapply owner_unique; eauto). subst. reflexivity.
  Qed.
  (* get_edges has a result; its first entry is an edge between two unmatched vertices; the result
     does not depend on the schedule *)
  Lemma extracted_runs bs : 0 < bs -> exists E, extracted w0 n outw matched first idxs bs E.
  Proof.
    intros Hbs. assert (X : forall m, m <= num_blocks idxs bs -> exists wss, length wss = m /\ forall b, b < m -> exists fuel, block bs fuel b = Some (Some (nth b wss []))).
    { induction m as [|m IH]; intros Hm; [exists []; split; auto; intros; lia|]. destruct IH as (wss & Hl & H); [lia|].
      assert (Hmk : m * bs < k) by (apply nblocks_lt; auto). destruct (block_ok _ Hbs Hmk) as (ws & E & _). exists (wss ++ [ws]). split; [rewrite app_length; simpl; lia|].
      intros b Hb. destruct (Nat.eq_dec b m) as [->|]; [exists k; rewrite app_nth2, Hl, Nat.sub_diag by lia; exact E|]. rewrite app_nth1 by lia. apply H. lia. }
    destruct (X _ (le_n _)) as (wss & Hl & H). destruct (blocks_writes wss Hbs Hl H) as [A _].
    destruct (@run_stores_any _ (concat wss) (repeat (0, 0, w0) k)) as (arr & E1 & _); [intros q x Hq; rewrite repeat_length; apply (A _ Hq)|].
    exists arr, wss, (concat wss). auto.
  Qed.
  Lemma extracted_first bs E : 0 < bs -> 0 < k -> extracted w0 n outw matched first idxs bs E -> right_write (0, nth 0 E (0, 0, w0)).
  Proof.
    intros Hbs Hk (wss & order & Hl & Hb & Hp & Hr). destruct (blocks_writes wss Hbs Hl Hb) as [A B].
    destruct (@run_stores_any _ order (repeat (0, 0, w0) k)) as (arr & E1 & _ & HA).
    { intros q x Hq. rewrite repeat_length. apply (Permutation_in _ Hp) in Hq. apply (A _ Hq). }
    assert (arr = E) as -> by congruence. destruct (HA 0) as [(x & Hx & Hn)|[_ Hn]].
    - rewrite (nth_error_nth _ _ _ Hn). apply A. apply (Permutation_in _ Hp Hx).
    - exfalso. destruct (B Hk) as [e He]. apply (Hn e). apply (Permutation_in _ (Permutation_sym Hp) He).
  Qed.
  Lemma extracted_det bs E1 E2 : 0 < bs -> extracted w0 n outw matched first idxs bs E1 -> extracted w0 n outw matched first idxs bs E2 -> E1 = E2.
  Proof.
    intros Hbs (wss1 & o1 & Hl1 & Hb1 & Hp1 & Hr1) (wss2 & o2 & Hl2 & Hb2 & Hp2 & Hr2).
    assert (wss1 = wss2).
    { apply nth_ext with (d := []) (d' := []); [congruence|]. intros b Hb. rewrite Hl1 in Hb. destruct (Hb1 b Hb) as [f1 F1]. destruct (Hb2 b Hb) as [f2 F2]. unfold MMModel.block in *.
      pose proof (loop_det _ _ _ _ _ _ F1 F2). congruence. }
    subst wss2. destruct (blocks_writes wss1 Hbs Hl1 Hb1) as [A _].
    destruct (@run_stores_any _ o1 (repeat (0, 0, w0) k)) as (a1 & X1 & L1 & HA1).
    { intros q x Hq. rewrite repeat_length. apply (Permutation_in _ Hp1) in Hq. apply (A _ Hq). }
    destruct (@run_stores_any _ o2 (repeat (0, 0, w0) k)) as (a2 & X2 & L2 & HA2).
    { intros q x Hq. rewrite repeat_length. apply (Permutation_in _ Hp2) in Hq. apply (A _ Hq). }
    assert (a1 = E1) as -> by congruence. assert (a2 = E2) as -> by congruence.
    apply list_ext_nth_error. intros j. destruct (HA1 j) as [(x & Hx & N1)|[N1 Z1]]; destruct (HA2 j) as [(y & Hy & N2)|[N2 Z2]]; rewrite N1, N2; auto.
    - f_equal. apply (right_same (j := j)); apply A; [apply (Permutation_in _ Hp1 Hx)|apply (Permutation_in _ Hp2 Hy)].
    - exfalso. apply (Z2 x). apply (Permutation_in _ (Permutation_sym Hp2)). apply (Permutation_in _ Hp1 Hx).
    - exfalso. apply (Z1 y). apply (Permutation_in _ (Permutation_sym Hp1)). apply (Permutation_in _ Hp2 Hy).
  Qed.
End Get.
