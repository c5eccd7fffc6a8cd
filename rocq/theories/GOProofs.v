From Coq Require Import Permutation Sorted.
From Verif Require Import Base ListUtil BKSpec BKProofs KCModel KCSpec KCProofs TCModel TCProofs DNModel DNSpec DNProofs CQSpec CQCliques GOModel GOSpec.

Lemma sorted_nth (key : nat -> nat) l : sorted_by key l -> forall i, i < length l -> forall v, In v (skipn i l) -> key (nth i l 0) <= key v.
Proof.
  induction 1 as [|x l Hs IH Hf]; simpl; intros i Hi v Hv; [lia|]. destruct i as [|i].
  - simpl in Hv. destruct Hv as [<-|Hv]; auto. rewrite Forall_forall in Hf. auto.
  - simpl in Hv. apply IH; auto. lia.
Qed.
Lemma perm_skip_sum (f : nat -> nat) i l : list_sum (map f (skipn i l)) <= list_sum (map f l).
Proof. rewrite <- (firstn_skipn i l) at 2. rewrite map_app, list_sum_app. lia. Qed.

Lemma nth_firstn' i k (l : list nat) : i < k -> nth i (firstn k l) 0 = nth i l 0.
Proof. revert i l. induction k as [|k IH]; intros i l Hi; [lia|]. destruct l as [|x l], i as [|i]; simpl; auto. apply IH. lia. Qed.

Section Graph.
  Variable n : nat.
  Variable outn : nat -> list nat.
  Hypothesis Hsym : symmetric n outn.
  Variable null : nat.
  Hypothesis Hnull : forall v, v < n -> length (outn v) <= null.

  Lemma degen_sum d : degenerate n outn d -> forall T, NoDup T -> (forall v, In v T -> v < n) -> inside outn T <= 2 * d * length T.
  Proof.
    intros Hd T. remember (length T) as k eqn:Hk. revert T Hk. induction k as [|k IH]; intros T Hk ND Hn.
    - destruct T; [unfold inside; simpl; lia|discriminate].
    - assert (Hs : exists v, In v T /\ dg outn T v <= d).
      { destruct (forallb (fun v => d <? dg outn T v) T) eqn:E.
        - exfalso. rewrite forallb_forall in E. destruct T as [|x T']; [discriminate|]. set (T := x :: T') in *.
          assert (C : core n outn (S d) (fun v => mem v T)).
          { intros v Hv. apply mem_In in Hv. split; auto. apply E in Hv. apply Nat.ltb_lt in Hv. exact Hv. }
          specialize (Hd _ C x). cbv beta in Hd. assert (X : mem x T = true) by (apply mem_In; now left). congruence.
        - apply some_false in E as (x & Hx & E). exists x. split; auto. apply Nat.ltb_ge in E. exact E. }
      destruct Hs as (v & Hv & Hle). apply in_split in Hv as (A & B & ->).
      assert (P : Permutation (A ++ v :: B) (v :: A ++ B)) by (symmetry; apply Permutation_middle).
      assert (ND' : NoDup (v :: A ++ B)) by (eapply Permutation_NoDup; eauto).
      assert (Hn' : forall w, In w (v :: A ++ B) -> w < n) by (intros w Hw; apply Hn; eapply Permutation_in; [symmetry; exact P|exact Hw]).
      rewrite (inside_perm outn P). rewrite (@inside_cons n outn Hsym v (A ++ B) ND' Hn').
      rewrite (Permutation_length P) in Hk. cbn [length] in Hk. inversion ND' as [|? ? _ ND'']; subst.
      assert (I := IH (A ++ B) ltac:(lia) ND'' (fun w Hw => Hn' w (or_intror Hw))).
      rewrite (@dg_same outn (A ++ v :: B) (v :: A ++ B) v) in Hle by (intros w; split; apply Permutation_in; [exact P|symmetry; exact P]).
      assert (dg outn (A ++ B) v <= dg outn (v :: A ++ B) v) by (apply dg_le; intros w Hw; now right). lia.
  Qed.

  Lemma drop_spec D res v : NoDup (map fst res) ->
    drop null D res v = match find (fun p => fst p =? v) res with Some p => usub null (D v) (snd p) | None => D v end.
  Proof. intros H. exact (@fold_apply_spec null res D H v). Qed.

  Lemma counted_flat L v : NoDup L -> (forall u, In u L -> u < n) -> v < n -> count_occ Nat.eq_dec (flat_map outn L) v = dg outn L v.
  Proof.
    intros ND HL Hv. rewrite count_sum. unfold dg. rewrite <- (count_mem (outn v) ND). f_equal. apply map_ext_in. intros u Hu.
    destruct Hsym as [_ H]. apply H; auto.
  Qed.
  Lemma dg_app A B v : NoDup (A ++ B) -> dg outn (A ++ B) v = dg outn A v + dg outn B v.
  Proof.
    intros ND. unfold dg. induction (outn v) as [|w l IH]; auto. cbn [filter].
    destruct (mem w (A ++ B)) eqn:E1, (mem w A) eqn:E2, (mem w B) eqn:E3; cbn [length]; try lia; exfalso.
    - apply mem_In in E2, E3. apply NoDup_app_iff in ND as (_ & _ & H). eapply H; eauto.
    - apply mem_In in E1. apply in_app_iff in E1 as [X|X]; apply mem_In in X; congruence.
    - apply mem_In in E2. assert (X : In w (A ++ B)) by (apply in_app_iff; auto). apply mem_In in X. congruence.
    - apply mem_In in E2. assert (X : In w (A ++ B)) by (apply in_app_iff; auto). apply mem_In in X. congruence.
    - apply mem_In in E3. assert (X : In w (A ++ B)) by (apply in_app_iff; auto). apply mem_In in X. congruence.
  Qed.
  Lemma drop_dg D A B res : NoDup (A ++ B) -> (forall v, In v (A ++ B) -> v < n) -> (forall v, v < n -> D v = dg outn (A ++ B) v) ->
    counted (flat_map outn A) res -> forall v, v < n -> drop null D res v = dg outn B v.
  Proof.
    intros ND Hn HD [Hc1 Hc2] v Hv. rewrite drop_spec by auto. pose proof (dg_app A B v ND) as E.
    assert (NDA : NoDup A) by (apply NoDup_app_iff in ND; tauto).
    assert (HA : forall u, In u A -> u < n) by (intros; apply Hn, in_app_iff; auto).
    assert (Hcnt := counted_flat NDA HA Hv).
    assert (Hb : dg outn (A ++ B) v <= null).
    { etransitivity; [|apply (Hnull Hv)]. apply filter_len_le. }
    destruct (find (fun p => fst p =? v) res) as [[w c]|] eqn:F.
    - apply find_some in F as [F1 F2]. cbn [fst snd] in *. apply Nat.eqb_eq in F2. subst w. apply Hc2 in F1 as [-> F1]. rewrite HD, Hcnt by auto.
      rewrite (@usub_le 1 null Nat.lt_0_1) by lia. lia.
    - rewrite HD by auto. rewrite E. destruct (Nat.eq_dec (dg outn A v) 0) as [Z|Z]; [lia|]. exfalso.
      assert (X : In (v, dg outn A v) res) by (apply Hc2; split; [now rewrite Hcnt|lia]).
      apply (find_none _ _ F) in X. cbn [fst] in X. now rewrite Nat.eqb_refl in X.
  Qed.

  Definition ginv (start : nat) (s : list nat) (D : nat -> nat) : Prop :=
    Permutation s (seq 0 n) /\ forall v, v < n -> D v = dg outn (skipn start s) v.
  Lemma ginv_start : ginv 0 (seq 0 n) (fun v => length (outn v)).
  Proof.
    split; auto. intros v Hv. cbn [skipn]. unfold dg. rewrite filter_all; auto. intros w Hw. apply mem_In, in_seq.
    destruct Hsym as [H _]. apply H in Hw; auto. lia.
  Qed.
  Lemma sorted_perm s start srt : Permutation s (seq 0 n) -> Permutation srt (skipn start s) -> Permutation (firstn start s ++ srt) (seq 0 n).
  Proof. intros H1 H2. rewrite H2, firstn_skipn. auto. Qed.
  Lemma skip_next (s : list nat) start (srt : list nat) k : start <= length s -> skipn (start + k) (firstn start s ++ srt) = skipn k srt.
  Proof.
    intros H. rewrite skipn_app, firstn_length_le by auto. rewrite skipn_all2 by (rewrite firstn_length_le; lia). cbn [app]. f_equal. lia.
  Qed.
  Lemma ginv_round start s D srt res k : ginv start s D -> start <= n -> k <= n - start -> Permutation srt (skipn start s) ->
    counted (flat_map outn (firstn k srt)) res -> ginv (start + k) (firstn start s ++ srt) (drop null D res).
  Proof.
    intros [Hp HD] Hst Hk Hps Hc. assert (Hl : length s = n) by now rewrite (Permutation_length Hp), seq_length.
    split; [now apply sorted_perm|]. rewrite skip_next by lia. intros v Hv.
    assert (ND : NoDup srt).
    { eapply Permutation_NoDup; [symmetry; exact Hps|]. assert (X : NoDup s) by (eapply Permutation_NoDup; [symmetry; exact Hp|apply seq_NoDup]).
      rewrite <- (firstn_skipn start s) in X. apply NoDup_app_iff in X. tauto. }
    assert (Hn : forall w, In w srt -> w < n).
    { intros w Hw. apply (Permutation_in _ Hps) in Hw. assert (X : In w s) by (rewrite <- (firstn_skipn start s); apply in_app_iff; auto).
      apply (Permutation_in _ Hp), in_seq in X. lia. }
    apply drop_dg with (A := firstn k srt) (D := D); auto; rewrite firstn_skipn; auto.
    intros w Hw. rewrite HD by auto. apply dg_same. intros x. split; apply Permutation_in; [symmetry; exact Hps|exact Hps].
  Qed.

  (* the order returned, and what is left of the graph when the vertex at a position is removed *)
  Lemma gp_ok ns d : degenerate n outn d -> 1 <= ns -> forall start s D out, gp_loop n outn null ns start s D out -> ginv start s D ->
    Permutation out (seq 0 n) /\ firstn start out = firstn start s /\
    forall i, start <= i < n -> exists q, q <= i < q + ns /\ (exists j, q = start + j * ns) /\ dg outn (skipn q out) (nth i out 0) * (n - i) <= 2 * d * (n - q).
  Proof.
    intros Hd Hns start s D out H. induction H as [start s D Hst|start s D srt res out Hst Hps Hss Hc Hr IH]; intros Hi.
    - split; [apply Hi|]. split; auto. intros i Hi'. lia.
    - assert (Hi' : ginv (start + ns) (firstn start s ++ srt) (drop null D res)).
      { destruct (Nat.le_gt_cases ns (n - start)) as [C|C].
        - apply ginv_round; auto; try lia. replace (Nat.min (ns + start) n - start) with ns in Hc by lia. auto.
        - replace (Nat.min (ns + start) n - start) with (n - start) in Hc by lia.
          assert (X := ginv_round Hi (Nat.lt_le_incl _ _ Hst) (le_n _) Hps Hc). destruct X as [X1 X2]. split; auto. intros v Hv. rewrite X2 by auto.
          assert (length (firstn start s ++ srt) = n) by now rewrite (Permutation_length X1), seq_length.
          rewrite !skipn_all2; auto; lia. }
      destruct (IH Hi') as (Hp & Hf & Hb). destruct Hi as [Hp0 HD]. assert (Hl : length s = n) by now rewrite (Permutation_length Hp0), seq_length.
      assert (Hls : length srt = n - start) by (rewrite (Permutation_length Hps), skipn_length; lia).
      assert (Hlo : length out = n) by now rewrite (Permutation_length Hp), seq_length.
      assert (Hf' : firstn start out = firstn start s).
      { apply (f_equal (firstn start)) in Hf. rewrite !firstn_firstn in Hf. replace (Nat.min start (start + ns)) with start in Hf by lia. rewrite Hf.
        rewrite firstn_app, firstn_firstn, firstn_length_le by lia. rewrite Nat.min_id, Nat.sub_diag. cbn [firstn]. now rewrite app_nil_r. }
      split; auto. split; auto. intros i Hri. destruct (Nat.le_gt_cases (start + ns) i) as [C|C].
      + destruct (Hb i) as (q & Q1 & (j & Q2) & Q3); [lia|]. exists q. split; auto. split; auto. exists (S j). lia.
      + exists start. split; [lia|]. split; [exists 0; lia|].
        assert (Hsk : Permutation (skipn start out) srt).
        { apply Permutation_app_inv_l with (l := firstn start out). rewrite firstn_skipn. rewrite Hf'. rewrite Hp. symmetry. now apply sorted_perm. }
        assert (Hnth : nth i out 0 = nth (i - start) srt 0).
        { rewrite <- (@nth_firstn' i (start + ns) out) by lia. rewrite Hf, nth_firstn' by lia. rewrite app_nth2; rewrite firstn_length_le by lia; auto. lia. }
        assert (Hvn : nth i out 0 < n).
        { assert (X : In (nth i out 0) out) by (apply nth_In; lia). apply (Permutation_in _ Hp), in_seq in X. lia. }
        rewrite (@dg_same outn (skipn start out) (skipn start s)) by (intros w; split; apply Permutation_in; rewrite Hsk, Hps; auto).
        rewrite <- HD by auto. rewrite Hnth. set (k := i - start).
        assert (Hnd : NoDup (skipn start s)).
        { assert (X : NoDup s) by (eapply Permutation_NoDup; [symmetry; exact Hp0|apply seq_NoDup]). rewrite <- (firstn_skipn start s) in X. apply NoDup_app_iff in X. tauto. }
        assert (Hsn : forall w, In w (skipn start s) -> w < n).
        { intros w Hw. assert (X : In w s) by (rewrite <- (firstn_skipn start s); apply in_app_iff; auto). apply (Permutation_in _ Hp0), in_seq in X. lia. }
        assert (B := degen_sum Hd Hnd Hsn). rewrite skipn_length, Hl in B.
        assert (E : inside outn (skipn start s) = list_sum (map D srt)).
        { rewrite inside_dg. rewrite (sum_perm (Permutation_map D Hps)). f_equal. apply map_ext_in. intros w Hw. symmetry. apply HD. auto. }
        rewrite E in B.
        assert (G : D (nth k srt 0) * length (skipn k srt) <= list_sum (map D (skipn k srt))).
        { apply sum_map_ge. intros w Hw. apply (sorted_nth Hss); auto. lia. }
        rewrite skipn_length, Hls in G. assert (G2 := perm_skip_sum D k srt). replace (n - i) with (n - start - k) by lia. lia.
  Qed.
  Lemma counted_exists keys : exists res, counted keys res.
  Proof. exact (KCProofs.counted_exists keys). Qed.
  Lemma gp_runs ns : 1 <= ns -> forall k start s D, n - start <= k -> exists out, gp_loop n outn null ns start s D out.
  Proof.
    intros Hns. induction k as [|k IH]; intros start s D Hk.
    - exists s. apply gp_done. lia.
    - destruct (Nat.le_gt_cases n start) as [C|C]; [exists s; now apply gp_done|].
      destruct (sort_by D (skipn start s)) as (srt & P & Q). destruct (counted_exists (flat_map outn (firstn (Nat.min (ns + start) n - start) srt))) as (res & Hres).
      destruct (IH (start + ns) (firstn start s ++ srt) (drop null D res)) as (out & Ho); [lia|]. exists out. eapply gp_round; eauto.
  Qed.
  Lemma rank_of s r : Permutation s (seq 0 n) -> rank_nodes s r -> is_rank n (fun v => nth v r 0) /\
    forall v, v < n -> nth v r 0 < n /\ nth (nth v r 0) s 0 = v.
  Proof.
    intros Hp Hr. destruct (@rank_nodes_ok _ _ Hp) as [_ H]. destruct (H r Hr) as [Hl H'].
    assert (Hls : length s = n) by now rewrite (Permutation_length Hp), seq_length.
    assert (X : forall v, v < n -> nth v r 0 < n /\ nth (nth v r 0) s 0 = v).
    { intros v Hv. assert (Y : In v s) by (apply (Permutation_in _ (Permutation_sym Hp)), in_seq; lia).
      apply (In_nth _ _ 0) in Y as (i & Hi & <-). rewrite H' by lia. split; auto. lia. }
    split; auto. split; [intros; now apply X|]. intros u v Hu Hv E. apply X in Hu as [_ <-], Hv as [_ <-]. now rewrite E.
  Qed.
  Lemma degenerate_max : exists d, degenerate n outn d.
  Proof.
    exists (list_sum (map (fun v => length (outn v)) (seq 0 n))). intros S C v. destruct (S v) eqn:E; auto. exfalso. apply C in E as [Hv Hd].
    unfold degree_in in Hd. pose proof (filter_len_le S (outn v)).
    assert (length (outn v) <= list_sum (map (fun v => length (outn v)) (seq 0 n))); [|lia].
    assert (I : In v (seq 0 n)) by (apply in_seq; lia). clear - I. induction (seq 0 n) as [|x l IH]; [destruct I|]. simpl. destruct I as [->|I]; [lia|apply IH in I; lia].
  Qed.
  Lemma gp_perm ns out : 1 <= ns -> gp_loop n outn null ns 0 (seq 0 n) (fun v => length (outn v)) out -> Permutation out (seq 0 n).
  Proof. intros Hns H. destruct degenerate_max as [d Hd]. apply (gp_ok Hd Hns H). apply ginv_start. Qed.
  Lemma goodrich_later ns rank d : degenerate n outn d -> 1 <= ns -> goodrich_returns n outn null ns rank ->
    forall v, v < n -> later outn rank v * (n - rank v) <= 2 * d * (n - ns * (rank v / ns)).
  Proof.
    intros Hd Hns (s & r & Hg & Hr & Hrank) v Hv.
    destruct (gp_ok Hd Hns Hg) as (Hp & _ & Hb); [apply ginv_start|]. destruct (rank_of Hp Hr) as [[_ Hinj] Hpos].
    destruct (Hpos v Hv) as [H1 H2]. rewrite <- Hrank in H1, H2. destruct (Hb (rank v)) as (q & Q1 & (j & Q2) & Q3); [lia|]. cbn [Nat.add] in Q2.
    assert (Ej : rank v / ns = j) by (symmetry; apply Nat.div_unique with (r := rank v - q); nia). rewrite Ej. replace (ns * j) with q by lia.
    etransitivity; [|exact Q3]. apply Nat.mul_le_mono_r. rewrite H2. apply filter_le_imp. intros w Hw E. apply Nat.ltb_lt in E. apply mem_In.
    assert (Hwn : w < n) by (destruct Hsym as [X _]; exact (X v w Hv Hw)). destruct (Hpos w Hwn) as [W1 W2]. rewrite <- Hrank in W1, W2.
    assert (Hl : length s = n) by now rewrite (Permutation_length Hp), seq_length.
    rewrite <- W2. replace (rank w) with (q + (rank w - q)) by lia.
    assert (nth (q + (rank w - q)) s 0 = nth (rank w - q) (skipn q s) 0).
    { rewrite <- (firstn_skipn q s) at 1. rewrite app_nth2; rewrite firstn_length_le by lia; [f_equal|]; lia. }
    rewrite H. apply nth_In. rewrite skipn_length. lia.
  Qed.

  (* Barenboim-Elkin *)
  Lemma be_perm cutoff : forall start s D out, be_loop n outn null cutoff start s D out -> Permutation s (seq 0 n) -> forall o, out = Some o -> Permutation o (seq 0 n).
  Proof.
    induction 1 as [start s D H|start s D srt H Hp Hs Hw|start s D srt e res out H Hp Hs Hw He Hc Hr IH]; intros I o Ho.
    - congruence.
    - discriminate.
    - apply IH; auto. now apply sorted_perm.
  Qed.
  Lemma be_runs cutoff : forall k start s D, n - start <= k -> exists out, be_loop n outn null cutoff start s D out.
  Proof.
    induction k as [|k IH]; intros start s D Hk.
    - exists (Some s). apply be_done. lia.
    - destruct (Nat.le_gt_cases n start) as [C|C]; [exists (Some s); now apply be_done|].
      destruct (sort_by (fun v => if D v <? cutoff then 1 else 0) (skipn start s)) as (srt & P & Q).
      destruct (Nat.lt_ge_cases (last_below cutoff D start srt) start) as [W|W]; [exists None; eapply be_wraps; eauto|].
      set (e := if last_below cutoff D start srt =? start then start + 1 else last_below cutoff D start srt).
      destruct (counted_exists (flat_map outn (firstn (e - start) srt))) as (res & Hres).
      destruct (IH e (firstn start s ++ srt) (drop null D res)) as (out & Ho).
      { subst e. destruct (Nat.eqb_spec (last_below cutoff D start srt) start); lia. }
      exists out. eapply be_round; eauto.
  Qed.
End Graph.

Lemma max_ge x l : In x l -> x <= fold_right Nat.max 0 l.
Proof. induction l as [|y l IH]; simpl; [intros []|]. intros [->|H]; [lia|apply IH in H; lia]. Qed.
Lemma max_le m l : (forall x, In x l -> x <= m) -> fold_right Nat.max 0 l <= m.
Proof. induction l as [|y l IH]; simpl; intros H; [lia|]. pose proof (H y (or_introl eq_refl)). specialize (IH (fun x Hx => H x (or_intror Hx))). lia. Qed.
Lemma last_none cutoff D start srt : (forall v, In v srt -> cutoff <= D v) -> last_below cutoff D start srt = 0.
Proof.
  intros H. apply Nat.le_0_r. apply max_le. intros x Hx. apply in_map_iff in Hx as ([i v] & <- & Hx). cbn [fst snd]. apply in_combine_r in Hx.
  apply H in Hx. destruct (Nat.ltb_spec (D v) cutoff); lia.
Qed.
Lemma last_some cutoff D start srt : sorted_by (fun v => if D v <? cutoff then 1 else 0) srt -> (exists v, In v srt /\ D v < cutoff) ->
  last_below cutoff D start srt = start + (length srt - 1).
Proof.
  intros Hs (v & Hv & Hl). apply Nat.le_antisymm.
  - apply max_le. intros x Hx. apply in_map_iff in Hx as ([i w] & <- & Hx). cbn [fst snd]. apply in_combine_l in Hx. apply in_seq in Hx.
    destruct (D w <? cutoff); lia.
  - apply max_ge. apply in_map_iff. exists (length srt - 1, nth (length srt - 1) srt 0). cbn [fst snd].
    assert (Hlen : 0 < length srt) by (destruct srt; [destruct Hv|simpl; lia]). split.
    + apply (In_nth _ _ 0) in Hv as (i & Hi & <-).
      assert (X : (if D (nth i srt 0) <? cutoff then 1 else 0) <= (if D (nth (length srt - 1) srt 0) <? cutoff then 1 else 0)).
      { apply (sorted_nth Hs Hi). rewrite <- (firstn_skipn i srt) at 2. rewrite app_nth2; rewrite firstn_length_le by lia; [|lia]. apply nth_In.
        rewrite skipn_length. lia. }
      destruct (Nat.ltb_spec (D (nth i srt 0)) cutoff); [|lia]. destruct (D (nth (length srt - 1) srt 0) <? cutoff); [reflexivity|lia].
    + assert (X : forall (l : list nat) b k, k < length l -> In (b + k, nth k l 0) (combine (seq b (length l)) l)).
      { induction l as [|y l IHl]; simpl; intros b k Hk; [lia|]. destruct k as [|k]; [left; f_equal; lia|right]. replace (b + S k) with (S b + k) by lia. apply IHl. lia. }
      apply (X srt 0). lia.
Qed.

Section BE.
  Variable n : nat.
  Variable outn : nat -> list nat.
  Hypothesis Hsym : symmetric n outn.
  Hypothesis Hnl : forall v, v < n -> ~ In v (outn v).
  Variable null : nat.
  Hypothesis Hnull : forall v, v < n -> length (outn v) <= null.
  Variable cutoff : nat.
  Hypothesis Hcut : 1 <= cutoff.
  Notation low D := (fun v => if D v <? cutoff then 1 else 0).

  Lemma be_last s D out : 0 < n -> ginv n outn (n - 1) s D -> be_loop n outn null cutoff (n - 1) s D out -> out = Some s.
  Proof.
    intros Hn [Hp HD] H. assert (Hl : length s = n) by now rewrite (Permutation_length Hp), seq_length.
    assert (E : exists x, skipn (n - 1) s = [x]).
    { assert (length (skipn (n - 1) s) = 1) by (rewrite skipn_length; lia). destruct (skipn (n - 1) s) as [|x [|y l]]; try discriminate. eauto. }
    destruct E as (x & E). assert (Hx : x < n).
    { assert (X : In x s) by (rewrite <- (firstn_skipn (n - 1) s), E; apply in_app_iff; right; now left). apply (Permutation_in _ Hp), in_seq in X. lia. }
    assert (Dx : D x = 0).
    { rewrite HD, E by auto. unfold dg. rewrite filter_none; auto. intros w Hw. apply not_true_iff_false. intros M. apply mem_In in M as [->|[]]. eapply Hnl; eauto. }
    assert (Hl1 : forall srt, Permutation srt (skipn (n - 1) s) -> srt = [x]).
    { intros srt P. rewrite E in P. now apply Permutation_sym, Permutation_length_1_inv in P. }
    assert (Hlb : last_below cutoff D (n - 1) [x] = n - 1).
    { rewrite last_some; [simpl; lia|repeat constructor|]. exists x. split; [now left|lia]. }
    inversion H as [? ? ? H1|? ? ? srt H1 H2 H3 H4|? ? ? srt e res ? H1 H2 H3 H4 H5 H6 H7]; subst; [lia| |].
    - apply Hl1 in H2. subst srt. lia.
    - apply Hl1 in H2. subst srt. rewrite Hlb, Nat.eqb_refl in H7.
      inversion H7 as [? ? ? G1|? ? ? ? G1|? ? ? ? ? ? ? G1]; subst; try lia. now rewrite <- E, firstn_skipn.
  Qed.
  Lemma be_low out : (exists v, v < n /\ length (outn v) < cutoff) -> be_loop n outn null cutoff 0 (seq 0 n) (fun v => length (outn v)) out ->
    exists srt, out = Some srt /\ Permutation srt (seq 0 n) /\ sorted_by (low (fun v => length (outn v))) srt.
  Proof.
    intros (v & Hv & Hlow) H. inversion H as [? ? ? H1|? ? ? srt H1 H2 H3 H4|? ? ? srt e res ? H1 H2 H3 H4 H5 H6 H7]; subst; [lia|lia|].
    cbn [skipn] in H2. exists srt. assert (Hl : length srt = n) by now rewrite (Permutation_length H2), seq_length.
    assert (Hlb : last_below cutoff (fun v => length (outn v)) 0 srt = n - 1).
    { rewrite last_some; auto; [lia|]. exists v. split; auto. apply (Permutation_in _ (Permutation_sym H2)), in_seq. lia. }
    rewrite Hlb in *. cbn [firstn app] in H7. split; [|split; auto].
    destruct (Nat.eqb_spec (n - 1) 0) as [Z|Z].
    - inversion H7 as [? ? ? G1|? ? ? ? G1|? ? ? ? ? ? ? G1]; subst; auto; lia.
    - rewrite Nat.sub_0_r in H6. refine (@be_last srt _ out _ _ H7); [lia|].
      assert (X := @ginv_round n outn Hsym null Hnull 0 (seq 0 n) _ srt res (n - 1) (ginv_start Hsym) (Nat.le_0_l _) ltac:(lia) H2 H6). exact X.
  Qed.
  Lemma be_high out : 2 <= n -> (forall v, v < n -> NoDup (outn v) /\ cutoff < length (outn v)) ->
    be_loop n outn null cutoff 0 (seq 0 n) (fun v => length (outn v)) out -> out = None.
  Proof.
    intros Hn Hd H. inversion H as [? ? ? H1|? ? ? srt H1 H2 H3 H4|? ? ? srt e res ? H1 H2 H3 H4 H5 H6 H7]; subst; [lia|lia|].
    cbn [skipn] in H2. assert (Hs : forall v, In v srt -> v < n) by (intros v Hv; apply (Permutation_in _ H2), in_seq in Hv; lia).
    assert (Hl : length srt = n) by now rewrite (Permutation_length H2), seq_length.
    rewrite last_none in * by (intros v Hv; apply Hs in Hv; destruct (Hd v Hv); lia). cbn [Nat.eqb Nat.add Nat.sub firstn app] in H6, H7.
    destruct (@ginv_round n outn Hsym null Hnull 0 (seq 0 n) _ srt res 1 (ginv_start Hsym) (Nat.le_0_l _) ltac:(lia) H2 H6) as [X1 X2]. cbn [firstn app Nat.add] in X1, X2.
    assert (Hhi : forall v, v < n -> cutoff <= drop null (fun v => length (outn v)) res v).
    { intros v Hv. rewrite X2 by auto. destruct srt as [|x srt]; [simpl in Hl; lia|]. cbn [skipn]. destruct (Hd v Hv) as [Hnd Hdeg].
      assert (Hx : ~ In x srt) by (assert (Y : NoDup (x :: srt)) by (eapply Permutation_NoDup; [symmetry; exact H2|apply seq_NoDup]); now inversion Y).
      pose proof (@dg_cons outn srt x v Hx) as E. assert (dg outn (x :: srt) v = length (outn v)).
      { unfold dg. rewrite filter_all; auto. intros w Hw. apply mem_In. apply (Permutation_in _ (Permutation_sym H2)), in_seq. destruct Hsym as [Y _]. apply Y in Hw; auto. lia. }
      pose proof (proj1 (NoDup_count_occ Nat.eq_dec (outn v)) Hnd x). lia. }
    assert (Hz : forall srt', Permutation srt' (skipn 1 srt) -> last_below cutoff (drop null (fun v => length (outn v)) res) 1 srt' = 0).
    { intros srt' P. apply last_none. intros v Hv. apply Hhi. apply (Permutation_in _ P) in Hv. apply Hs. rewrite <- (firstn_skipn 1 srt). apply in_app_iff. auto. }
    inversion H7 as [? ? ? G1|? ? ? srt' G1 G2|? ? ? srt' ? ? ? G1 G2 G3 G4]; subst; auto; [lia|]. rewrite Hz in G4 by auto. lia.
  Qed.
End BE.

(* an order with at most d later edges at every vertex *)
Lemma order_degenerate n outn rank d : (forall u v, u < n -> In v (outn u) -> v < n) -> is_rank n rank -> (forall v, v < n -> ~ In v (outn v)) ->
  (forall v, v < n -> later outn rank v <= d) -> degenerate n outn d.
Proof.
  intros Hin [Hr1 Hr2] Hnl H T C v. destruct (T v) eqn:E; auto. exfalso.
  set (L := filter T (seq 0 n)). assert (HL : L <> []).
  { intros Z. assert (X : In v L) by (apply filter_In; split; auto; apply in_seq; destruct (C v E); lia). rewrite Z in X. destruct X. }
  destruct (list_min rank HL) as (u & Hu & Hm). apply filter_In in Hu as [_ Hu]. destruct (C u Hu) as [Hun Hd]. specialize (H u Hun).
  assert (degree_in outn T u <= later outn rank u); [|lia]. apply filter_le_imp. intros w Hw HT. apply Nat.ltb_lt.
  destruct (C w HT) as [Hwn _]. assert (X : rank u <= rank w) by (apply Hm, filter_In; split; auto; apply in_seq; lia).
  destruct (Nat.eq_dec (rank u) (rank w)) as [Y|Y]; [|lia]. apply Hr2 in Y; auto. subst w. exfalso. eapply Hnl; eauto.
Qed.
Lemma sgraph_symmetric n outn : sgraph n outn -> symmetric n outn.
Proof.
  intros H. assert (ND : forall u, u < n -> NoDup (outn u)) by (intros u Hu; apply CQCount.inc_nodup; now apply H). split.
  - intros u v Hu Hv. now apply (H u Hu).
  - intros u v Hu Hv. pose proof (proj1 (NoDup_count_occ Nat.eq_dec _) (ND u Hu) v). pose proof (proj1 (NoDup_count_occ Nat.eq_dec _) (ND v Hv) u).
    assert (In v (outn u) <-> In u (outn v)) by (split; intros X; [apply (H u Hu) in X|apply (H v Hv) in X]; tauto).
    pose proof (count_occ_In Nat.eq_dec (outn u) v) as C1. pose proof (count_occ_In Nat.eq_dec (outn v) u) as C2.
    destruct (in_dec Nat.eq_dec v (outn u)) as [I|I].
    + assert (J : In u (outn v)) by tauto. apply C1 in I. apply C2 in J. lia.
    + assert (J : ~ In u (outn v)) by tauto. rewrite C1 in I. rewrite C2 in J. lia.
Qed.

Lemma peel_first n a b d l r : 0 < b -> r < peel_size n a b -> r < n -> l * (n - r) <= 2 * d * n -> l * b <= (2 * b + a) * d.
Proof.
  intros Hb Hr Hn H. unfold peel_size in Hr. set (c := 2 * b + a) in *. assert (Hc : 0 < c) by lia.
  assert (K : 2 * b * n <= (n - r) * c).
  { assert (X : r * c <= n * a).
    { destruct (Nat.eq_dec r 0) as [->|Z]; [lia|]. assert (r < (n * a + c - 1) / c) by lia.
      assert (c * ((n * a + c - 1) / c) <= n * a + c - 1) by (apply Nat.mul_div_le; lia). nia. }
    rewrite Nat.mul_sub_distr_r. subst c. nia. }
  assert (l * (2 * b * n) <= 2 * d * n * c) by nia. nia.
Qed.
