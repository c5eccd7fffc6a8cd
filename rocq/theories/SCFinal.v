From Coq Require Import Permutation.
From Verif Require Import Base ListUtil VSModel EMModel EMSpec FAModel FASpec FAProofs SCModel SCSpec SCSearch SCFirst SCProofs SCRuns.

Section Final.
  Variable n : nat.
  Variables outn inn : nat -> list nat.
  Hypothesis G : graph_ok n outn inn.
  Variable m : nat.
  Variable next_step : nat -> nat.
  Notation sc := (strongly_connected outn).
  Notation zero := (zero n outn inn).
  Notation NZ := (NZ n outn inn).
  Notation first_labels := (first_labels n outn inn).

  Lemma zero_In v : In v zero <-> v < n /\ (outn v = [] \/ inn v = []).
  Proof.
    unfold SCModel.zero. rewrite filter_In, in_seq, orb_true_iff, !Nat.eqb_eq, !length_zero_iff_nil. intuition lia.
  Qed.
  Lemma NZ_In v : In v NZ <-> v < n /\ ~ In v zero.
  Proof.
    rewrite zero_In. unfold SCModel.NZ. rewrite filter_In, in_seq, andb_true_iff, !Nat.ltb_lt.
    destruct (outn v), (inn v); simpl; intuition (try lia; try discriminate).
  Qed.
  Lemma zero_nodup : NoDup zero. Proof. apply NoDup_filter, seq_NoDup. Qed.
  Lemma zero_NZ : length zero + length NZ = n.
  Proof.
    transitivity (length (seq 0 n)); [|apply seq_length]. unfold SCModel.zero, SCModel.NZ.
    induction (seq 0 n) as [|v l IH]; auto. cbn [filter]. destruct (outn v), (inn v); cbn [length]; simpl; lia.
  Qed.
  Lemma first_labels_spec : (forall i v, nth_error zero i = Some v -> first_labels v = (true, i + 1)) /\ forall v, ~ In v zero -> first_labels v = (false, 0).
  Proof.
    unfold SCModel.first_labels. assert (H : forall k, k <= length zero -> let f := fold_left (fun L i => fset L (nth i zero 0) (true, i + 1)) (seq 0 k) (fun _ => (false, 0)) in
      (forall i v, i < k -> nth_error zero i = Some v -> f v = (true, i + 1)) /\ forall v, ~ In v zero -> f v = (false, 0)).
    { induction k as [|k IH]; intros Hk; cbn zeta in *; [split; intros; [lia|auto]|]. rewrite seq_S, fold_left_app. cbn [fold_left]. destruct IH as [A B]; [lia|]. split.
      - intros i v Hi Hv. unfold fset at 1. destruct (Nat.eqb_spec v (nth (0 + k) zero 0)) as [E|E].
        + assert (i = k); [|now subst].
          pose proof zero_nodup as Z. rewrite NoDup_nth_error in Z. apply Z; [lia|]. rewrite Hv, E. symmetry. apply nth_error_nth'. simpl. lia.
        + apply A; auto. assert (i <> k); [|lia]. intros ->. apply E. simpl. symmetry. now apply nth_error_nth.
      - intros v Hv. unfold fset at 1. destruct (Nat.eqb_spec v (nth (0 + k) zero 0)) as [E|E]; auto. exfalso. apply Hv. rewrite E. apply nth_In. simpl. lia. }
    destruct (H (length zero) (le_n _)) as [A B]. split; auto. intros i v Hi. apply A; auto. apply nth_error_Some. congruence.
  Qed.
  Lemma first_final v : fst (first_labels v) = true <-> In v zero.
  Proof.
    destruct first_labels_spec as [A B]. split; intros H.
    - destruct (in_dec Nat.eq_dec v zero) as [C|C]; auto. rewrite B in H by auto. discriminate.
    - apply In_nth_error in H as (i & Hi). now rewrite (A i v Hi).
  Qed.
  (* a vertex without out- or in-edges is a component *)
  Lemma reach_out u v : reachable outn u v -> u = v \/ outn u <> [].
  Proof.
    intros [k H]. induction H as [|k v w H IH Hw]; [now left|]. destruct IH as [->|IH]; auto. right. intros E. rewrite E in Hw. destruct Hw.
  Qed.
  Lemma zero_alone u v : In u zero -> sc u v -> u = v.
  Proof.
    intros Hz [H1 H2]. apply zero_In in Hz as [Hu [E|E]].
    - destruct (reach_out H1); congruence.
    - destruct H2 as [k H2]. inversion H2 as [|k' x y Hx Hy]; subst; auto. exfalso.
      assert (Hv : v < n) by (eapply rch_lt; eauto). assert (Hxn : x < n) by (eapply walk_lt; eauto).
      apply (g_dual G) in Hy; auto. rewrite E in Hy. destruct Hy.
  Qed.
  Lemma first_inv : inv n outn first_labels (length zero + 1).
  Proof.
    destruct first_labels_spec as [A B]. split.
    - intros u v Hu Huv. destruct (in_dec Nat.eq_dec u zero) as [C|C]; [now rewrite (zero_alone C Huv)|].
      destruct (in_dec Nat.eq_dec v zero) as [D|D]; [now rewrite (zero_alone D (sc_sym Huv))|]. now rewrite !B.
    - intros u v Hu Hv Hf E. assert (Hf' := Hf). rewrite E in Hf'. apply first_final in Hf, Hf'. apply In_nth_error in Hf as (i & Hi). apply In_nth_error in Hf' as (j & Hj).
      rewrite (A i u Hi), (A j v Hj) in E. injection E as E. assert (i = j) by lia. subst j. replace v with u by congruence. apply sc_refl.
    - intros v Hv. destruct (in_dec Nat.eq_dec v zero) as [C|C]; [|rewrite B by auto; simpl; lia]. apply In_nth_error in C as (i & Hi). rewrite (A i v Hi). simpl.
      assert (i < length zero) by (apply nth_error_Some; congruence). lia.
    - intros v Hv Hf. apply first_final in Hf. apply In_nth_error in Hf as (i & Hi). rewrite (A i v Hi). simpl. lia.
  Qed.

  Lemma perm_filter_len (f : nat -> bool) (l : list nat) x : In x l -> f x = false -> length (filter f l) + 1 <= length l.
  Proof.
    induction l as [|a l IH]; intros H E; [destruct H|]. simpl. destruct H as [->|H].
    - rewrite E. pose proof (filter_len_le f l). lia.
    - specialize (IH H E). destruct (f a); simpl; lia.
  Qed.
  Lemma labels_ok P L : Permutation P NZ -> scc_labels n outn inn m next_step P (Some L) ->
    exists off, inv n outn L off /\ off <= n + 1 /\ forall v, v < n -> fst (L v) = true.
  Proof.
    intros HP H. pose proof zero_NZ as Hlen. pose proof (Permutation_length HP) as HPl.
    assert (HPin : forall v, In v P <-> v < n /\ ~ In v zero).
    { intros v. rewrite <- NZ_In. split; apply Permutation_in; [auto|now apply Permutation_sym]. }
    assert (Fin : forall L0 off0, inv n outn L0 off0 -> 1 <= off0 -> (forall v, v < n -> In v zero -> fst (L0 v) = true) ->
      off0 + length (filter (fun v => negb (fst (L0 v))) P) <= n + 1 ->
      rounds n outn inn m next_step (filter (fun v => negb (fst (L0 v))) P) L0 (fun _ => false) 1 0 0 off0 (Some L) ->
      exists off, inv n outn L off /\ off <= n + 1 /\ forall v, v < n -> fst (L v) = true).
    { intros L0 off0 I Ho Hz Hle Hr. assert (HQ : forall v, In v (filter (fun v => negb (fst (L0 v))) P) -> v < n) by (intros v Hv; apply filter_In in Hv as [Hv _]; now apply HPin).
      destruct (rounds_ok G HQ Hr I Ho) with (L' := L) as (off' & K1 & K2 & K3 & K4); auto; [lia|intros; lia|].
      exists off'. split; auto. split; auto. intros v Hv. destruct (fst (L0 v)) eqn:E; auto. apply K4. apply filter_In. rewrite E. split; auto. apply HPin. split; auto.
      intros Hzv. rewrite (Hz v Hv Hzv) in E. discriminate. }
    remember (Some L) as r eqn:Er. destruct H as [start r Hh Hf Hr|start L1 r Hh Hf Ho Hr]; subst r.
    - apply (Fin first_labels (length zero + 1)); auto using first_inv; [lia|intros v _ Hv; now apply first_final|].
      pose proof (filter_len_le (fun v => negb (fst (first_labels v))) P). lia.
    - destruct Hh as [Hs _]. destruct (one_inv G first_inv ltac:(lia) Hs Hf Ho) as (J1 & J2 & J3). replace (length zero + 1 + 1) with (length zero + 2) in J1 by lia.
      apply (Fin L1 (length zero + 2)); auto; [lia| |].
      + intros v Hv Hz. rewrite J2; auto; now apply first_final.
      + assert (Hin : In start P) by (apply HPin; split; auto; rewrite <- first_final; congruence).
        pose proof (@perm_filter_len (fun v => negb (fst (L1 v))) P start Hin) as X. cbv beta in X. rewrite J3 in X. specialize (X eq_refl). lia.
  Qed.
  Theorem scc_ok comp : scc_returns n outn inn m next_step (Some comp) ->
    (forall u v, u < n -> v < n -> (comp u = comp v <-> sc u v)) /\ forall v, v < n -> comp v < n.
  Proof.
    intros (P & r & HP & Hl & Hr). destruct r as [L|]; [|discriminate]. destruct Hr as (f & E & Hf). injection E as <-.
    destruct (labels_ok HP Hl) as (off & I & Ho & Hall). split.
    - intros u v Hu Hv. rewrite !Hf. pose proof (i_pos I Hu (Hall u Hu)). pose proof (i_pos I Hv (Hall v Hv)). split; intros H1.
      + apply (i_final I); auto. pose proof (Hall u Hu). pose proof (Hall v Hv). destruct (L u), (L v). simpl in *. f_equal; [congruence|lia].
      + now rewrite (i_same I Hu H1).
    - intros v Hv. rewrite Hf. pose proof (i_bound I Hv). pose proof (i_pos I Hv (Hall v Hv)). lia.
  Qed.

  (* -- num_scc -- *)
  Lemma mark_len (comp : nat -> nat) vs : forall f : list nat, length (fold_left (fun f v => lset f (comp v) 1) vs f) = length f.
  Proof. induction vs as [|v vs IH]; intros f; simpl; auto. now rewrite IH, length_lset. Qed.
  Lemma mark_nth (comp : nat -> nat) vs : forall f i, i < length f -> nth i (fold_left (fun f v => lset f (comp v) 1) vs f) 0 = if existsb (fun v => comp v =? i) vs then 1 else nth i f 0.
  Proof.
    induction vs as [|v vs IH]; intros f i Hi; simpl; auto. rewrite IH by now rewrite length_lset. destruct (existsb _ vs); [now rewrite orb_true_r|]. rewrite orb_false_r.
    rewrite nth_lset. destruct (Nat.eqb_spec (comp v) i) as [->|E]; simpl; auto. destruct (Nat.ltb_spec i (length f)); auto. lia.
  Qed.
  Lemma num_len (comp : nat -> nat) : num_scc n comp = length (filter (fun i => existsb (fun v => comp v =? i) (seq 0 n)) (seq 0 n)).
  Proof.
    unfold num_scc. set (fl := fold_left _ _ _). assert (Hlen : length fl = n + 1) by (unfold fl; now rewrite mark_len, repeat_length).
    assert (E : firstn n fl = map (fun i => if existsb (fun v => comp v =? i) (seq 0 n) then 1 else 0) (seq 0 n)).
    { apply nth_ext with (d := 0) (d' := 0); [rewrite firstn_length, map_length, seq_length; lia|]. intros i Hi. rewrite firstn_length in Hi.
      assert (M : nth_error (map (fun i => if existsb (fun v => comp v =? i) (seq 0 n) then 1 else 0) (seq 0 n)) i = Some (if existsb (fun v => comp v =? i) (seq 0 n) then 1 else 0)).
      { rewrite nth_error_map, (nth_error_nth' _ 0) by (rewrite seq_length; lia). rewrite seq_nth by lia. reflexivity. }
      rewrite (nth_error_nth _ _ 0 M). transitivity (nth i fl 0).
      - rewrite <- (firstn_skipn n fl) at 2. rewrite app_nth1; auto. rewrite firstn_length. lia.
      - unfold fl. rewrite mark_nth by (rewrite repeat_length; lia). rewrite nth_repeat. reflexivity. }
    rewrite E. clear E. induction (seq 0 n) as [|i l IH] at 2 4; [reflexivity|]. cbn [map filter]. change (list_sum (?a :: ?l)) with (a + list_sum l). rewrite IH. destruct (existsb _ _); simpl; lia.
  Qed.
  Definition pick (comp : nat -> nat) (i : nat) : nat := hd 0 (filter (fun v => comp v =? i) (seq 0 n)).
  Lemma pick_ok comp i : existsb (fun v => comp v =? i) (seq 0 n) = true -> pick comp i < n /\ comp (pick comp i) = i.
  Proof.
    intros H. apply existsb_exists in H as (v & H1 & H2). unfold pick. destruct (filter _ _) as [|w l] eqn:E.
    - exfalso. assert (X : In v []) by (rewrite <- E; apply filter_In; auto). destruct X.
    - assert (X : In w (filter (fun v => comp v =? i) (seq 0 n))) by (rewrite E; now left). apply filter_In in X as [X1 X2]. apply in_seq in X1. apply Nat.eqb_eq in X2. simpl. split; auto. lia.
  Qed.
  Theorem num_ok comp : scc_returns n outn inn m next_step (Some comp) -> exists R, representatives n outn R /\ num_scc n comp = length R.
  Proof.
    intros H. destruct (scc_ok H) as [A B]. set (is := filter (fun i => existsb (fun v => comp v =? i) (seq 0 n)) (seq 0 n)).
    assert (Hp : forall i, In i is -> pick comp i < n /\ comp (pick comp i) = i) by (intros i Hi; apply pick_ok; now apply filter_In in Hi).
    exists (map (pick comp) is). rewrite map_length. split; [|apply num_len].
    assert (Hnd : NoDup (map (pick comp) is)).
    { assert (N : NoDup is) by apply NoDup_filter, seq_NoDup. clearbody is. induction N as [|i is Hi N IH]; simpl; constructor.
      - rewrite in_map_iff. intros (j & E & Hj). apply Hi. replace i with j; auto. destruct (Hp i (or_introl eq_refl)) as [_ E1]. destruct (Hp j (or_intror Hj)) as [_ E2]. congruence.
      - apply IH. intros j Hj. apply Hp. now right. }
    repeat split; auto.
    - intros r Hr. apply in_map_iff in Hr as (i & <- & Hi). now apply Hp.
    - intros r r' Hr Hr' E. apply in_map_iff in Hr as (i & <- & Hi). apply in_map_iff in Hr' as (j & <- & Hj). destruct (Hp i Hi) as [I1 I2], (Hp j Hj) as [J1 J2].
      apply A in E; auto. congruence.
    - intros v Hv. assert (Hi : In (comp v) is). { apply filter_In. split; [apply in_seq; specialize (B v Hv); lia|]. apply existsb_exists. exists v. split; [apply in_seq; lia|apply Nat.eqb_refl]. }
      exists (pick comp (comp v)). split; [now apply in_map|]. destruct (Hp _ Hi). apply A; auto.
  Qed.

  (* -- a run that returns -- *)
  Hypothesis Hnext : forall x, 1 <= x -> 1 <= next_step x.
  Lemma one_runs L start l : start < n -> fst (L start) = false -> exists L', one_search n outn inn m L start l L'.
  Proof.
    intros Hs Hu. destruct (@first_runs n outn inn G L m start Hs) as [ov Ho]. destruct (@first_runs n inn outn (graph_rev G) L m start Hs) as [iv Hi].
    eexists. econstructor; eauto.
  Qed.
  Lemma rounds_runs Q : (forall v, In v Q -> v < n) -> forall k L b step cur rd off, length Q - cur < k -> 1 <= step -> exists L', rounds n outn inn m next_step Q L b step cur rd off (Some L').
  Proof.
    intros HQ. induction k as [|k IH]; intros L b step cur rd off Hk Hst; [lia|]. destruct (Nat.le_gt_cases (length Q) cur) as [C|C]; [exists L; now constructor|].
    set (vs := Nat.min (cur + step) (length Q) - cur). assert (Hvs : 1 <= vs) by (unfold vs; lia). assert (Hdec : length Q - (cur + vs) < k) by (unfold vs; lia).
    destruct (filter (fun v => negb (fst (L v))) (firstn vs (skipn cur Q))) as [|c cs] eqn:E.
    - destruct (IH L b (next_step step) (cur + vs) (rd + 1) off) as [L' H]; auto. exists L'. now apply r_skip.
    - assert (Hc : forall v, In v (c :: cs) -> v < n /\ fst (L v) = false).
      { intros v Hv. rewrite <- E in Hv. apply filter_In in Hv as [X1 X2]. apply negb_true_iff in X2. split; auto. apply HQ. eapply in_firstn_skipn; eauto. }
      destruct rd as [|rd].
      + destruct (Hc c (or_introl eq_refl)) as [H1 H2]. destruct (@one_runs L c off H1 H2) as [L1 H3].
        destruct (IH L1 b (next_step step) (cur + vs) 1 (off + length (c :: cs))) as [L' H]; auto. exists L'. eapply r_first; eauto.
      + destruct (@multi_runs n inn L b (c :: cs) off) as (ci & ti & b1 & H1); [intros v w Hv Hw; eapply g_in; eauto|intros v Hv; now apply Hc|easy|].
        destruct (@multi_runs n outn L b1 (c :: cs) off) as (co & to & b2 & H2); [intros v w Hv Hw; eapply g_out; eauto|intros v Hv; now apply Hc|easy|].
        destruct (IH (intersect L (if ci <=? co then ti else to) (if ci <=? co then to else ti) (if ci <=? co then ti else to) (if ci <=? co then to else ti)) b2 (next_step step) (cur + vs) (S rd + 1) (off + length (c :: cs))) as [L' H]; auto.
        exists L'. eapply r_multi; eauto. easy.
  Qed.
  Lemma heaviest_ex : 0 < n -> exists v, heaviest n outn v.
  Proof.
    intros Hn. assert (H : forall k, 0 < k -> exists v, v < k /\ forall w, w < k -> length (outn w) <= length (outn v) /\ (v < w -> length (outn w) < length (outn v))).
    { induction k as [|k IH]; intros Hk; [lia|]. destruct k as [|k]; [exists 0; split; [lia|]; intros w Hw; replace w with 0 by lia; split; [auto|lia]|].
      destruct IH as (v & Hv & H); [lia|]. destruct (Nat.le_gt_cases (length (outn v)) (length (outn (S k)))) as [C|C].
      - exists (S k). split; [lia|]. intros w Hw. split; [|lia]. destruct (Nat.eq_dec w (S k)) as [->|E]; [auto|]. destruct (H w) as [X _]; lia.
      - exists v. split; [lia|]. intros w Hw. destruct (Nat.eq_dec w (S k)) as [->|E]; [split; lia|]. apply H. lia. }
    destruct (H n Hn) as (v & H1 & H2). exists v. split; auto.
  Qed.
  Theorem scc_runs P : 0 < n -> Permutation P NZ -> exists L, scc_labels n outn inn m next_step P (Some L).
  Proof.
    intros Hn HP. destruct (heaviest_ex Hn) as [start Hh]. assert (HPn : forall v, In v P -> v < n) by (intros v Hv; apply (Permutation_in _ HP), NZ_In in Hv; tauto).
    assert (R : forall L off, exists L', rounds n outn inn m next_step (filter (fun v => negb (fst (L v))) P) L (fun _ => false) 1 0 0 off (Some L')).
    { intros L off. eapply rounds_runs; [intros v Hv; apply filter_In in Hv as [Hv _]; auto|apply Nat.lt_succ_diag_r|auto]. }
    destruct (fst (first_labels start)) eqn:E.
    - destruct (R first_labels (length zero + 1)) as [L' H]. exists L'. eapply s_final; eauto.
    - assert (Hs : start < n) by apply Hh. destruct (@one_runs first_labels start (length zero + 1) Hs E) as [L H]. destruct (R L (length zero + 2)) as [L' H']. exists L'. eapply s_first; eauto.
  Qed.
End Final.
