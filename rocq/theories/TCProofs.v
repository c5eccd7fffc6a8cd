(* Proofs for C48. *)
From Coq Require Import Permutation Sorted.
From Verif Require Import Base ListUtil GBModel GBProofs ISModel ISSpec ISProofs ISProps SFModel SFSpec SFProofs SFProps TCModel TCSpec.

Lemma bsearch_spec l v : bsearch l v <= length l /\ (forall j, j < bsearch l v -> nth j l 0 < v) /\ (bsearch l v < length l -> v <= nth (bsearch l v) l 0).
Proof.
  induction l as [|x l IH]; simpl; [repeat split; auto; intros; lia|]. destruct (Nat.ltb_spec x v) as [H|H].
  - destruct IH as (A & B & C). split; [lia|]. split; [|intros; apply C; lia]. intros [|j] Hj; auto. apply B. lia.
  - split; [lia|]. split; [intros; lia|auto].
Qed.
Lemma bsearch_mono l v w : v <= w -> bsearch l v <= bsearch l w.
Proof.
  intros H. destruct (Nat.le_gt_cases (bsearch l v) (bsearch l w)) as [|Hgt]; auto. exfalso.
  destruct (bsearch_spec l v) as (A & B & C). destruct (bsearch_spec l w) as (A' & B' & C'). specialize (B _ Hgt). specialize (C' ltac:(lia)). lia.
Qed.
Lemma seqs_concat (a : nat -> nat) m : (forall b, b < m -> a b <= a (S b)) ->
  concat (map (fun b => seq (a b) (a (S b) - a b)) (seq 0 m)) = seq (a 0) (a m - a 0) /\ a 0 <= a m.
Proof.
  induction m as [|m IH]; intros H; [simpl; now rewrite Nat.sub_diag|]. rewrite seq_S, map_app, concat_app. cbn [map concat Nat.add]. rewrite app_nil_r.
  destruct IH as [IH Hle]; [auto|]. rewrite IH. assert (a m <= a (S m)) by auto. split; [|lia].
  replace (a (S m) - a 0) with ((a m - a 0) + (a (S m) - a m)) by lia. rewrite seq_app. f_equal. f_equal. lia.
Qed.

Section Balanced.
  Variables thresh base bsz : nat.
  Hypothesis Hbase : 2 <= base.
  Variable n : nat.
  Variable dg : nat -> list nat.
  Hypothesis Hinc : forall v, v < n -> increasing (dg v).
  Hypothesis Hlt : forall u v, u < n -> In v (dg u) -> v < n.
  Notation run_nghs := (run_nghs thresh base dg).
  Notation run_range := (run_range thresh base dg).

  (* the triples reported for i *)
  Definition commons (A B : list nat) : list nat := filter (fun x => existsb (Nat.eqb x) B) A.
  Definition reports (i : nat) (l : list nat) : list (nat * nat * nat) := flat_map (fun v => map (fun x => (i, v, x)) (commons (dg i) (dg v))) l.
  Lemma commons_common A B : increasing A -> common A B (commons A B).
  Proof.
    intros HA. split.
    - unfold commons, increasing in *. induction HA as [|x l Hs IH Hf]; simpl; [constructor|]. destruct (existsb _ B); auto. constructor; auto.
      rewrite Forall_forall in *. intros y Hy. apply filter_In in Hy as [Hy _]. auto.
    - intros x. unfold commons. rewrite filter_In, existsb_exists. split; [intros [H (y & Hy & E)]; apply Nat.eqb_eq in E; subst; auto|].
      intros [H1 H2]. split; auto. exists x. split; auto. apply Nat.eqb_refl.
  Qed.
  Lemma par_ok i v : i < n -> v < n -> exists k cs, intersect_f_par thresh base (dg i) (dg v) = Some (k, cs) /\
    k = length (commons (dg i) (dg v)) /\ (forall c, happens cs c -> Permutation c (commons (dg i) (dg v))) /\ happens cs (commons (dg i) (dg v)).
  Proof.
    intros Hi Hv. destruct (C22_parallel thresh Hbase (Hinc Hi) (Hinc Hv)) as (k & cs & l & E1 & E2 & Hp & Hh).
    destruct (C21_intersect (Hinc Hi) (Hinc Hv)) as (l' & E3 & _ & Hl1 & Hl2). rewrite E2 in E3. injection E3 as -> ->.
    assert (l' = commons (dg i) (dg v)) as -> by (eapply common_unique; [split; [exact Hl1|exact Hl2]|apply commons_common; auto]).
    exists (length (commons (dg i) (dg v))), cs. auto.
  Qed.
  Lemma run_nghs_ok i l t cl : i < n -> (forall v, In v l -> v < n) -> run_nghs i l t cl -> t = length (reports i l) /\ Permutation cl (reports i l).
  Proof.
    intros Hi Hl H. induction H as [|v l k cs c t cl E Hh H IH]; [split; auto|]. destruct IH as [IH1 IH2]; [intros; apply Hl; now right|].
    assert (Hv : v < n) by (apply Hl; now left). destruct (par_ok Hi Hv) as (k' & cs' & E' & Hk & Hp & _). rewrite E in E'. injection E' as <- <-.
    unfold reports in *. cbn [flat_map]. rewrite app_length, map_length. split; [lia|]. apply Permutation_app; auto. apply Permutation_map. auto.
  Qed.
  Lemma run_nghs_runs i l : i < n -> (forall v, In v l -> v < n) -> exists t cl, run_nghs i l t cl.
  Proof.
    intros Hi. induction l as [|v l IH]; intros Hl; [eexists _, _; constructor|]. destruct IH as (t & cl & H); [intros; apply Hl; now right|].
    assert (Hv : v < n) by (apply Hl; now left). destruct (par_ok Hi Hv) as (k' & cs' & E' & Hk & Hp & Hh). eexists _, _. econstructor; eauto.
  Qed.
  Definition vreports (i : nat) := reports i (dg i).
  Lemma run_range_ok l st cl : (forall i, In i l -> i < n) -> run_range l st cl ->
    st = map (fun i => (i, length (vreports i))) l /\ Permutation cl (flat_map vreports l).
  Proof.
    intros Hl H. induction H as [|i l t cl st cl' H1 H IH]; [split; auto|]. destruct IH as [IH1 IH2]; [intros; apply Hl; now right|].
    assert (Hi : i < n) by (apply Hl; now left). apply run_nghs_ok in H1 as [H1 H2]; auto; [|intros v Hv; eapply Hlt; eauto]. subst. simpl. split; auto. apply Permutation_app; auto.
  Qed.
  Lemma run_range_runs l : (forall i, In i l -> i < n) -> exists st cl, run_range l st cl.
  Proof.
    induction l as [|i l IH]; intros Hl; [eexists _, _; constructor|]. destruct IH as (st & cl & H); [intros; apply Hl; now right|].
    assert (Hi : i < n) by (apply Hl; now left). destruct (@run_nghs_runs i (dg i) Hi) as (t & cl1 & H1); [intros v Hv; eapply Hlt; eauto|]. eexists _, _. econstructor; eauto.
  Qed.

  Notation nb := (n_blocks bsz n dg).
  Notation wpb := (work_per_block bsz n dg).
  Notation bstart := (block_start bsz n dg).
  Notation bend := (block_end bsz n dg).
  Definition last_ind : nat := bstart nb.
  Lemma bend_start b : bend b = bstart (S b).
  Proof. unfold block_end, block_start. now rewrite Nat.add_1_r. Qed.
  Lemma bstart_le b : bstart b <= n.
  Proof. unfold block_start. destruct (bsearch_spec (scanned n dg) (b * wpb)) as [A _]. unfold scanned in A at 2. now rewrite map_length, seq_length in A. Qed.
  Lemma blocks_all : concat (map (fun b => seq (bstart b) (bend b - bstart b)) (seq 0 nb)) = seq 0 last_ind.
  Proof.
    rewrite map_ext with (g := fun b => seq (bstart b) (bstart (S b) - bstart b)) by (intros; now rewrite bend_start).
    destruct (@seqs_concat bstart nb) as [E _].
    - intros b _. unfold block_start. apply bsearch_mono. apply Nat.mul_le_mono_r. lia.
    - rewrite E. assert (bstart 0 = 0) as ->; [|now rewrite Nat.sub_0_r]. unfold block_start, scanned. simpl. destruct n; reflexivity.
  Qed.
  Lemma work_mono a b : a <= b -> sum_before (work dg) a <= sum_before (work dg) b.
  Proof. induction 1 as [|b H IH]; auto. unfold sum_before in *. rewrite seq_S, map_app, list_sum_app. lia. Qed.
  Lemma enough : total_work n dg <= nb * wpb.
  Proof.
    unfold work_per_block. set (T := total_work n dg). assert (Hnb : 0 < nb) by (unfold n_blocks; lia). set (m := nb) in *. pose proof (Nat.div_mod (T + m - 1) m ltac:(lia)). pose proof (Nat.mod_upper_bound (T + m - 1) m ltac:(lia)). lia.
  Qed.
  (* the vertices not covered by a block have nothing to report *)
  Lemma tail_empty i : last_ind <= i < n -> vreports i = [].
  Proof.
    intros [H1 H2]. assert (Hw : work dg i = 0).
    { unfold last_ind, block_start in H1. destruct (bsearch_spec (scanned n dg) (nb * wpb)) as (A & _ & C).
      assert (Hl : length (scanned n dg) = n) by (unfold scanned; now rewrite map_length, seq_length). rewrite Hl in *. set (q := bsearch (scanned n dg) (nb * wpb)) in *.
      specialize (C ltac:(lia)). unfold scanned in C. rewrite (nth_indep _ 0 (sum_before (work dg) 0)) in C by (rewrite map_length, seq_length; lia).
      rewrite map_nth, seq_nth in C by lia. simpl in C. pose proof enough. assert (sum_before (work dg) q <= sum_before (work dg) i) by (apply work_mono; lia).
      assert (sum_before (work dg) (S i) <= total_work n dg) by (apply work_mono; lia). unfold sum_before in *. rewrite seq_S, map_app, list_sum_app in *. simpl in *. lia. }
    unfold vreports, reports. assert (X : forall v, In v (dg i) -> dg v = []).
    { intros v Hv. apply length_zero_iff_nil. unfold work in Hw. apply Nat.le_0_r. rewrite <- Hw. apply in_split in Hv as (l1 & l2 & ->). rewrite map_app, list_sum_app. simpl. lia. }
    enough (Y : forall l, (forall v, In v l -> dg v = []) -> flat_map (fun v => map (fun x => (i, v, x)) (commons (dg i) (dg v))) l = []) by auto.
    induction l as [|v l IH]; intros Y; auto. cbn [flat_map]. rewrite (Y v) by now left.
    unfold commons at 1. rewrite filter_none by (intros; reflexivity). simpl. apply IH. intros. apply Y. now right.
  Qed.
  Definition all_reports : list (nat * nat * nat) := flat_map vreports (seq 0 n).
  Lemma last_le : last_ind <= n.
  Proof. apply bstart_le. Qed.
  Lemma flat_none {A} (f : nat -> list A) l : (forall i, In i l -> f i = []) -> flat_map f l = [].
  Proof. induction l as [|i l IH]; intros X; simpl; auto. rewrite X by now left. apply IH. intros. apply X. now right. Qed.
  Lemma seq_cut : seq 0 n = seq 0 last_ind ++ seq last_ind (n - last_ind).
  Proof. pose proof last_le. rewrite <- (Nat.add_0_l last_ind) at 2. rewrite <- seq_app. f_equal. lia. Qed.
  Lemma reports_cut : flat_map vreports (seq 0 last_ind) = all_reports.
  Proof.
    unfold all_reports. rewrite seq_cut, flat_map_app. rewrite (@flat_none _ _ (seq last_ind (n - last_ind))); [now rewrite app_nil_r|].
    intros i Hi. apply in_seq in Hi. pose proof last_le. apply tail_empty. lia.
  Qed.
  Lemma ranges_ok sts cls : length sts = nb -> length cls = nb ->
    (forall b, b < nb -> run_range (seq (bstart b) (bend b - bstart b)) (nth b sts []) (nth b cls [])) ->
    concat sts = map (fun i => (i, length (vreports i))) (seq 0 last_ind) /\ Permutation (concat cls) all_reports.
  Proof.
    intros H1 H2 H. rewrite <- reports_cut, <- blocks_all.
    assert (X : forall k a, a + k = nb ->
      concat (skipn a sts) = map (fun i => (i, length (vreports i))) (concat (map (fun b => seq (bstart b) (bend b - bstart b)) (seq a k))) /\
      Permutation (concat (skipn a cls)) (flat_map vreports (concat (map (fun b => seq (bstart b) (bend b - bstart b)) (seq a k))))).
    { induction k as [|k IH]; intros a Ha; [rewrite !skipn_all2 by lia; now split|].
      assert (Y : forall (X : Type) (l : list (list X)), a < length l -> skipn a l = nth a l [] :: skipn (S a) l).
      { clear. induction a; intros X [|x l] Hl; simpl in *; try lia; auto. apply IHa. lia. }
      rewrite !Y by lia. destruct (IH (S a) ltac:(lia)) as [I1 I2]. cbn [concat map seq]. rewrite I1, map_app, flat_map_app.
      assert (Hr : forall i, In i (seq (bstart a) (bend a - bstart a)) -> i < n).
      { intros i Hi. apply in_seq in Hi. rewrite bend_start in Hi. pose proof (bstart_le (S a)). lia. }
      pose proof (run_range_ok Hr (H a ltac:(lia))) as [R1 R2].
      split; [now rewrite R1|now apply Permutation_app]. }
    apply (X nb 0). lia.
  Qed.
  Lemma sum_lengths (f : nat -> list (nat * nat * nat)) l : list_sum (map (fun i => length (f i)) l) = length (flat_map f l).
  Proof. induction l as [|i l IH]; simpl; auto. now rewrite app_length, IH. Qed.
  Notation returns := (balanced_returns thresh base bsz n dg).
  Lemma counts_ok sts order counts : concat sts = map (fun i => (i, length (vreports i))) (seq 0 last_ind) ->
    Permutation order (concat sts) -> run_stores order (repeat 0 n) = Some counts -> list_sum counts = length all_reports.
  Proof.
    intros E Hp Hr. destruct (@run_stores_consistent nat (fun i => length (vreports i)) n order (repeat 0 n)) as (arr & E' & Hl & HA).
    - apply repeat_length.
    - intros k x Hx. apply (Permutation_in _ Hp) in Hx. rewrite E in Hx. apply in_map_iff in Hx as (i & Ei & Hi). injection Ei as <- <-.
      apply in_seq in Hi. pose proof last_le. split; auto. lia.
    - rewrite Hr in E'. injection E' as <-. unfold all_reports. rewrite <- sum_lengths. f_equal. apply (list_ext_nth_error).
      intros k. destruct (Nat.lt_ge_cases k n) as [Hk|Hk].
      + rewrite (nth_error_nth' (map _ _) (length (vreports 0))) by (rewrite map_length, seq_length; lia).
        rewrite (map_nth (fun i => length (vreports i))), seq_nth by lia. cbn [Nat.add].
        destruct (HA k Hk) as [[H1 _]|[H1 H2]]; auto. rewrite H1. rewrite (nth_error_nth' _ 0) by (rewrite repeat_length; lia). rewrite nth_repeat.
        destruct (Nat.lt_ge_cases k last_ind) as [Hq|Hq]; [|rewrite tail_empty by lia; auto]. exfalso. apply (H2 (length (vreports k))).
        apply (Permutation_in _ (Permutation_sym Hp)). rewrite E. apply in_map_iff. exists k. split; auto. apply in_seq. lia.
      + rewrite !(proj2 (nth_error_None _ _)); auto; rewrite ?map_length, ?seq_length; lia.
  Qed.
  Theorem balanced_ok count made : returns count made -> count = length all_reports /\ Permutation made all_reports.
  Proof.
    intros (sts & cls & order & counts & H1 & H2 & H3 & H4 & H5 & -> & H6). destruct (ranges_ok sts cls H1 H2 H3) as [A B]. split; [|now rewrite H6].
    eapply counts_ok; eauto.
  Qed.
  Theorem balanced_runs : exists count made, returns count made.
  Proof.
    assert (X : forall k, k <= nb -> exists sts cls, length sts = k /\ length cls = k /\
      forall b, b < k -> run_range (seq (bstart b) (bend b - bstart b)) (nth b sts []) (nth b cls [])).
    { induction k as [|k IH]; intros Hk; [exists [], []; repeat split; intros; lia|]. destruct IH as (sts & cls & A & B & C); [lia|].
      destruct (@run_range_runs (seq (bstart k) (bend k - bstart k))) as (st & cl & H).
      { intros i Hi. apply in_seq in Hi. rewrite bend_start in Hi. pose proof (bstart_le (S k)). lia. }
      exists (sts ++ [st]), (cls ++ [cl]). rewrite !app_length. simpl. split; [lia|]. split; [lia|]. intros b Hb.
      destruct (Nat.eq_dec b k) as [->|Hne]; [rewrite !app_nth2, A, B, Nat.sub_diag by lia; auto|]. rewrite !app_nth1 by lia. apply C. lia. }
    destruct (X nb (le_n _)) as (sts & cls & A & B & C). destruct (ranges_ok sts cls A B C) as [D _].
    destruct (@run_stores_consistent nat (fun i => length (vreports i)) n (concat sts) (repeat 0 n)) as (arr & E' & _).
    - apply repeat_length.
    - intros k x Hx. rewrite D in Hx. apply in_map_iff in Hx as (i & Ei & Hi). injection Ei as <- <-. apply in_seq in Hi. pose proof last_le. split; auto. lia.
    - exists (list_sum arr), (concat cls), sts, cls, (concat sts), arr. auto 10.
  Qed.
  Lemma In_reports i v x : In (i, v, x) all_reports <-> i < n /\ In v (dg i) /\ In x (dg i) /\ In x (dg v).
  Proof.
    unfold all_reports, vreports, reports. rewrite in_flat_map. setoid_rewrite in_flat_map. setoid_rewrite in_map_iff. unfold commons.
    setoid_rewrite filter_In. setoid_rewrite existsb_exists. setoid_rewrite in_seq. split.
    - intros (i' & Hi & v' & Hv & x' & E & Hx & y & Hy & Exy). apply Nat.eqb_eq in Exy. injection E as -> -> ->. subst. repeat split; auto. lia.
    - intros (Hi & Hv & Hx & Hx'). exists i. split; [lia|]. exists v. split; auto. exists x. split; auto. split; auto. exists x. split; auto. apply Nat.eqb_refl.
  Qed.
  Lemma NoDup_flat {A B} (f : A -> list B) l : NoDup l -> (forall a, In a l -> NoDup (f a)) ->
    (forall a a' b, In a l -> In a' l -> In b (f a) -> In b (f a') -> a = a') -> NoDup (flat_map f l).
  Proof.
    induction 1 as [|a l Ha Hn IH]; intros H1 H2; simpl; [constructor|]. apply NoDup_app_iff. split; [apply H1; now left|].
    split; [apply IH; [intros; apply H1; now right|intros; eapply H2; eauto; now right]|]. intros b Hb Hb'. apply in_flat_map in Hb' as (a' & Ha' & Hb').
    apply Ha. rewrite (H2 a a' b); auto; [now left|now right].
  Qed.
  Lemma NoDup_inc l : increasing l -> NoDup l.
  Proof. unfold increasing. induction 1 as [|x l H IH Hf]; constructor; auto. intros Hx. rewrite Forall_forall in Hf. specialize (Hf _ Hx). lia. Qed.
  Lemma NoDup_reports : NoDup all_reports.
  Proof.
    unfold all_reports. apply NoDup_flat; [apply seq_NoDup| |].
    - intros i Hi. apply in_seq in Hi. unfold vreports, reports. apply NoDup_flat; [apply NoDup_inc, Hinc; lia| |].
      + intros v Hv. apply FinFun.Injective_map_NoDup; [intros x y E; congruence|]. apply NoDup_filter', NoDup_inc, Hinc. lia.
      + intros v v' b _ _ Hb Hb'. apply in_map_iff in Hb as (x & <- & _). apply in_map_iff in Hb' as (x' & E & _). congruence.
    - intros i i' b _ _ Hb Hb'. unfold vreports, reports in *. apply in_flat_map in Hb as (v & _ & Hb). apply in_flat_map in Hb' as (v' & _ & Hb').
      apply in_map_iff in Hb as (x & <- & _). apply in_map_iff in Hb' as (x' & E & _). congruence.
  Qed.
End Balanced.

Lemma sort3_perm a b c : exists x y z, sort3 (a, b, c) = (x, y, z) /\
  ((x = a /\ y = b /\ z = c) \/ (x = a /\ y = c /\ z = b) \/ (x = b /\ y = a /\ z = c) \/
   (x = b /\ y = c /\ z = a) \/ (x = c /\ y = a /\ z = b) \/ (x = c /\ y = b /\ z = a)) /\ x <= y <= z.
Proof.
  assert (X : exists x y z, (a, b, c) = (a, b, c) /\ x <= y <= z /\ sort3 (a, b, c) = (x, y, z) /\ ((x = a /\ y = b /\ z = c) \/ (x = a /\ y = c /\ z = b) \/ (x = b /\ y = a /\ z = c) \/
   (x = b /\ y = c /\ z = a) \/ (x = c /\ y = a /\ z = b) \/ (x = c /\ y = b /\ z = a))).
  { assert (O : a <= b <= c \/ a <= c <= b \/ b <= a <= c \/ b <= c <= a \/ c <= a <= b \/ c <= b <= a) by lia.
    destruct O as [O|[O|[O|[O|[O|O]]]]]; [exists a, b, c|exists a, c, b|exists b, a, c|exists b, c, a|exists c, a, b|exists c, b, a];
      (split; [reflexivity|]; split; [exact O|]; split; [|tauto]; unfold sort3; repeat apply f_equal2; lia). }
  destruct X as (x & y & z & _ & A & B & C). eauto 10.
Qed.

Definition injective_rank (n : nat) (rank : list nat) : Prop :=
  forall u v, u < n -> v < n -> nth u rank 0 = nth v rank 0 -> u = v.

Section Oriented.
  Variables thresh base bsz : nat.
  Hypothesis Hbase : 2 <= base.
  Variable G : csr unit.
  Hypothesis HG : simple G.
  Variable rank : list nat.
  Hypothesis Hrank : injective_rank (gn G) rank.
  Notation rk u := (nth u rank 0).

  Lemma inc_filter (P : nat * unit -> bool) l : increasing (map fst l) -> increasing (map fst (filter P l)).
  Proof.
    unfold increasing. induction l as [|x l IH]; simpl; intros H; [constructor|]. inversion H; subst. destruct (P x); simpl; auto. constructor; auto.
    rewrite Forall_forall in *. intros y Hy. apply H3. apply in_map_iff in Hy as (z & <- & Hz). apply filter_In in Hz as [Hz _]. now apply in_map.
  Qed.
  Lemma dg_spec DG sh junk : (forall l, Permutation (sh l) l) ->
    filter_graph (fun u x => rk u <? rk (fst x)) sh junk G = Some DG ->
    gn DG = gn G /\ forall v, v < gn G -> increasing (map fst (neighbors DG v)) /\
      forall u, In u (map fst (neighbors DG v)) <-> adj G v u /\ rk v < rk u.
  Proof.
    intros Hs E. destruct (@C33_filter_graph unit (fun u x => rk u <? rk (fst x)) sh junk G Hs) as (H & E' & _ & Hn & Hf & _).
    rewrite E in E'. injection E' as <-. split; auto. intros v Hv. rewrite (Hf v Hv). split; [apply inc_filter, HG; auto|]. intros u. unfold adj. rewrite !in_map_iff. split.
    - intros (x & <- & Hx). apply filter_In in Hx as [H1 H2]. apply Nat.ltb_lt in H2. split; eauto.
    - intros [(x & <- & Hx) H2]. exists x. split; auto. apply filter_In. split; auto. now apply Nat.ltb_lt.
  Qed.
  Theorem triangles_ok count made : triangles_with thresh base bsz G rank count made ->
    count = length made /\ NoDup (map sort3 made) /\ (forall t, In t (map sort3 made) <-> triangle G t).
  Proof.
    intros (sh & junk & DG & Hs & E & Hb). destruct (@dg_spec _ _ _ Hs E) as [Hn Hd]. set (dg := fun v => map fst (neighbors DG v)) in *.
    assert (Hinc : forall v, v < gn DG -> increasing (dg v)) by (intros v Hv; apply Hd; lia).
    assert (Hlt : forall u v, u < gn DG -> In v (dg u) -> v < gn DG).
    { intros u v Hu Hv. rewrite Hn in *. apply Hd in Hv as [Hv _]; auto. now apply HG in Hv. }
    destruct (balanced_ok Hbase Hinc Hlt Hb) as [Hc Hp]. split; [rewrite Hc; symmetry; now apply Permutation_length|].
    assert (HIn : forall i v x, In (i, v, x) made <-> i < gn G /\ (adj G i v /\ rk i < rk v) /\ (adj G i x /\ rk i < rk x) /\ adj G v x /\ rk v < rk x).
    { intros i v x. split.
      - intros H. apply (Permutation_in _ Hp) in H. apply (In_reports Hbase) in H as (H1 & H2 & H3 & H4). rewrite Hn in H1.
        apply Hd in H2; auto. apply Hd in H3; auto. apply Hd in H4; auto. destruct H2 as [H2 _]. now apply HG in H2.
      - intros (H1 & H2 & H3 & H4). apply (Permutation_in _ (Permutation_sym Hp)). apply (In_reports Hbase). rewrite Hn. repeat split; auto; apply Hd; auto.
        destruct H2 as [H2 _]. now apply HG in H2. }
    assert (Hnd : NoDup made) by (eapply Permutation_NoDup; [apply Permutation_sym; eauto|eapply NoDup_reports; eauto]). split.
    - enough (X : forall l, NoDup l -> (forall t, In t l -> In t made) -> NoDup (map sort3 l)) by auto. clear Hnd. induction l as [|t l IH]; intros Hnd Hin'; simpl; [constructor|].
      inversion Hnd; subst. constructor; [|apply IH; auto; intros; apply Hin'; now right]. intros Hx. apply in_map_iff in Hx as (t' & E' & Ht').
      apply H1. replace t with t'; auto. destruct t as [[a b] c], t' as [[a' b'] c'].
      assert (M1 : In (a, b, c) made) by (apply Hin'; now left). assert (M2 : In (a', b', c') made) by (apply Hin'; now right).
      apply HIn in M1, M2. destruct (sort3_perm a b c) as (x & y & z & Es & Hxyz & _). destruct (sort3_perm a' b' c') as (x' & y' & z' & Es' & Hxyz' & _).
      rewrite Es, Es' in E'. injection E' as -> -> ->. 
      assert (rk a < rk b < rk c) by lia. assert (rk a' < rk b' < rk c') by lia. clear - Hxyz Hxyz' H H0.
      destruct Hxyz as [(-> & -> & ->)|[(-> & -> & ->)|[(-> & -> & ->)|[(-> & -> & ->)|[(-> & -> & ->)|(-> & -> & ->)]]]]];
      destruct Hxyz' as [(<- & <- & <-)|[(<- & <- & <-)|[(<- & <- & <-)|[(<- & <- & <-)|[(<- & <- & <-)|(<- & <- & <-)]]]]]; auto; exfalso; lia.
    - intros t. rewrite in_map_iff. split.
      + intros ([[a b] c] & <- & Ht). apply HIn in Ht as (Ha & [H1 R1] & [H2 R2] & H3 & R3).
        assert (Hb' : b < gn G) by now apply HG in H1. assert (Hc' : c < gn G) by now apply HG in H2.
        assert (a <> b) by (intros ->; lia). assert (a <> c) by (intros ->; lia). assert (b <> c) by (intros ->; lia).
        assert (adj G b a) by now apply HG in H1. assert (adj G c a) by now apply HG in H2. assert (adj G c b) by now apply HG in H3.
        destruct (sort3_perm a b c) as (x & y & z & Es & Hxyz & Hle). rewrite Es. simpl.
        destruct Hxyz as [(-> & -> & ->)|[(-> & -> & ->)|[(-> & -> & ->)|[(-> & -> & ->)|[(-> & -> & ->)|(-> & -> & ->)]]]]]; repeat split; auto; lia.
      + destruct t as [[a b] c]. intros (Hlt' & Hc' & H1 & H2 & H3).
        assert (adj G b a) by (apply HG in H1; [tauto|lia]). assert (adj G c a) by (apply HG in H3; [tauto|lia]). assert (adj G c b) by (apply HG in H2; [tauto|lia]).
        assert (Ea : rk a <> rk b) by (intros X; apply Hrank in X; lia). assert (Eb : rk a <> rk c) by (intros X; apply Hrank in X; lia). assert (Ec : rk b <> rk c) by (intros X; apply Hrank in X; lia).
        assert (Hs3 : forall p q r, (p, q, r) = (a, b, c) \/ (p, q, r) = (a, c, b) \/ (p, q, r) = (b, a, c) \/ (p, q, r) = (b, c, a) \/ (p, q, r) = (c, a, b) \/ (p, q, r) = (c, b, a) ->
          sort3 (p, q, r) = (a, b, c)).
        { intros p q r X. unfold sort3. destruct X as [X|[X|[X|[X|[X|X]]]]]; injection X as -> -> ->; repeat apply f_equal2; lia. }
        assert (O : rk a < rk b < rk c \/ rk a < rk c < rk b \/ rk b < rk a < rk c \/ rk b < rk c < rk a \/ rk c < rk a < rk b \/ rk c < rk b < rk a) by lia.
        destruct O as [O|[O|[O|[O|[O|O]]]]]; [exists (a, b, c)|exists (a, c, b)|exists (b, a, c)|exists (b, c, a)|exists (c, a, b)|exists (c, b, a)];
          (split; [apply Hs3; tauto|apply HIn; repeat split; auto; lia]).
  Qed.
  Theorem triangles_run : exists count made, triangles_with thresh base bsz G rank count made.
  Proof.
    destruct (@C33_filter_graph unit (fun u x => rk u <? rk (fst x)) (fun l => l) (0, tt) G (fun l => Permutation_refl l)) as (DG & E & _).
    destruct (@dg_spec _ _ _ (fun l => Permutation_refl l) E) as [Hn Hd]. set (dg := fun v => map fst (neighbors DG v)) in *.
    assert (Hinc : forall v, v < gn DG -> increasing (dg v)) by (intros v Hv; apply Hd; lia).
    assert (Hlt : forall u v, u < gn DG -> In v (dg u) -> v < gn DG).
    { intros u v Hu Hv. rewrite Hn in *. apply Hd in Hv as [Hv _]; auto. now apply HG in Hv. }
    destruct (@balanced_runs thresh base bsz Hbase (gn DG) dg Hinc Hlt) as (count & made & H).
    exists count, made, (fun l => l), (0, tt), DG. auto.
  Qed.
End Oriented.

Lemma rank_nodes_ok o n : Permutation o (seq 0 n) ->
  (exists r, rank_nodes o r) /\ forall r, rank_nodes o r -> length r = n /\ forall i, i < n -> nth (nth i o 0) r 0 = i.
Proof.
  intros Hp. assert (Hl : length o = n) by now rewrite (Permutation_length Hp), seq_length.
  assert (Hin : forall i, i < n -> nth i o 0 < n).
  { intros i Hi. assert (X : In (nth i o 0) o) by (apply nth_In; lia). apply (Permutation_in _ Hp), in_seq in X. lia. }
  assert (Hnd : NoDup o) by (eapply Permutation_NoDup; [apply Permutation_sym; eauto|apply seq_NoDup]).
  assert (Hinj : forall i j, i < n -> j < n -> nth i o 0 = nth j o 0 -> i = j) by (intros i j Hi Hj E; apply (proj1 (NoDup_nth o 0) Hnd); auto; lia).
  assert (Hinv : exists f, forall i, i < n -> f (nth i o 0) = i).
  { exists (fun v => bsearch (map (fun x => if x =? v then 1 else 0) o) 1). intros i Hi.
    assert (X : forall l j v, nth_error l j = Some v -> NoDup l -> bsearch (map (fun x => if x =? v then 1 else 0) l) 1 = j).
    { clear. induction l as [|x l IH]; intros [|j] v E Hn; simpl in *; try discriminate.
      - injection E as ->. now rewrite Nat.eqb_refl.
      - inversion Hn; subst. assert (x <> v) by (intros ->; apply nth_error_In in E; auto). rewrite (proj2 (Nat.eqb_neq _ _) H). cbn. f_equal. now apply IH. }
    apply X; auto. apply nth_error_nth'. lia. }
  destruct Hinv as [f Hf].
  assert (R : forall order junk, Permutation order (map (fun i => (nth i o 0, i)) (seq 0 (length o))) ->
    exists r, run_stores order (repeat junk (length o)) = Some r /\ length r = n /\ forall i, i < n -> nth (nth i o 0) r 0 = i).
  { intros order junk Ho. destruct (@run_stores_consistent nat f n order (repeat junk (length o))) as (arr & E & Hla & HA).
    - rewrite repeat_length. auto.
    - intros k x Hx. apply (Permutation_in _ Ho) in Hx. apply in_map_iff in Hx as (i & Ei & Hi). injection Ei as <- <-. apply in_seq in Hi. rewrite Hf by lia. split; auto. apply Hin. lia.
    - exists arr. split; auto. split; auto. intros i Hi. destruct (HA (nth i o 0) (Hin i Hi)) as [[H1 _]|[_ H2]].
      + rewrite (nth_error_nth _ _ _ H1). auto.
      + exfalso. apply (H2 i). apply (Permutation_in _ (Permutation_sym Ho)). apply in_map_iff. exists i. split; auto. apply in_seq. lia. }
  split.
  - destruct (R _ 0 (Permutation_refl _)) as (r & E & _). exists r, (map (fun i => (nth i o 0, i)) (seq 0 (length o))), 0. auto.
  - intros r (order & junk & Ho & E). destruct (R _ junk Ho) as (r' & E' & H). rewrite E in E'. injection E' as <-. auto.
Qed.
Lemma rank_nodes_injective o n r : Permutation o (seq 0 n) -> rank_nodes o r -> injective_rank n r.
Proof.
  intros Hp Hr. destruct (@rank_nodes_ok _ _ Hp) as [_ H]. destruct (H r Hr) as [_ H'].
  assert (Hl : length o = n) by now rewrite (Permutation_length Hp), seq_length.
  intros u v Hu Hv E. assert (X : In u o) by (apply (Permutation_in _ (Permutation_sym Hp)), in_seq; lia). assert (Y : In v o) by (apply (Permutation_in _ (Permutation_sym Hp)), in_seq; lia).
  apply (In_nth _ _ 0) in X as (i & Hi & <-). apply (In_nth _ _ 0) in Y as (j & Hj & <-). rewrite !H' in E by lia. now subst.
Qed.
(* some order of the vertices by degree exists *)
Lemma sorted_exists (d : nat -> nat) n : exists o, Permutation o (seq 0 n) /\ forall i j, i <= j < n -> d (nth i o 0) <= d (nth j o 0).
Proof.
  assert (X : forall l, exists o, Permutation o l /\ StronglySorted (fun a b => d a <= d b) o).
  { induction l as [|x l (o & Hp & Hs)]; [exists []; split; constructor|].
    assert (Y : forall o, StronglySorted (fun a b => d a <= d b) o -> exists o', Permutation o' (x :: o) /\ StronglySorted (fun a b => d a <= d b) o').
    { clear. induction 1 as [|y o Hs IH Hf]; [exists [x]; split; auto; repeat constructor|]. destruct (Nat.le_gt_cases (d x) (d y)) as [H|H].
      - exists (x :: y :: o). split; auto. constructor; [constructor; auto|]. constructor; auto. eapply Forall_impl; [|exact Hf]. simpl. intros. lia.
      - destruct IH as (o' & Hp & Hs'). exists (y :: o'). split; [rewrite Hp; constructor|]. constructor; auto. rewrite Forall_forall in *. intros z Hz.
        apply (Permutation_in _ Hp) in Hz as [<-|Hz]; [lia|auto]. }
    destruct (Y o Hs) as (o' & Hp' & Hs'). exists o'. split; auto. rewrite Hp'. now constructor. }
  destruct (X (seq 0 n)) as (o & Hp & Hs). exists o. split; auto. assert (Hl : length o = n) by now rewrite (Permutation_length Hp), seq_length.
  clear Hp X. revert n Hl. induction Hs as [|x o Hs IH Hf]; simpl; intros n Hl i j [H1 H2]; [lia|]. destruct j as [|j]; [replace i with 0 by lia; auto|].
  destruct i as [|i]; [|apply (IH (length o)); auto; lia]. rewrite Forall_forall in Hf. apply Hf. apply nth_In. lia.
Qed.
