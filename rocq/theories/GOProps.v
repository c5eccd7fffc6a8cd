(* C62: the degeneracy orders of Goodrich-Pszona and Barenboim-Elkin. *)
From Coq Require Import Permutation Sorted.
From Verif Require Import Base ListUtil KCModel KCSpec TCModel TCProofs CQSpec GOModel GOSpec GOProofs.

(* Goodrich-Pszona: a run exists; every run gives every vertex its own rank below n; if the graph is
   d-degenerate, the vertex of rank r has at most 2 d (n - ns (r / ns)) / (n - r) later edges *)
Theorem C62_ranks n outn null ns : symmetric n outn -> (forall v, v < n -> length (outn v) <= null) -> 1 <= ns ->
  (exists rank, goodrich_returns n outn null ns rank) /\
  forall rank, goodrich_returns n outn null ns rank -> is_rank n rank.
Proof.
  intros Hs Hn Hns. split.
  - destruct (@gp_runs n outn null ns Hns n 0 (seq 0 n) (fun v => length (outn v))) as (s & H); [lia|].
    destruct (@rank_nodes_ok s n (gp_perm Hs Hn Hns H)) as [(r & Hr) _]. exists (fun v => nth v r 0), s, r. auto.
  - intros rank (s & r & H & Hr & E). destruct (@rank_of n s r (gp_perm Hs Hn Hns H) Hr) as [[I1 I2] _]. split.
    + intros u Hu. rewrite E. auto.
    + intros u v Hu Hv X. rewrite !E in X. auto.
Qed.
Print Assumptions C62_ranks.
Theorem C62_later n outn null ns rank d : symmetric n outn -> (forall v, v < n -> length (outn v) <= null) -> 1 <= ns ->
  degenerate n outn d -> goodrich_returns n outn null ns rank ->
  forall v, v < n -> later outn rank v * (n - rank v) <= 2 * d * (n - ns * (rank v / ns)).
Proof. intros Hs Hn Hns Hd H. exact (goodrich_later Hs Hn Hd Hns H). Qed.
Print Assumptions C62_later.

(* with epsilon = a / b, the vertices removed in the first round have at most (2 + epsilon) d later edges *)
Theorem C62_first_round n outn null a b rank d : symmetric n outn -> (forall v, v < n -> length (outn v) <= null) -> 0 < b ->
  degenerate n outn d -> goodrich_returns n outn null (peel_size n a b) rank ->
  forall v, v < n -> rank v < peel_size n a b -> later outn rank v * b <= (2 * b + a) * d.
Proof.
  intros Hs Hn Hb Hd H v Hv Hr. assert (Hns : 1 <= peel_size n a b) by apply Nat.le_max_r.
  pose proof (goodrich_later Hs Hn Hd Hns H Hv) as L. rewrite (Nat.div_small _ _ Hr), Nat.mul_0_r, Nat.sub_0_r in L.
  apply (@peel_first n a b d _ (rank v)); auto. destruct (C62_ranks Hs Hn Hns) as [_ R]. now apply R.
Qed.
Print Assumptions C62_first_round.

(* later rounds need not satisfy it: 26 isolated vertices (0-25), a root (46) with five children (47-51)
   of four leaves each (26-45), and epsilon = 2; the graph is a forest and the root has five later edges *)
Definition forest (v : nat) : list nat :=
  if v <? 26 then [] else if v <? 46 then [47 + (v - 26) / 4] else if v =? 46 then seq 47 5
  else if v <? 52 then seq (26 + 4 * (v - 47)) 4 ++ [46] else [].
Lemma below_52 (P : nat -> bool) : forallb P (seq 0 52) = true -> forall v, v < 52 -> P v = true.
Proof. intros H v Hv. rewrite forallb_forall in H. apply H, in_seq. lia. Qed.
Fixpoint incb (l : list nat) : bool := match l with x :: (y :: _) as r => (x <? y) && incb r | _ => true end.
Lemma incb_ok l : incb l = true -> ISSpec.increasing l.
Proof.
  intros H. apply Sorted_StronglySorted; [intros x y z; lia|]. induction l as [|x [|y l] IH]; try (repeat constructor; fail).
  cbn [incb] in H. apply andb_true_iff in H as [H1 H2]. constructor; auto. constructor. now apply Nat.ltb_lt.
Qed.
Lemma forest_graph : sgraph 52 forest.
Proof.
  intros u Hu. split.
  - apply incb_ok. revert u Hu. apply below_52. vm_compute. reflexivity.
  - intros v Hv. assert (X : forallb (fun v => (v <? 52) && existsb (Nat.eqb u) (forest v)) (forest u) = true) by (clear v Hv; revert u Hu; apply below_52; vm_compute; reflexivity).
    rewrite forallb_forall in X. apply X in Hv. apply andb_true_iff in Hv as [H1 H2]. apply Nat.ltb_lt in H1. split; auto.
    apply existsb_exists in H2 as (w & Hw & E). apply Nat.eqb_eq in E. now subst.
Qed.
Lemma forest_loops v : v < 52 -> ~ In v (forest v).
Proof.
  intros Hv H. assert (X : existsb (Nat.eqb v) (forest v) = true) by (apply existsb_exists; exists v; split; auto; apply Nat.eqb_refl).
  assert (Y : negb (existsb (Nat.eqb v) (forest v)) = true) by (clear X H; revert v Hv; apply below_52; vm_compute; reflexivity). rewrite X in Y. discriminate.
Qed.
Lemma forest_degenerate : degenerate 52 forest 1.
Proof.
  apply order_degenerate with (rank := fun v => if v =? 46 then 51 else if v <? 47 then v else v - 1).
  - intros u v Hu Hv. now apply (forest_graph Hu).
  - split.
    + intros u Hu. destruct (Nat.eqb_spec u 46), (Nat.ltb_spec u 47); lia.
    + intros u v Hu Hv. destruct (Nat.eqb_spec u 46), (Nat.ltb_spec u 47), (Nat.eqb_spec v 46), (Nat.ltb_spec v 47); lia.
  - exact forest_loops.
  - intros v Hv. apply Nat.leb_le. revert v Hv. apply below_52. vm_compute. reflexivity.
Qed.
Lemma sorted_seq f a k : (forall i, a <= i -> S i < a + k -> f i <= f (S i)) -> sorted_by f (seq a k).
Proof.
  intros H. apply Sorted_StronglySorted; [intros x y z; lia|]. revert a H. induction k as [|k IH]; intros a H; [constructor|]. cbn [seq]. constructor.
  - apply IH. intros i H1 H2. apply H; lia.
  - destruct k; constructor. apply H; lia.
Qed.
Lemma forest_sorted a k : a + k <= 52 -> sorted_by (fun v => length (forest v)) (seq a k).
Proof.
  intros Ha. apply sorted_seq. intros i H1 H2. apply Nat.leb_le.
  assert (X : i <? 51 = true -> (length (forest i) <=? length (forest (S i))) = true).
  { assert (Y : implb (i <? 51) (length (forest i) <=? length (forest (S i))) = true) by (assert (Hi : i < 52) by lia; clear H1 H2 Ha; revert i Hi; apply below_52; vm_compute; reflexivity).
    intros Z. now rewrite Z in Y. }
  apply X, Nat.ltb_lt. lia.
Qed.
Theorem C62_approx_refuted : exists n outn a b d, sgraph n outn /\ (forall v, v < n -> ~ In v (outn v)) /\ 0 < b /\ degenerate n outn d /\
  forall null, n <= null -> exists rank v, goodrich_returns n outn null (peel_size n a b) rank /\ v < n /\ (2 * b + a) * d < later outn rank v * b.
Proof.
  exists 52, forest, 2, 1, 1. split; [exact forest_graph|]. split; [exact forest_loops|]. split; [lia|]. split; [exact forest_degenerate|].
  intros null Hn. change (peel_size 52 2 1) with 26.
  destruct (@rank_nodes_ok (seq 0 52) 52 (Permutation_refl _)) as [(r & Hr) R]. destruct (R r Hr) as [_ R'].
  destruct (KCProofs.counted_exists (flat_map forest (firstn 26 (seq 26 26)))) as (res & Hres).
  exists (fun v => nth v r 0), 46. split; [|split; [lia|]].
  - exists (seq 0 52), r. split; [|auto].
    apply gp_round with (srt := seq 0 52) (res := []); [lia|reflexivity|now apply forest_sorted| |].
    { split; [constructor|]. intros v c. split; [intros []|]. intros [-> H]. vm_compute in H. lia. }
    apply gp_round with (srt := seq 26 26) (res := res); [lia|reflexivity|now apply forest_sorted|exact Hres|].
    apply gp_done. lia.
  - assert (E : forall v, v < 52 -> nth v r 0 = v) by (intros v Hv; rewrite <- (R' v Hv) at 2; now rewrite seq_nth by lia).
    unfold later. change (forest 46) with [47; 48; 49; 50; 51]. cbn [filter]. rewrite !E by lia. vm_compute. lia.
Qed.
Print Assumptions C62_approx_refuted.

(* Barenboim-Elkin: every run that returns gives a rank; if some vertex has degree below the cutoff, every
   run returns and ranks all vertices of degree at least the cutoff BEFORE all vertices of lower degree;
   if there are two vertices or more and all degrees exceed the cutoff, every run aborts *)
Theorem C62_barenboim_elkin_refuted n outn null cutoff : sgraph n outn -> (forall v, v < n -> ~ In v (outn v)) -> n <= null -> 1 <= cutoff ->
  (exists rank, barenboim_elkin_returns n outn null cutoff rank) /\
  forall rank, barenboim_elkin_returns n outn null cutoff rank ->
  (forall f, rank = Some f -> is_rank n f) /\
  ((exists v, v < n /\ length (outn v) < cutoff) ->
    exists f, rank = Some f /\ forall u v, u < n -> v < n -> length (outn v) < cutoff -> cutoff <= length (outn u) -> f u < f v) /\
  (2 <= n -> (forall v, v < n -> cutoff < length (outn v)) -> rank = None).
Proof.
  intros Hg Hl Hn Hc. assert (Hs := sgraph_symmetric Hg).
  assert (Hnull : forall v, v < n -> length (outn v) <= null).
  { intros v Hv. etransitivity; [|exact Hn]. rewrite <- (seq_length n 0). apply NoDup_incl_length; [apply CQCount.inc_nodup; now apply Hg|].
    intros w Hw. apply in_seq. apply (Hg v Hv) in Hw. lia. }
  split.
  - destruct (@be_runs n outn null cutoff n 0 (seq 0 n) (fun v => length (outn v))) as ([s|] & H); [lia| |].
    + destruct (@rank_nodes_ok s n (be_perm H (Permutation_refl _) eq_refl)) as [(r & Hr) _]. exists (Some (fun v => nth v r 0)), (Some s). split; auto.
      exists r, (fun v => nth v r 0). auto.
    + exists None, None. auto.
  - intros rank ([s|] & H & Hr).
    + destruct Hr as (r & f & Hr & Hf & ->). assert (Hp := be_perm H (Permutation_refl _) eq_refl). destruct (@rank_of n s r Hp Hr) as [[I1 I2] I3].
      split; [|split].
      * intros g E. injection E as <-. split; [intros u Hu; rewrite Hf; auto|]. intros u v Hu Hv X. rewrite !Hf in X. auto.
      * intros Hlow. destruct (be_low Hs Hl Hnull Hc Hlow H) as (srt & E & _ & Hst). injection E as <-. exists f. split; auto.
        intros u v Hu Hv H1 H2. destruct (Nat.lt_ge_cases (f u) (f v)) as [|C]; auto. exfalso. rewrite !Hf in C.
        destruct (I3 u Hu) as [U1 U2], (I3 v Hv) as [V1 V2].
        assert (Hls : length s = n) by now rewrite (Permutation_length Hp), seq_length.
        assert (X : (if length (outn v) <? cutoff then 1 else 0) <= (if length (outn u) <? cutoff then 1 else 0)).
        { rewrite <- V2. rewrite <- U2. apply (sorted_nth Hst); [lia|]. rewrite <- (firstn_skipn (nth v r 0) s) at 1.
          rewrite app_nth2; rewrite firstn_length_le by lia; [|lia]. apply nth_In. rewrite skipn_length. lia. }
        destruct (Nat.ltb_spec (length (outn v)) cutoff), (Nat.ltb_spec (length (outn u)) cutoff); lia.
      * intros H2 Hd. exfalso. assert (X : Some s = None); [|discriminate]. apply (be_high Hs Hl Hnull Hc H2) in H; auto. intros v Hv. split; auto.
        apply CQCount.inc_nodup. now apply Hg.
    + subst rank. split; [discriminate|]. split; [|auto]. intros Hlow. destruct (be_low Hs Hl Hnull Hc Hlow H) as (srt & E & _). discriminate.
Qed.
Print Assumptions C62_barenboim_elkin_refuted.

(* the hypotheses are met by the forest above, and those of the last two cases by a cutoff of 2 and by K4 *)
Example C62_ex : symmetric 52 forest /\ (forall v, v < 52 -> length (forest v) <= 100) /\ degenerate 52 forest 1 /\
  (exists v, v < 52 /\ length (forest v) < 2) /\ 2 <= length (forest 46) /\ peel_size 52 2 1 = 26 /\
  sgraph 4 (fun v => filter (fun w => negb (w =? v)) (seq 0 4)) /\
  forall v, v < 4 -> 2 < length (filter (fun w => negb (w =? v)) (seq 0 4)) /\ ~ In v (filter (fun w => negb (w =? v)) (seq 0 4)).
Proof.
  split; [exact (sgraph_symmetric forest_graph)|]. split.
  { intros v Hv. apply Nat.leb_le. revert v Hv. apply below_52. vm_compute. reflexivity. }
  split; [exact forest_degenerate|]. split; [exists 0; vm_compute; lia|]. split; [vm_compute; lia|]. split; [reflexivity|]. split.
  - intros u Hu. assert (C : u = 0 \/ u = 1 \/ u = 2 \/ u = 3) by lia. split.
    + apply incb_ok. destruct C as [->|[->|[->| ->]]]; reflexivity.
    + intros v Hv. apply filter_In in Hv as [H1 H2]. apply in_seq in H1. split; [lia|]. apply filter_In. split; [apply in_seq; lia|]. now rewrite Nat.eqb_sym.
  - intros v Hv. split; [assert (C : v = 0 \/ v = 1 \/ v = 2 \/ v = 3) by lia; destruct C as [->|[->|[->| ->]]]; vm_compute; lia|].
    intros H. apply filter_In in H as [_ H]. rewrite Nat.eqb_refl in H. discriminate.
Qed.
