(* C68: counting the five-cycles. *)
From Coq Require Import ZArith Permutation Sorted.
From Verif Require Import Base ListUtil GBModel GBProofs ISModel SFModel SFProps KCSpec CQSpec GOModel GOProps TCModel TCSpec TCProofs FCSpec FCModel FCCount FCKow FCEsc FCFinal.
Unset Strict Implicit.
Local Open Scope nat_scope.

Definition no_workers : nat -> option fast_reset := fun _ => None.

(* Count5Cycle_serial: whatever the ranks, the number of five-cycles modulo 2^64 *)
Theorem C68_serial G rank out k : plain_graph G -> (Z.of_nat (gn G) < 2 ^ 32)%Z -> distinct_ranks (gn G) rank -> number_of_five_cycles G k ->
  count5_serial G rank out -> out = Some (Z.of_nat k mod 2 ^ 64)%Z.
Proof. intros HG Hn Hr Hk (GDO & DGDO & ((o & [Ho _] & HR) & HD) & ->). exact (kow_serial HG Hn Hk Hr Ho HR HD). Qed.
Print Assumptions C68_serial.

(* Count5Cycle and Count5Cycle_no_scheduling *)
Lemma count5_clean bsz G rank ws out k : 2 <= bsz -> plain_graph G -> (Z.of_nat (gn G) < 2 ^ 32)%Z -> distinct_ranks (gn G) rank -> number_of_five_cycles G k ->
  clean_workers (gn G) ws -> count5 G bsz rank ws out ->
  (out = None /\ forall u v, u < gn G -> ~ adj G u v) \/
  exists ws', out = Some ((Z.of_nat k mod 2 ^ 64)%Z, ws') /\ clean_workers (gn G) ws' /\ exists u v, u < gn G /\ adj G u v.
Proof.
  intros Hb HG Hn Hr Hk Hw (GDO & DGDO & ((o & [Ho _] & HR) & HD) & H). destruct (n_blocks bsz (gn G) (nbrs GDO)) as [nb|] eqn:E.
  - right. destruct H as (who & order & Hp & ->).
    destruct (@kow_blocks G HG Hn k Hk rank GDO DGDO o Hr Ho HR HD nb (block bsz (gn G) (nbrs GDO)) who order ws) as (ws' & E1 & E2 & _); auto.
    + intros b i _. now apply block_lt.
    + now apply blocks_cover.
    + exists ws'. split; [exact E1|]. split; auto.
      destruct (@total_zero G GDO o HG Ho HR) as [_ T]. assert (X : ~ forall u v, u < gn G -> ~ adj G u v).
      { intros Y. apply T, (@n_blocks_none bsz (gn G) (nbrs GDO) Hb) in Y. congruence. }
      destruct (Exists_dec (fun p => adj G (fst p) (snd p)) (list_prod (seq 0 (gn G)) (seq 0 (gn G)))) as [Y|Y]; [intros p; apply adj_dec| |].
      * apply Exists_exists in Y as ((u & v) & Hp' & Ha). apply in_prod_iff in Hp' as [Hu _]. apply in_seq in Hu. exists u, v. split; auto. lia.
      * exfalso. apply X. intros u v Hu Ha. apply Y, Exists_exists. exists (u, v). split; auto. apply in_prod; apply in_seq; [lia|]. apply HG in Ha as [Hv _]; auto. lia.
  - left. split; auto. apply (@total_zero G GDO o HG Ho HR). now apply (@n_blocks_none bsz).
Qed.
Lemma clean_less n m ws : n <= m -> clean_workers m ws -> clean_workers n ws.
Proof. intros H C p V E. destruct (C p V E) as (A & B). split; auto. lia. Qed.
Lemma smaller n m : n <= m -> (Z.of_nat m < 2 ^ 32)%Z -> (Z.of_nat n < 2 ^ 32)%Z.
Proof. lia. Qed.
Lemma after_count5 bsz n ws : 2 <= bsz -> after_calls (fun G rank ws out => (Z.of_nat (gn G) < 2 ^ 32)%Z /\ count5 G bsz rank ws out) no_workers n ws -> clean_workers n ws.
Proof.
  intros Hb. induction 1 as [n|n G rank s c s' H IH HG Hr [Hn Hc] Hle]; [discriminate|]. destruct (number_exists HG) as (k & Hk).
  destruct (count5_clean Hb HG Hn Hr Hk IH Hc) as [[E _]|(ws' & E & C & _)]; [discriminate|]. injection E as _ <-. exact (clean_less Hle C).
Qed.
(* block_size is 5000000 in Count5Cycle *)
Theorem C68_parallel bsz G rank ws out k : 2 <= bsz -> plain_graph G -> (Z.of_nat (gn G) < 2 ^ 32)%Z -> distinct_ranks (gn G) rank -> number_of_five_cycles G k ->
  after_calls (fun G rank ws out => (Z.of_nat (gn G) < 2 ^ 32)%Z /\ count5 G bsz rank ws out) no_workers (gn G) ws ->
  (exists u v, u < gn G /\ adj G u v) -> count5 G bsz rank ws out -> exists ws', out = Some ((Z.of_nat k mod 2 ^ 64)%Z, ws').
Proof.
  intros Hb HG Hn Hr Hk Hw (u & v & Hu & Ha) H. apply after_count5 in Hw; auto. destruct (count5_clean Hb HG Hn Hr Hk Hw H) as [[_ N]|(ws' & E & _)]; eauto. destruct (N u v Hu Ha).
Qed.
Print Assumptions C68_parallel.
(* without an edge it divides by zero *)
Theorem C68_parallel_no_edges bsz G rank ws out : 2 <= bsz -> plain_graph G -> (forall u v, u < gn G -> ~ adj G u v) -> count5 G bsz rank ws out -> out = None.
Proof.
  intros Hb HG HN (GDO & DGDO & ((o & [Ho _] & HR) & HD) & H). apply (@total_zero G GDO o HG Ho HR) in HN. apply (@n_blocks_none bsz) in HN; auto. now rewrite HN in H.
Qed.
Print Assumptions C68_parallel_no_edges.

Lemma no_scheduling_clean G rank ws out k : plain_graph G -> (Z.of_nat (gn G) < 2 ^ 32)%Z -> distinct_ranks (gn G) rank -> number_of_five_cycles G k ->
  clean_workers (gn G) ws -> count5_no_scheduling G rank ws out ->
  exists ws', out = Some ((Z.of_nat k mod 2 ^ 64)%Z, ws') /\ clean_workers (gn G) ws'.
Proof.
  intros HG Hn Hr Hk Hw (GDO & DGDO & who & order & ((o & [Ho _] & HR) & HD) & Hp & ->).
  destruct (@kow_blocks G HG Hn k Hk rank GDO DGDO o Hr Ho HR HD (gn G) (fun i => [i]) who order ws) as (ws' & E1 & E2 & _); auto.
  - now intros b i Hb [<-|[]].
  - generalize (seq 0 (gn G)). induction l as [|x l IH]; cbn; auto. now rewrite IH.
  - eauto.
Qed.
Lemma after_no_scheduling n ws : after_calls (fun G rank ws out => (Z.of_nat (gn G) < 2 ^ 32)%Z /\ count5_no_scheduling G rank ws out) no_workers n ws -> clean_workers n ws.
Proof.
  induction 1 as [n|n G rank s c s' H IH HG Hr [Hn Hc] Hle]; [discriminate|]. destruct (number_exists HG) as (k & Hk).
  destruct (no_scheduling_clean HG Hn Hr Hk IH Hc) as (ws' & E & C). injection E as _ <-. exact (clean_less Hle C).
Qed.
Theorem C68_no_scheduling G rank ws out k : plain_graph G -> (Z.of_nat (gn G) < 2 ^ 32)%Z -> distinct_ranks (gn G) rank -> number_of_five_cycles G k ->
  after_calls (fun G rank ws out => (Z.of_nat (gn G) < 2 ^ 32)%Z /\ count5_no_scheduling G rank ws out) no_workers (gn G) ws ->
  count5_no_scheduling G rank ws out -> exists ws', out = Some ((Z.of_nat k mod 2 ^ 64)%Z, ws').
Proof. intros HG Hn Hr Hk Hw H. apply after_no_scheduling in Hw. destruct (no_scheduling_clean HG Hn Hr Hk Hw H) as (ws' & E & _). eauto. Qed.
Print Assumptions C68_no_scheduling.

(* Count5Cycle_ESCAPE and Count5Cycle_ESCAPE_par, whatever the order of the vertices *)
Theorem C68_escape G out k : plain_graph G -> (Z.of_nat (gn G) < 2 ^ 32)%Z -> number_of_five_cycles G k ->
  count5_escape G out -> out = Some (Z.of_nat k mod 2 ^ 64)%Z.
Proof. intros HG Hn Hk (GDO & OUTG & ING & HE & ->). exact (esc_serial HG Hn Hk HE). Qed.
Print Assumptions C68_escape.
Theorem C68_escape_par bsz G out k : 2 <= bsz -> plain_graph G -> (Z.of_nat (gn G) < 2 ^ 32)%Z -> number_of_five_cycles G k ->
  count5_escape_par G bsz out ->
  ((exists u v, u < gn G /\ adj G u v) -> out = Some (Z.of_nat k mod 2 ^ 64)%Z) /\ ((forall u v, u < gn G -> ~ adj G u v) -> out = None).
Proof.
  intros Hb HG Hn Hk (GDO & OUTG & ING & HE & H). destruct (esc_facts HG HE) as (o & Ho & HR & _). pose proof (@total_zero G GDO o HG Ho HR) as T. pose proof (@n_blocks_none bsz (gn G) (nbrs GDO) Hb) as NB.
  destruct (n_blocks bsz (gn G) (nbrs GDO)) as [nb|] eqn:E.
  - destruct H as (order & Hp & ->). split.
    + intros _. apply (esc_blocks HG Hn Hk HE); auto; [intros b i; now apply block_lt|now apply blocks_cover].
    + intros X. apply T, NB in X. discriminate.
  - subst out. split; auto. intros (u & v & Hu & Ha). destruct (proj1 T (proj1 NB eq_refl) u v Hu Ha).
Qed.
Print Assumptions C68_escape_par.

(* every program has a run *)
Theorem C68_runs bsz G rank ws : plain_graph G ->
  (exists out, count5_serial G rank out) /\ (exists out, count5 G bsz rank ws out) /\ (exists out, count5_no_scheduling G rank ws out) /\
  (exists out, count5_escape G out) /\ (exists out, count5_escape_par G bsz out).
Proof.
  intros HG. destruct (degree_order_exists G) as (o & Ho). destruct (@relabel_exists G o (proj1 Ho)) as (GDO & HR).
  assert (F : forall p : nat -> nat * unit -> bool, exists D, filter_graph p (fun l => l) (0, tt) GDO = Some D).
  { intros p. destruct (@C33_filter_graph unit p (fun l => l) (0, tt) GDO (fun l => Permutation_refl l)) as (D & E & _). now exists D. }
  destruct (F (fun u x => nth u rank 0 <? nth (fst x) rank 0)) as (DGDO & HD), (F (fun u x => u <? fst x)) as (OUTG & HO), (F (fun u x => fst x <? u)) as (ING & HI).
  assert (P : preprocess G rank GDO DGDO) by (split; [eauto|exists (fun l => l), (0, tt); auto]).
  assert (Q : escape_graphs G GDO OUTG ING) by (exists o; split; [apply Ho|]; split; auto; exists (fun l => l), (fun l => l), (0, tt), (0, tt); auto).
  split; [|split; [|split; [|split]]].
  - now exists (serial (nbrs GDO) (nbrs DGDO) (gn G)), GDO, DGDO.
  - destruct (n_blocks bsz (gn G) (nbrs GDO)) as [nb|] eqn:E.
    + exists (run_blocks (nbrs GDO) (nbrs DGDO) (gn G) nb (block bsz (gn G) (nbrs GDO)) (fun _ => 0) (seq 0 nb) ws), GDO, DGDO. split; auto. rewrite E. now exists (fun _ => 0), (seq 0 nb).
    + exists None, GDO, DGDO. split; auto. now rewrite E.
  - now exists (no_scheduling (nbrs GDO) (nbrs DGDO) (gn G) (fun _ => 0) (seq 0 (gn G)) ws), GDO, DGDO, (fun _ => 0), (seq 0 (gn G)).
  - now exists (escape_serial (gn G) (nbrs GDO) (nbrs OUTG) (nbrs ING)), GDO, OUTG, ING.
  - destruct (n_blocks bsz (gn G) (nbrs GDO)) as [nb|] eqn:E.
    + exists (escape_blocks (gn G) (nbrs GDO) (nbrs OUTG) (nbrs ING) nb (block bsz (gn G) (nbrs GDO)) (seq 0 nb)), GDO, OUTG, ING. split; auto. rewrite E. now exists (seq 0 nb).
    + exists None, GDO, OUTG, ING. split; auto. now rewrite E.
Qed.
Print Assumptions C68_runs.

(* the ranks of order_type 0 (Goodrich-Pszona on the relabelled graph) and 2 (the labels) differ *)
Theorem C68_ranks G o GDO null ns rank : plain_graph G -> by_decreasing_degree G o -> relabeled G o GDO -> gn G <= null -> 1 <= ns ->
  goodrich_returns (gn G) (nbrs GDO) null ns rank -> distinct_ranks (gn G) (map rank (seq 0 (gn G))) /\ distinct_ranks (gn G) (seq 0 (gn G)).
Proof.
  intros HG [Ho _] HR Hnull Hns H. assert (ND : forall u, u < gn G -> NoDup (nbrs GDO u)) by (intros u Hu; exact (decreasing_NoDup (H_dec HG Ho HR Hu))).
  assert (LT : forall u v, u < gn G -> In v (nbrs GDO u) -> v < gn G) by (intros u v Hu Hv; now apply (H_sym HG Ho HR Hu)).
  assert (S : symmetric (gn G) (nbrs GDO)).
  { split; [intros u v Hu Hv; now apply (LT u)|]. intros u v Hu Hv. pose proof (H_sym HG Ho HR (u := u) (v := v) Hu) as S1. pose proof (H_sym HG Ho HR (u := v) (v := u) Hv) as S2.
    assert (Z : forall l x, NoDup l -> count_occ Nat.eq_dec l x = if in_dec Nat.eq_dec x l then 1 else 0).
    { intros l x Hl. destruct (in_dec Nat.eq_dec x l) as [I|I]; [now apply NoDup_count_occ'|now apply count_occ_not_In]. }
    rewrite !Z by auto. destruct (in_dec Nat.eq_dec v (nbrs GDO u)) as [I|I], (in_dec Nat.eq_dec u (nbrs GDO v)) as [J|J]; auto; exfalso; tauto. }
  destruct (@C62_ranks (gn G) (nbrs GDO) null ns S) as [_ R]; auto.
  { intros v Hv. transitivity (gn G); auto. rewrite <- (seq_length (gn G) 0). apply NoDup_incl_length; auto. intros x Hx. apply in_seq. specialize (LT v x Hv Hx). lia. }
  destruct (R rank H) as [_ R2]. split.
  - intros u v Hu Hv. rewrite !nth_map_seq by auto. auto.
  - intros u v Hu Hv. rewrite !seq_nth by auto. auto.
Qed.
Print Assumptions C68_ranks.

(* a graph from the neighbours of every vertex *)
Definition of_rows (rows : list (list nat)) : csr unit :=
  let degree i := length (nth i rows []) in
  {| gn := length rows; gm := sum_before degree (length rows); goff := map (sum_before degree) (seq 0 (length rows));
     gdeg := map (fun i => sum_before degree (i + 1) - sum_before degree i) (seq 0 (length rows)); gngh := map (fun v => (v, tt)) (concat rows) |}.
Ltac identity_run rows := exists (seq 0 (length rows)), (map (map (fun v => (v, tt))) rows);
  split; [exists (map (fun i => (i, i)) (seq 0 (length rows))), 0; split; [cbn; apply Permutation_refl|reflexivity]|];
  split; [reflexivity|]; split; [|reflexivity];
  let i := fresh in let Hi := fresh in intros i Hi; cbn in Hi; repeat (destruct i as [|i]; [split; [cbn; apply Permutation_refl|cbn; repeat constructor]|]); lia.

(* Self loops: a cycle of four vertices, each with a self loop, has no five-cycle, and 2^32 are counted *)
Definition loops_rows := [[3;1;0];[2;1;0];[3;2;1];[3;2;0]].
Theorem C68_self_loops_refuted : exists G, (forall u, u < gn G -> NoDup (map fst (neighbors G u)) /\ forall v, adj G u v -> v < gn G /\ adj G v u) /\
  number_of_five_cycles G 0 /\ distinct_ranks (gn G) (seq 0 (gn G)) /\ count5_serial G (seq 0 (gn G)) (Some (2 ^ 32)%Z).
Proof.
  exists (of_rows loops_rows).
  assert (R : forall u, u < 4 -> forall v, adj (of_rows loops_rows) u v -> v < 4 /\ adj (of_rows loops_rows) v u).
  { intros u Hu v Ha. do 4 (destruct u as [|u]; [vm_compute in Ha; repeat (destruct Ha as [<-|Ha]; [split; [lia|vm_compute; auto]|]); destruct Ha|]). lia. }
  split; [|split; [|split]].
  - intros u Hu. cbn in Hu. split; [|now apply R]. do 4 (destruct u as [|u]; [vm_compute; repeat constructor; cbn; lia|]). lia.
  - exists []. split; [constructor|]. split; [|reflexivity]. intros ((((a & b) & c) & d) & e). split; [intros []|].
    intros (Ha & ND & A1 & A2 & A3 & A4 & A5 & _). change (gn (of_rows loops_rows)) with 4 in Ha. apply R in A1 as [Hb _]; auto. apply R in A2 as [Hc _]; auto. apply R in A3 as [Hd _]; auto. apply R in A4 as [He _]; auto.
    apply NoDup_incl_length with (l' := seq 0 4) in ND; [cbn in ND; lia|]. intros x Hx. apply in_seq. cbn in Hx. intuition (subst; lia).
  - intros u v Hu Hv. rewrite !seq_nth by auto. auto.
  - destruct (filter_graph (fun u x => nth u (seq 0 4) 0 <? nth (fst x) (seq 0 4) 0) (fun l => l) (0, tt) (of_rows loops_rows)) as [D|] eqn:E; [|vm_compute in E; discriminate].
    exists (of_rows loops_rows), D. split.
    + split; [|exists (fun l => l), (0, tt); split; auto]. exists (seq 0 4). split.
      * split; [apply Permutation_refl|]. intros i j Hij. cbn in Hij. do 4 (destruct j as [|j]; [do 4 (destruct i as [|i]; [vm_compute; lia|]); lia|]). lia.
      * identity_run loops_rows.
    + vm_compute in E. injection E as <-. vm_compute. reflexivity.
Qed.
Print Assumptions C68_self_loops_refuted.

(* A second call on a larger graph: after a call on one edge, a call on a cycle of five vertices writes
   outside the arrays that the first one left *)
Definition edge_rows := [[1];[0]].
Definition cycle_rows := [[4;1];[2;0];[3;1];[4;2];[3;0]].
Fixpoint nodupb (l : list nat) : bool := match l with [] => true | x :: l' => negb (existsb (Nat.eqb x) l') && nodupb l' end.
Lemma nodupb_ok l : nodupb l = true <-> NoDup l.
Proof.
  induction l as [|x l IH]; cbn [nodupb]; [split; auto; constructor|]. rewrite andb_true_iff, negb_true_iff, IH, NoDup_cons_iff. apply and_iff_compat_r. split.
  - intros H Hx. assert (X : existsb (Nat.eqb x) l = true) by (apply existsb_exists; exists x; split; auto; apply Nat.eqb_refl). congruence.
  - intros H. destruct (existsb (Nat.eqb x) l) eqn:E; auto. apply existsb_exists in E as (y & Hy & E). apply Nat.eqb_eq in E. subst. contradiction.
Qed.
Lemma plain_check rows : forallb (fun u => forallb (fun v => (v <? length rows) && negb (v =? u) && existsb (Nat.eqb u) (map fst (neighbors (of_rows rows) v))) (map fst (neighbors (of_rows rows) u))) (seq 0 (length rows)) = true ->
  forallb (fun u => nodupb (map fst (neighbors (of_rows rows) u))) (seq 0 (length rows)) = true -> plain_graph (of_rows rows).
Proof.
  intros H1 H2 u Hu. cbn [of_rows gn] in *. rewrite forallb_forall in H1, H2. specialize (H1 u). specialize (H2 u). rewrite in_seq in H1, H2. specialize (H1 ltac:(lia)). specialize (H2 ltac:(lia)). rewrite forallb_forall in H1.
  split; [now apply nodupb_ok|]. split.
  - intros Ha. apply H1 in Ha. rewrite Nat.eqb_refl, andb_false_r in Ha. discriminate.
  - intros v Ha. apply H1 in Ha. apply andb_true_iff in Ha as [Ha Hx]. apply andb_true_iff in Ha as [Ha _]. apply Nat.ltb_lt in Ha. split; auto.
    apply existsb_exists in Hx as (y & Hy & E). apply Nat.eqb_eq in E. subst y. exact Hy.
Qed.
Theorem C68_larger_graph_refuted : exists bsz G1 G2 c ws, 2 <= bsz /\ plain_graph G1 /\ plain_graph G2 /\ (exists u v, u < gn G2 /\ adj G2 u v) /\
  count5 G1 bsz (seq 0 (gn G1)) no_workers (Some (c, ws)) /\ count5 G2 bsz (seq 0 (gn G2)) ws None.
Proof.
  destruct (filter_graph (fun u x => nth u (seq 0 2) 0 <? nth (fst x) (seq 0 2) 0) (fun l => l) (0, tt) (of_rows edge_rows)) as [D|] eqn:E; [|vm_compute in E; discriminate].
  destruct (filter_graph (fun u x => nth u (seq 0 5) 0 <? nth (fst x) (seq 0 5) 0) (fun l => l) (0, tt) (of_rows cycle_rows)) as [D'|] eqn:E'; [|vm_compute in E'; discriminate].
  destruct (run_blocks (nbrs (of_rows edge_rows)) (nbrs D) 2 2 (block 50 2 (nbrs (of_rows edge_rows))) (fun _ => 0) (seq 0 2) no_workers) as [[c ws]|] eqn:ER.
  2:{ exfalso. vm_compute in E. injection E as <-. vm_compute in ER. discriminate. }
  exists 50, (of_rows edge_rows), (of_rows cycle_rows), c, ws. split; [lia|]. split; [apply plain_check; vm_compute; reflexivity|]. split; [apply plain_check; vm_compute; reflexivity|].
  split; [exists 0, 1; split; [cbn; lia|vm_compute; auto]|]. split.
  - exists (of_rows edge_rows), D. split.
    + split; [|exists (fun l => l), (0, tt); split; auto]. exists (seq 0 2). split.
      * split; [apply Permutation_refl|]. intros i j Hij. cbn in Hij. do 2 (destruct j as [|j]; [do 2 (destruct i as [|i]; [vm_compute; lia|]); lia|]). lia.
      * identity_run edge_rows.
    + assert (X : n_blocks 50 (gn (of_rows edge_rows)) (nbrs (of_rows edge_rows)) = Some 2) by (vm_compute; reflexivity). rewrite X. exists (fun _ => 0), (seq 0 2). split; auto.
  - exists (of_rows cycle_rows), D'. split.
    + split; [|exists (fun l => l), (0, tt); split; auto]. exists (seq 0 5). split.
      * split; [apply Permutation_refl|]. intros i j Hij. cbn in Hij. do 5 (destruct j as [|j]; [do 5 (destruct i as [|i]; [vm_compute; lia|]); lia|]). lia.
      * identity_run cycle_rows.
    + assert (X : n_blocks 50 (gn (of_rows cycle_rows)) (nbrs (of_rows cycle_rows)) = Some 2) by (vm_compute; reflexivity). rewrite X. exists (fun _ => 0), (seq 0 2). split; auto.
      vm_compute in E, E'. injection E as <-. injection E' as <-. vm_compute in ER. injection ER as _ <-. vm_compute. reflexivity.
Qed.
Print Assumptions C68_larger_graph_refuted.

(* Non-vacuity: the complete graph on five vertices has twelve five-cycles *)
Definition k5_rows := [[1;2;3;4];[0;2;3;4];[4;3;1;0];[0;1;2;4];[0;1;2;3]].
Definition five_cycleb (G : csr unit) (t : nat * nat * nat * nat * nat) : bool :=
  let '(a, b, c, d, e) := t in
  let adjb u v := existsb (Nat.eqb v) (map fst (neighbors G u)) in
  (a <? gn G) && nodupb [a; b; c; d; e] &&
  adjb a b && adjb b c && adjb c d && adjb d e && adjb e a && ((a <? b) && (a <? c) && (a <? d) && (a <? e)) && (b <? e).
Lemma five_cycleb_ok G t : five_cycleb G t = true <-> five_cycle G t.
Proof.
  destruct t as ((((a & b) & c) & d) & e). unfold five_cycleb, five_cycle, adj. cbv zeta. rewrite !andb_true_iff, !Nat.ltb_lt.
  assert (X : forall v l, existsb (Nat.eqb v) l = true <-> In v l).
  { intros v l. rewrite existsb_exists. split; [intros (y & Hy & E); apply Nat.eqb_eq in E; now subst|intros H; exists v; split; auto; apply Nat.eqb_refl]. }
  rewrite !X, nodupb_ok. tauto.
Qed.
Definition below5 : list (nat * nat * nat * nat * nat) := list_prod (list_prod (list_prod (list_prod (seq 0 5) (seq 0 5)) (seq 0 5)) (seq 0 5)) (seq 0 5).
Lemma k5_plain : plain_graph (of_rows k5_rows).
Proof. apply plain_check; vm_compute; reflexivity. Qed.
Lemma k5_number : number_of_five_cycles (of_rows k5_rows) 12.
Proof.
  exists (filter (five_cycleb (of_rows k5_rows)) below5). split; [|split; [|vm_compute; reflexivity]].
  - apply NoDup_filter. unfold below5. repeat apply NoDup_prod; apply seq_NoDup.
  - intros t. rewrite filter_In, five_cycleb_ok. split; [tauto|]. intros H. split; auto. destruct t as ((((a & b) & c) & d) & e). destruct H as (Ha & _ & A1 & A2 & A3 & A4 & _).
    pose proof k5_plain as P. change (gn (of_rows k5_rows)) with 5 in Ha. unfold below5.
    assert (Hb : b < 5) by now apply (P a). assert (Hc : c < 5) by now apply (P b). assert (Hd : d < 5) by now apply (P c). assert (He : e < 5) by now apply (P d).
    repeat apply in_prod; apply in_seq; lia.
Qed.
Example C68_example : exists ws', count5 (of_rows k5_rows) 5000 (seq 0 5) no_workers (Some (12%Z, ws')) /\ count5_serial (of_rows k5_rows) (seq 0 5) (Some 12%Z) /\ count5_escape_par (of_rows k5_rows) 5000 (Some 12%Z).
Proof.
  assert (E1 : exists u v, u < gn (of_rows k5_rows) /\ adj (of_rows k5_rows) u v) by (exists 0, 1; split; [cbn; lia|vm_compute; auto]).
  assert (R : distinct_ranks (gn (of_rows k5_rows)) (seq 0 5)) by (intros u v Hu Hv; rewrite !seq_nth by auto; auto).
  assert (N : (Z.of_nat (gn (of_rows k5_rows)) < 2 ^ 32)%Z) by (cbn; lia).
  destruct (C68_runs 5000 (seq 0 5) no_workers k5_plain) as ((o1 & H1) & (o2 & H2) & _ & _ & (o3 & H3)).
  assert (B : 2 <= 5000) by (apply Nat.leb_le; vm_compute; reflexivity).
  pose proof (C68_serial k5_plain N R k5_number H1) as X1. destruct (C68_parallel B k5_plain N R k5_number (no_call _ _ _) E1 H2) as (ws' & X2).
  pose proof (proj1 (C68_escape_par B k5_plain N k5_number H3) E1) as X3. subst. exists ws'. auto.
Qed.
