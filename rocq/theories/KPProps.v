(* C83: peeling by the number of cliques (Peel and ApproxPeel). *)
From Coq Require Import Permutation.
From Verif Require Import Base ListUtil ISSpec BKModel CQModel CQSpec CQProps DNModel KPModel KPSpec KPPeel KPApprox.
Unset Strict Implicit.

Lemma at_all n outn K v : cliques_at n outn K (fun w => w <? n) v = length (filter (fun c => has c v) (cliques n outn K)).
Proof.
  unfold cliques_at. f_equal. apply filter_ext_in. intros c Hc. replace (forallb (fun w => w <? n) c) with true; [apply Bool.andb_true_r|]. symmetry. apply forallb_forall.
  intros w Hw. apply Nat.ltb_lt. eapply clique_lt; eauto.
Qed.

(* Peel: whatever the schedule, if it returns then the value of every vertex is its clique coreness. *)
Theorem C83_peel : forall half wide n outn K rank label o null start D, sgraph n outn -> is_rank n rank -> 3 <= K <= half + 1 -> 0 < n -> 0 < o -> null <= wide ->
  (forall v, v < n -> start v = length (filter (fun c => has c v) (cliques n outn K)) /\ start v < null) ->
  peel_returns half wide n outn K rank label o null start D -> forall v, v < n -> clique_coreness n outn K v (D v).
Proof.
  intros half wide n outn K rank label o null start D HG HR HK Hn Ho Hw Hs (C & st & s & H) v Hv.
  assert (H1 : forall v, v < n -> start v = cliques_at n outn K (fun w => w <? n) v) by (intros w Hwn; rewrite at_all; now apply Hs).
  assert (H2 : forall v, v < n -> start v < null) by (intros w Hwn; now apply Hs).
  destruct (loop_pi HG HR HK Ho Hw H1 H2 Hn H) as (D' & due & last & HD & HI). rewrite HD. apply (p_out HI); auto.
  pose proof (p_fin HI) as X. destruct (due v) eqn:E; auto. assert (Y : In v (filter due (seq 0 n))) by (apply filter_In; split; auto; apply in_seq; lia).
  destruct (filter due (seq 0 n)); [destruct Y|simpl in X; lia].
Qed.
Print Assumptions C83_peel.

(* The whole program: count, then peel. *)
Theorem C83_count_and_peel : forall half top bsz thresh base wide n outn K rank label how o null count cl D, sgraph n outn -> is_rank n rank -> 3 <= K <= half + 1 -> 0 < n -> 0 < o -> null <= wide -> n < top -> 2 <= base ->
  label = true \/ how <> ByEdge -> clique_returns half top bsz thresh base n outn K rank true label how (Some (count, cl)) ->
  (forall v, v < n -> per_vert rank true cl v < null) ->
  peel_returns half wide n outn K rank label o null (per_vert rank true cl) D -> forall v, v < n -> clique_coreness n outn K v (D v).
Proof.
  intros half top bsz thresh base wide n outn K rank label how o null count cl D HG HR HK Hn Ho Hw Ht Hb Hl Hc Hnull H.
  destruct (@C61_count top bsz thresh base n outn HG Ht Hb half K rank true label how count cl HR HK Hc Hl) as [_ X].
  apply (@C83_peel half wide n outn K rank label o null (per_vert rank true cl) D); auto.
Qed.
Print Assumptions C83_count_and_peel.

(* No round is stuck, each finishes at least one vertex, and the loop ends unless a round of a single
   vertex writes outside update_idxs; with four or more vertices in a clique no round does. *)
Theorem C83_ends : forall half wide n outn K rank label o null start, sgraph n outn -> is_rank n rank -> 3 <= K <= half + 1 -> 0 < n -> 0 < o -> null <= wide ->
  (forall v, v < n -> start v = length (filter (fun c => has c v) (cliques n outn K)) /\ start v < null) ->
  (forall f C D st s, peel_loop half wide n outn K rank label o null start f C D st s -> f <= n /\
     (f <> n -> exists fuel k L s' idxs ppc, next_bucket true o fuel D s = Ret (Some (k, L)) s' /\ L <> [] /\ touched half outn K rank label st L idxs ppc)) /\
  ((exists D, peel_returns half wide n outn K rank label o null start D) \/ peel_overflows half wide n outn K rank label o null start) /\
  (4 <= K -> ~ peel_overflows half wide n outn K rank label o null start).
Proof.
  intros half wide n outn K rank label o null start HG HR HK Hn Ho Hw Hs.
  assert (H1 : forall v, v < n -> start v = cliques_at n outn K (fun w => w <? n) v) by (intros w Hwn; rewrite at_all; now apply Hs).
  assert (H2 : forall v, v < n -> start v < null) by (intros w Hwn; now apply Hs).
  assert (Hle : forall f C D st s, peel_loop half wide n outn K rank label o null start f C D st s -> f <= n).
  { intros f C D st s H. destruct (loop_pi HG HR HK Ho Hw H1 H2 Hn H) as (D' & due & last & HD & HI). pose proof (p_fin HI). lia. }
  split; [|split].
  - intros f C D st s H. split; [eauto|]. intros Hf. destruct (loop_step HG HR HK Ho Hw H1 H2 Hn H Hf) as (fuel & k & L & s' & En & HL).
    destruct (touched_ex half outn rank K label st L) as (idxs & ppc & HT). exists fuel, k, L, s', idxs, ppc. auto.
  - assert (X : forall m f C D st s, peel_loop half wide n outn K rank label o null start f C D st s -> n - f <= m ->
      (exists D, peel_returns half wide n outn K rank label o null start D) \/ peel_overflows half wide n outn K rank label o null start).
    { induction m as [|m IH]; intros f C D st s H Hm; pose proof (Hle _ _ _ _ _ H) as Hf.
      - left. assert (E : f = n) by lia. rewrite E in H. exists D, C, st, s. exact H.
      - destruct (Nat.eq_dec f n) as [->|Hne]; [left; exists D, C, st, s; exact H|].
        destruct (loop_step HG HR HK Ho Hw H1 H2 Hn H Hne) as (fuel & k & L & s' & En & HL).
        destruct (touched_ex half outn rank K label st L) as (idxs & ppc & HT).
        destruct (Nat.le_gt_cases (length L) 1) as [Hl|Hl]; [destruct (Nat.le_gt_cases (length idxs) (max_deg n outn)) as [Hi|Hi]|].
        + eapply IH; [eapply peel_round; eauto|]. destruct L; [congruence|]. cbn [length]. lia.
        + right. exists f, C, D, st, s, fuel, k, L, s', idxs, ppc. auto 10.
        + eapply IH; [eapply peel_round; eauto; lia|]. destruct L; [congruence|]. cbn [length]. lia. }
    apply (X n 0 start (start_D n null start) (fun _ => 0) (make true o null n (start_D n null start))); [constructor|lia].
  - intros HK4 (f & C & D & st & s & fuel & k & L & s' & idxs & ppc & H & Hf & En & HT & Hl & Hlt).
    destruct (loop_pi HG HR HK Ho Hw H1 H2 Hn H) as (D' & due & last & HD & HI).
    destruct (round_facts HK Ho HD HI En) as (HL & HLnd). inversion HT as [cl ch Hl2|Hl2]; subst; [lia|].
    pose proof (serial_fits HG rank HK label st (p_due HI) HL HLnd HK4 Hl). lia.
Qed.
Print Assumptions C83_ends.

(* With triangles a round of one vertex can write more entries than the largest degree: a vertex is
   entered again after a count of 0. *)
Definition over_g (v : nat) : list nat :=
  nth v [[1;4;5;8;9]; [0;4;5;8]; [3;6;7;8;9]; [2;6;7;8]; [0;1;5]; [0;1;4]; [2;3;7]; [2;3;6]; [0;1;2;3]; [0;2]] [].
Definition over_rank (v : nat) : nat := nth v [8;5;9;6;1;2;3;4;7;0] 0.
Theorem C83_overflow_refuted : exists n outn core rank start, sgraph n outn /\ ordering n outn core 3 rank /\
  (forall v, v < n -> start v = length (filter (fun c => has c v) (cliques n outn 3)) /\ start v < 100) /\
  peel_overflows 100 1000 n outn 3 rank true 16 100 start.
Proof.
  exists 10, over_g, (fun _ => 0), over_rank, (fun v => nth v [4;4;4;4;3;3;3;3;2;0] 0). split; [|split; [|split]].
  - intros u Hu. do 10 (destruct u as [|u]; [split; [repeat (constructor; auto)|]; simpl; intros v Hv; intuition (subst; simpl; auto 10 with arith; lia)|]). lia.
  - exists [9;4;5;6;7;1;3;8;0;2], [8;5;9;6;1;2;3;4;7;0]. split; [|split; [|split]].
    + apply NoDup_Permutation; [repeat (constructor; [simpl; lia|]); constructor|apply seq_NoDup|]. intros v. rewrite in_seq. simpl. lia.
    + intros i j Hij. do 10 (destruct i as [|i]; [do 10 (destruct j as [|j]; [simpl; lia|]); lia|]). lia.
    + exists (map (fun i => (nth i [9;4;5;6;7;1;3;8;0;2] 0, i)) (seq 0 10)), 0. split; reflexivity.
    + reflexivity.
  - intros v Hv. do 10 (destruct v as [|v]; [split; [vm_compute; reflexivity|simpl; lia]|]). lia.
  - assert (HA : exists f C D st s fuel s', peel_loop 100 1000 10 over_g 3 over_rank true 16 100 (fun v => nth v [4;4;4;4;3;3;3;3;2;0] 0) f C D st s /\ f <> 10 /\
      next_bucket true 16 fuel D s = Ret (Some (2, [8])) s' /\ 5 < length (snd (serial_idxs 100 over_g 3 over_rank true (set_all st [8] 1) [8]))).
    { do 7 eexists. split; [|split].
      - eapply peel_round with (fuel := 20) (L := [9]); [apply peel_start|discriminate|vm_compute; reflexivity|apply single; auto|intros _; vm_compute; lia].
      - discriminate.
      - split; [instantiate (2 := 20); vm_compute; reflexivity|vm_compute; lia]. }
    destruct HA as (f & C & D & st & s & fuel & s' & A1 & A2 & A3 & A4). exists f, C, D, st, s, fuel, 2, [8], s'. do 2 eexists. split; [exact A1|]. split; [exact A2|]. split; [exact A3|].
    split; [apply single; auto|]. split; auto.
Qed.
Print Assumptions C83_overflow_refuted.

(* ApproxPeel ends within n rounds.  With eps = p / q, K (1 + eps) times the result is at least the density
   of every set of vertices, and the result is at most K times the density of some set. *)
Theorem C83_approx : forall half wide n outn K rank label p q start, sgraph n outn -> is_rank n rank -> 3 <= K <= half + 1 -> 0 < n -> 0 < q ->
  (forall v, v < n -> start v = length (filter (fun c => has c v) (cliques n outn K)) /\ start v <= wide) ->
  (exists best, approx_returns half wide n outn K rank label p q (length (cliques n outn K)) start best) /\
  (forall r rem D st best, approx_loop half wide n outn K rank label p q (length (cliques n outn K)) start r rem D st best -> r + length rem <= n /\
     (rem <> [] -> exists rem' D' st' best', approx_loop half wide n outn K rank label p q (length (cliques n outn K)) start (S r) rem' D' st' best')) /\
  (forall best, approx_returns half wide n outn K rank label p q (length (cliques n outn K)) start best -> 0 < snd best /\
     (forall S, (exists v, v < n /\ S v = true) -> inside n outn K S * q * snd best <= K * (q + p) * fst best * size n S) /\
     exists S, (exists v, v < n /\ S v = true) /\ fst best * size n S <= K * inside n outn K S * snd best).
Proof.
  intros half wide n outn K rank label p q start HG HR HK Hn Hq Hs.
  assert (H1 : forall v, v < n -> start v = cliques_at n outn K (fun w => w <? n) v) by (intros w Hwn; rewrite at_all; now apply Hs).
  assert (H2 : forall v, v < n -> start v <= wide) by (intros w Hwn; now apply Hs).
  split; [|split].
  - now apply approx_ends.
  - intros r rem D st best H. split; [apply (a_len (loop_ai HG HR HK Hq eq_refl H1 H2 H))|]. intros Hne. eapply loop_next; eauto.
  - intros best (r & D & st & H). pose proof (loop_ai HG HR HK Hq eq_refl H1 H2 H) as HI. split; [apply (a_pos HI)|]. split.
    + intros S HS. destruct (@dense_core half n outn K HK S HS) as (T & _ & HT & HTd). destruct (a_hi HI HT HTd) as [X|X]; auto. destruct HT as (v & Hv & HTv). destruct (X v Hv HTv).
    + destruct (a_lo HI) as [X|X]; auto. exists (fun _ => true). split; [exists 0; auto|]. rewrite X. lia.
Qed.
Print Assumptions C83_approx.

(* The result of ApproxPeel can be larger than the density of every set: a triangle and an isolated vertex. *)
Definition tri_iso (v : nat) : list nat := nth v [[1;2]; [0;2]; [0;1]; []] [].
Theorem C83_approx_density_refuted : exists n outn rank start best, sgraph n outn /\ is_rank n rank /\
  (forall v, v < n -> start v = length (filter (fun c => has c v) (cliques n outn 3))) /\
  approx_returns 100 1000 n outn 3 rank true 0 1 (length (cliques n outn 3)) start best /\
  forall S, (exists v, v < n /\ S v = true) -> inside n outn 3 S * snd best < fst best * size n S.
Proof.
  exists 4, tri_iso, (fun v => v), (fun v => nth v [1;1;1;0] 0), (3, 3). split; [|split; [|split; [|split]]].
  - intros u Hu. do 4 (destruct u as [|u]; [split; [repeat (constructor; auto)|]; simpl; intros v Hv; intuition (subst; simpl; auto 10 with arith; lia)|]). lia.
  - split; auto.
  - intros v Hv. do 4 (destruct v as [|v]; [reflexivity|]). lia.
  - assert (H0 := @approx_start 100 1000 4 tri_iso 3 (fun v => v) true 0 1 (length (cliques 4 tri_iso 3)) (fun v => nth v [1;1;1;0] 0)).
    eapply approx_round with (cl := []) in H0; [|discriminate|left; reflexivity|vm_compute; constructor].
    change (drop 3 0 1 (length (cliques 4 tri_iso 3)) 0 (seq 0 4) (fun v => nth v [1;1;1;0] 0)) with (fun v => drop 3 0 1 1 0 [0;1;2;3] (fun v => nth v [1;1;1;0] 0) v) in H0.
    eapply approx_last in H0; [|vm_compute; discriminate|vm_compute; reflexivity|discriminate]. do 3 eexists. exact H0.
  - intros S (v & Hv & HS). cbn [fst snd]. unfold inside. replace (cliques 4 tri_iso 3) with [[0;1;2]] by reflexivity. unfold size. cbn [seq filter forallb].
    do 4 (destruct v as [|v]; [rewrite HS; destruct (S 0), (S 1), (S 2), (S 3); simpl; lia|]). lia.
Qed.
Print Assumptions C83_approx_density_refuted.

(* five vertices pairwise adjacent and one more attached to vertex 0, cliques of four vertices *)
Definition ex_g (v : nat) : list nat := nth v [[1;2;3;4;5]; [0;2;3;4]; [0;1;3;4]; [0;1;2;4]; [0;1;2;3]; [0]] [].
Example C83_ex : let start := fun v => nth v [4;4;4;4;4;0] 0 in
  sgraph 6 ex_g /\ is_rank 6 (fun v => 5 - v) /\
  (forall v, v < 6 -> start v = length (filter (fun c => has c v) (cliques 6 ex_g 4)) /\ start v < 100) /\
  (exists D, peel_returns 100 1000 6 ex_g 4 (fun v => 5 - v) true 16 100 start D /\ D 0 = 4 /\ D 5 = 0) /\
  exists best, approx_returns 100 1000 6 ex_g 4 (fun v => 5 - v) true 1 2 (length (cliques 6 ex_g 4)) start best.
Proof.
  intros start.
  assert (HG : sgraph 6 ex_g).
  { intros u Hu. do 6 (destruct u as [|u]; [split; [repeat (constructor; auto)|]; simpl; intros v Hv; intuition (subst; simpl; auto 10 with arith; lia)|]). lia. }
  assert (HR : is_rank 6 (fun v => 5 - v)) by (split; intros; lia).
  assert (HS : forall v, v < 6 -> start v = length (filter (fun c => has c v) (cliques 6 ex_g 4)) /\ start v < 100).
  { intros v Hv. do 6 (destruct v as [|v]; [split; [vm_compute; reflexivity|unfold start; simpl; lia]|]). lia. }
  split; auto. split; auto. split; auto. split.
  - destruct (@C83_ends 100 1000 6 ex_g 4 (fun v => 5 - v) true 16 100 start HG HR ltac:(lia) ltac:(lia) ltac:(lia) ltac:(lia) HS) as (_ & [(D & H)|H] & X); [|exfalso; apply (X ltac:(lia) H)].
    exists D. split; auto. pose proof (@C83_peel 100 1000 6 ex_g 4 (fun v => 5 - v) true 16 100 start D HG HR ltac:(lia) ltac:(lia) ltac:(lia) ltac:(lia) HS H) as HD.
    assert (Hle : forall v, v < 6 -> D v <= start v).
    { intros v Hv. destruct (HD v Hv) as ((S & HC & HSv) & _). destruct (HC v HSv) as [_ Y]. apply Nat.le_trans with (1 := Y). rewrite (proj1 (HS v Hv)), <- at_all. apply cnt_mono. intros w Hw _. now apply Nat.ltb_lt. }
    split; [|assert (Z : D 5 <= 0) by exact (Hle 5 ltac:(lia)); lia]. apply Nat.le_antisymm; [exact (Hle 0 ltac:(lia))|]. destruct (HD 0 ltac:(lia)) as (_ & Y). apply (Y 4 (fun v => v <? 5)); [|reflexivity].
    intros v Hv. apply Nat.ltb_lt in Hv. split; [lia|]. do 5 (destruct v as [|v]; [vm_compute; lia|]). lia.
  - apply C83_approx; auto; try lia. intros v Hv. destruct (HS v Hv). split; auto. lia.
Qed.
