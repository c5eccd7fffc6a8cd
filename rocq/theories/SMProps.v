(* C70: the exact similarities of adjacent vertices *)
From Verif Require Import Base ListUtil GBModel SFModel SFSpec ISModel ISSpec ISProofs TCModel TCProofs SISpec SIModel SIProps SMModel SMSpec SMProofs SMCount SMFinal.
From Coq Require Import ZArith Permutation Sorted.
Local Open Scope nat_scope.
Unset Strict Implicit.

(* the intersection of two sorted lists: one call for each common element, with its positions and
   weights in the two lists, and the sum of the products *)
Theorem C70_intersect : forall W (prod : W -> W -> Z) base thresh A B, (forall a b, prod a b = prod b a) -> 2 <= base -> increasing (map fst A) -> increasing (map fst B) ->
  exists ct calls, intersect_with_index prod base thresh A B = Some (ct, calls) /\ NoDup calls /\
    (forall x i j a b, In (x, i, j, a, b) calls <-> nth_error A i = Some (x, a) /\ nth_error B j = Some (x, b)) /\
    ct = fold_right Z.add 0%Z (map (fun c : call W => let '(_, _, _, a, b) := c in prod a b) calls).
Proof.
  intros W prod base thresh A B Hc Hb HA HB. destruct (@intersect_ok W prod Hc base thresh A B Hb HA HB) as (l & E & H1 & H2). exists (csum prod l), l. split; auto. split; [|split; auto].
  - apply (NoDup_map_inv (@call_id W)). now apply inc_NoDup.
  - intros x i j a b. rewrite H2. split; [intros (i' & j' & -> & -> & Q); auto|]. intros Q. exists i, j. auto.
Qed.

(* an order of the vertices by degree, and its ranks *)
Definition degree_ranks {W} (G : csr W) (rank : list nat) : Prop :=
  exists o, Permutation o (seq 0 (gn G)) /\ (forall i j, i <= j < gn G -> nth (nth i o 0) (gdeg G) 0 <= nth (nth j o 0) (gdeg G) 0) /\ rank_nodes o rank.
Lemma degree_ranks_injective W (G : csr W) rank : degree_ranks G rank -> injective_rank (gn G) rank.
Proof. intros (o & H1 & _ & H2). eapply rank_nodes_injective; eauto. Qed.
Theorem C70_ranks : forall W (G : csr W), exists rank, degree_ranks G rank.
Proof.
  intros W G. destruct (sorted_exists (fun v => nth v (gdeg G) 0) (gn G)) as (o & Hp & Hs). destruct (@rank_nodes_ok o _ Hp) as [(r & Hr) _]. exists r, o. auto.
Qed.
(* each ordered pair of neighbours once, whatever the order of the additions and stores.  The counter is
   the sum over the shared neighbours modulo M *)
Theorem C70_similarities : forall W (prod : W -> W -> Z) base thresh M measure (G : csr W) rank sh0 junk sh1 sh2,
  (forall a b, prod a b = prod b a) -> 2 <= base -> (0 < M)%Z -> (forall v u w c, measure v u w c = measure u v w c) ->
  loopless G -> degree_ranks G rank -> reorders sh0 -> reorders sh1 -> reorders sh2 ->
  exists sims, edge_sims base thresh M prod measure sh0 junk sh1 sh2 rank G = Some sims /\
    Permutation (flat_map (fun u => map (fun x => {| source := u; neighbor := fst x; similarity := measure u (fst x) (snd x) (shared prod G u (fst x) mod M)%Z |}) (neighbors G u)) (seq 0 (gn G))) sims.
Proof. intros. apply edge_sims_ok; auto. now apply degree_ranks_injective. Qed.

(* unweighted graphs *)
Definition one (_ _ : unit) : Z := 1%Z.
Lemma filter_add (l : list nat) a P : NoDup l -> In a l -> P a = false -> length (filter (fun x => (x =? a) || P x) l) = S (length (filter P l)).
Proof.
  induction 1 as [|x l Hx Hn IH]; intros Ha HP; [destruct Ha|]. cbn. destruct Ha as [->|Ha].
  - rewrite Nat.eqb_refl, HP. cbn. f_equal. f_equal. apply filter_ext_in'. intros y Hy. destruct (Nat.eqb_spec y a) as [->|]; auto. contradiction.
  - destruct (Nat.eqb_spec x a) as [->|]; [contradiction|]. cbn. destruct (P x); cbn; rewrite IH; auto.
Qed.
Lemma memb_In x l : existsb (Nat.eqb x) l = true <-> In x l.
Proof. rewrite existsb_exists. split; [intros (y & Hy & E); apply Nat.eqb_eq in E; now subst|]. intros H. exists x. split; auto. apply Nat.eqb_refl. Qed.
Lemma memb_nIn x l : existsb (Nat.eqb x) l = false <-> ~ In x l.
Proof. rewrite <- memb_In. destruct (existsb (Nat.eqb x) l); intuition congruence. Qed.
Section Unweighted.
  Variable G : csr unit.
  Hypothesis HG : loopless G.
  Notation n := (gn G).
  Notation N := (nbrs G).
  Lemma shared_one u v : u < n -> v < n -> shared one G u v = Z.of_nat (length (meet (N u) (N v))).
  Proof.
    intros Hu Hv. unfold shared, meet, nbrs. assert (K := keysN HG Hv). induction (neighbors G u) as [|[x []] l IH]; [reflexivity|]. cbn [flat_map map filter fst snd].
    rewrite fold_right_app. rewrite (@filter_key _ fst x _ K). destruct (find (fun t => fst t =? x) (neighbors G v)) as [t|] eqn:E.
    - assert (In x (map fst (neighbors G v))) as Hx by (apply (@find_some_iff _ fst _ _ _ K) in E as [E <-]; now apply in_map). apply memb_In in Hx. rewrite Hx. cbn [length map fold_right]. rewrite IH. unfold one. lia.
    - apply find_none_iff in E. apply memb_nIn in E. rewrite E. cbn [map fold_right]. exact IH.
  Qed.
  Lemma NoDupN u : u < n -> NoDup (N u).
  Proof. intros Hu. apply inc_NoDup, (ll_sorted HG Hu). Qed.
  Lemma adj_sym u v : u < n -> In v (N u) -> In u (N v).
  Proof. intros Hu H. unfold nbrs in H. apply in_map_iff in H as ([v' w] & <- & H). apply (ll_sym HG) in H; auto. cbn. unfold nbrs. change u with (fst (u, w)). now apply in_map. Qed.
  Lemma not_self u : u < n -> ~ In u (N u).
  Proof. intros Hu H. apply (ll_range HG) in H; tauto. Qed.
  Lemma meet_closed u v : u < n -> In v (N u) -> length (meet (closed_nbrs G u) (closed_nbrs G v)) = 2 + length (meet (N u) (N v)).
  Proof.
    intros Hu H. assert (Hv : v < n) by (apply (ll_range HG) in H; tauto). unfold meet at 1. change (closed_nbrs G u) with (u :: N u). cbn [filter].
    rewrite (proj2 (memb_In u (closed_nbrs G v))) by (right; now apply adj_sym). cbn [length]. unfold closed_nbrs. cbn [existsb]. cbn [Nat.add]. f_equal.
    apply (@filter_add (N u) v (fun x => existsb (Nat.eqb x) (N v))); auto; [now apply NoDupN|]. apply memb_nIn. now apply not_self.
  Qed.
  Lemma meet_comm u v : u < n -> v < n -> length (meet (N u) (N v)) = length (meet (N v) (N u)).
  Proof. intros Hu Hv. apply Nat2Z.inj. rewrite <- !shared_one by auto. apply (shared_sym (base := 2)); auto. Qed.
  Lemma join_closed u v : u < n -> In v (N u) -> length (join (closed_nbrs G u) (closed_nbrs G v)) + length (meet (N u) (N v)) = length (N u) + length (N v).
  Proof.
    intros Hu H. assert (Hv : v < n) by (apply (ll_range HG) in H; tauto). unfold join. rewrite app_length. change (closed_nbrs G v) with (v :: N v). cbn [filter].
    rewrite (proj2 (memb_In v (closed_nbrs G u))) by now right. cbn [negb]. unfold closed_nbrs. cbn [length existsb].
    pose proof (@filter_add (N v) u (fun x => existsb (Nat.eqb x) (N u)) (NoDupN Hv) (adj_sym Hu H) (proj2 (memb_nIn u (N u)) (not_self Hu))) as F.
    fold (meet (N v) (N u)) in F. rewrite (meet_comm Hu Hv). set (q := fun x => (x =? u) || existsb (Nat.eqb x) (N u)) in *.
    assert (S : length (filter q (N v)) + length (filter (fun x => negb (q x)) (N v)) = length (N v)).
    { clear. induction (N v) as [|x l IH]; cbn; auto. destruct (q x); cbn; lia. }
    change (filter (fun x => negb (q x)) (N v)) with (filter (fun x => negb ((x =? u) || existsb (Nat.eqb x) (N u))) (N v)) in S. lia.
  Qed.
  Lemma closed_in u x : u < n -> In x (closed_nbrs G u) -> x < n.
  Proof. intros Hu [<-|H]; auto. apply (ll_range HG) in H; tauto. Qed.
  Lemma closed_NoDup u : u < n -> NoDup (closed_nbrs G u).
  Proof. intros Hu. constructor; [now apply not_self|now apply NoDupN]. Qed.
  Lemma below_n l : NoDup l -> (forall x, In x l -> x < n) -> length l <= n.
  Proof. intros H1 H2. rewrite <- (seq_length n 0). apply NoDup_incl_length; auto. intros x Hx. apply in_seq. apply H2 in Hx. lia. Qed.
  Lemma join_below u v : u < n -> v < n -> length (join (closed_nbrs G u) (closed_nbrs G v)) <= n.
  Proof.
    intros Hu Hv. apply below_n.
    - unfold join. apply NoDup_app_iff. split; [now apply closed_NoDup|]. split; [apply NoDup_filter'; now apply closed_NoDup|]. intros x Hx Hx'. apply filter_In in Hx' as [_ Hx']. apply memb_In in Hx. rewrite Hx in Hx'. discriminate.
    - intros x Hx. apply in_app_iff in Hx as [Hx|Hx]; [|apply filter_In in Hx as [Hx _]]; eapply closed_in; try exact Hx; auto.
  Qed.
  Lemma meet_below u v : u < n -> length (meet (closed_nbrs G u) (closed_nbrs G v)) <= n.
  Proof.
    intros Hu. apply below_n; [apply NoDup_filter'; now apply closed_NoDup|]. intros x Hx. apply filter_In in Hx as [Hx _]. eapply closed_in; try exact Hx; auto.
  Qed.
End Unweighted.

(* the sizes of the closed neighbourhoods, of their intersection and of their union *)
Definition size (l : list nat) : Z := Z.of_nat (length l).
Definition jaccard (div : Z -> Z -> Z) (G : csr unit) (u v : nat) : Z :=
  div (size (meet (closed_nbrs G u) (closed_nbrs G v))) (size (join (closed_nbrs G u) (closed_nbrs G v))).
Definition cosine (cos : Z -> Z -> Z -> Z) (G : csr unit) (u v : nat) : Z :=
  cos (size (meet (closed_nbrs G u) (closed_nbrs G v))) (size (closed_nbrs G u)) (size (closed_nbrs G v)).
Lemma unweighted_ok base thresh M measure (G : csr unit) rank sh0 junk sh1 sh2 sim : 2 <= base -> (0 < M)%Z -> (forall v u w c, measure v u w c = measure u v w c) ->
  loopless G -> degree_ranks G rank -> reorders sh0 -> reorders sh1 -> reorders sh2 ->
  (forall u v, u < gn G -> In v (nbrs G u) -> measure u v tt (size (meet (nbrs G u) (nbrs G v)) mod M)%Z = sim u v) ->
  exists sims, edge_sims base thresh M one measure sh0 junk sh1 sh2 rank G = Some sims /\ edge_similarities (gn G) (nbrs G) sim sims.
Proof.
  intros Hb HM Hm HG Hr H0 H1 H2 Hs. destruct (@C70_similarities unit one base thresh M measure G rank sh0 junk sh1 sh2) as (sims & E & Hp); auto. exists sims. split; auto.
  unfold edge_similarities. rewrite <- Hp. match goal with |- Permutation ?a ?b => enough (Eq : a = b) by (rewrite Eq; reflexivity) end. rewrite !flat_map_concat_map. f_equal. apply map_ext_in. intros u Hu. apply in_seq in Hu. unfold nbrs at 1. rewrite map_map. apply map_ext_in.
  intros [v []] Hv. cbn [fst snd]. f_equal. assert (Hu' : u < gn G) by lia. assert (Hn : In v (nbrs G u)) by (unfold nbrs; change v with (fst (v, tt)); now apply in_map).
  rewrite shared_one; auto; [|apply (ll_range HG) in Hn; tauto]. symmetry. now apply Hs.
Qed.
Theorem C70_jaccard : forall base thresh M div (G : csr unit) rank sh0 junk sh1 sh2, 2 <= base -> (Z.of_nat (gn G) < M)%Z -> loopless G -> degree_ranks G rank -> reorders sh0 -> reorders sh1 -> reorders sh2 ->
  exists sims, edge_sims base thresh M one (jaccard_measure M div G) sh0 junk sh1 sh2 rank G = Some sims /\ edge_similarities (gn G) (nbrs G) (jaccard div G) sims.
Proof.
  intros base thresh M div G rank sh0 junk sh1 sh2 Hb HM HG Hr H0 H1 H2. apply unweighted_ok; auto; [lia| |].
  - intros v u w c. unfold jaccard_measure. do 2 f_equal. lia.
  - intros u v Hu Hv. unfold jaccard_measure, jaccard, size. assert (Hv' : v < gn G) by (apply (ll_range HG) in Hv; tauto).
    pose proof (meet_closed HG Hu Hv) as A. pose proof (join_closed HG Hu Hv) as B. pose proof (meet_below HG v Hu) as C. pose proof (join_below HG Hu Hv') as D.
    rewrite (Z.mod_small (Z.of_nat (length (meet (nbrs G u) (nbrs G v)))) M) by lia. assert (Eu : length (neighbors G u) = length (nbrs G u)) by (unfold nbrs; now rewrite map_length). assert (Ev : length (neighbors G v) = length (nbrs G v)) by (unfold nbrs; now rewrite map_length). rewrite Eu, Ev.
    rewrite !Z.mod_small by lia. f_equal; lia.
Qed.
Theorem C70_cosine : forall base thresh M cos (G : csr unit) rank sh0 junk sh1 sh2, (forall a b c, cos a b c = cos a c b) ->
  2 <= base -> (Z.of_nat (gn G) < M)%Z -> loopless G -> degree_ranks G rank -> reorders sh0 -> reorders sh1 -> reorders sh2 ->
  exists sims, edge_sims base thresh M one (cosine_measure M cos G) sh0 junk sh1 sh2 rank G = Some sims /\ edge_similarities (gn G) (nbrs G) (cosine cos G) sims.
Proof.
  intros base thresh M cos G rank sh0 junk sh1 sh2 Hcos Hb HM HG Hr H0 H1 H2. apply unweighted_ok; auto; [lia| |].
  - intros v u w c. unfold cosine_measure. apply Hcos.
  - intros u v Hu Hv. unfold cosine_measure, cosine, size. assert (Hv' : v < gn G) by (apply (ll_range HG) in Hv; tauto).
    pose proof (meet_closed HG Hu Hv) as A. pose proof (meet_below HG v Hu) as C.
    pose proof (@below_n G (closed_nbrs G u) (closed_NoDup HG Hu) (fun x => @closed_in G HG u x Hu)) as Lu. pose proof (@below_n G (closed_nbrs G v) (closed_NoDup HG Hv') (fun x => @closed_in G HG v x Hv')) as Lv.
    change (length (closed_nbrs G u)) with (S (length (nbrs G u))) in *. change (length (closed_nbrs G v)) with (S (length (nbrs G v))) in *.
    assert (Eu : length (neighbors G u) = length (nbrs G u)) by (unfold nbrs; now rewrite map_length). assert (Ev : length (neighbors G v) = length (nbrs G v)) by (unfold nbrs; now rewrite map_length).
    rewrite Eu, Ev. rewrite (Z.mod_small (Z.of_nat (length (meet (nbrs G u) (nbrs G v)))) M) by lia. rewrite !Z.mod_small by lia. f_equal; lia.
Qed.

(* the index built on them: its clusterings are SCAN clusterings for the Jaccard similarity *)
Lemma jaccard_comm div (G : csr unit) u v : loopless G -> u < gn G -> In v (nbrs G u) -> jaccard div G u v = jaccard div G v u.
Proof.
  intros HG Hu Hv. assert (Hv' : v < gn G) by (apply (ll_range HG) in Hv; tauto). pose proof (adj_sym HG Hu Hv) as Hs. unfold jaccard, size.
  pose proof (meet_closed HG Hu Hv). pose proof (meet_closed HG Hv' Hs). pose proof (join_closed HG Hu Hv). pose proof (join_closed HG Hv' Hs). pose proof (meet_comm HG Hu Hv'). f_equal; lia.
Qed.
Theorem C70_scan : forall base thresh M mx div (G : csr unit) rank sh0 junk sh1 sh2 sims no co mu eps det result, 2 <= base -> (Z.of_nat (gn G) < M)%Z -> gn G <= mx -> loopless G -> degree_ranks G rank ->
  reorders sh0 -> reorders sh1 -> reorders sh2 -> (forall a b, (0 < a)%Z -> (0 < b)%Z -> (0 < div a b)%Z) ->
  edge_sims base thresh M one (jaccard_measure M div G) sh0 junk sh1 sh2 rank G = Some sims -> built (gn G) (nbrs G) sims no co ->
  cluster (gn G) no co mx mu eps det result ->
  scan_clustering (gn G) (nbrs G) (jaccard div G) mu eps (may_follow det (gn G) (nbrs G) (jaccard div G) mu eps) mx result.
Proof.
  intros base thresh M mx div G rank sh0 junk sh1 sh2 sims no co mu eps det result Hb HM Hmx HG Hr H0 H1 H2 Hdiv E B C.
  destruct (@C70_jaccard base thresh M div G rank sh0 junk sh1 sh2) as (sims' & E' & Hs); auto. rewrite E in E'. injection E' as <-.
  assert (SG : sim_graph (gn G) mx (nbrs G) (jaccard div G)).
  { split; auto; intros u v Hu Hv; [apply (ll_range HG) in Hv; tauto|]. split; [now apply adj_sym|now apply jaccard_comm]. }
  apply (C69_cluster SG Hs B); auto. intros _ u v Hu Hv. unfold jaccard, size. pose proof (meet_closed HG Hu Hv) as A.
  apply Hdiv; [lia|]. unfold join. rewrite app_length. unfold closed_nbrs at 1. cbn [length]. lia.
Qed.

Lemma degree_ranks_lt W (G : csr W) rank a b : degree_ranks G rank -> a < gn G -> b < gn G -> nth a (gdeg G) 0 < nth b (gdeg G) 0 -> nth a rank 0 < nth b rank 0.
Proof.
  intros (o & Hp & Hs & Hr) Ha Hb Hd. destruct (@rank_nodes_ok _ _ Hp) as [_ H]. destruct (H rank Hr) as [_ H'].
  assert (Hl : length o = gn G) by now rewrite (Permutation_length Hp), seq_length.
  assert (X : In a o) by (apply (Permutation_in _ (Permutation_sym Hp)), in_seq; lia). assert (Y : In b o) by (apply (Permutation_in _ (Permutation_sym Hp)), in_seq; lia).
  apply (In_nth _ _ 0) in X as (i & Hi & <-). apply (In_nth _ _ 0) in Y as (j & Hj & <-). rewrite !H' by lia.
  destruct (Nat.lt_ge_cases i j) as [|Q]; auto. specialize (Hs j i). lia.
Qed.
(* integer weights: counters are 32 bits wide, so a sum of products of weights wraps around.  The triangle
   with weights 2^17 (0-1), 2^15 (1-2) and 1 (0-2), and a leaf at 0 and at 2: 0 and 2 share a weight of 2^32,
   and their counter is 0.  The leaves make 1 the first vertex of the triangle, so what the intersections
   themselves sum up in an int (one product a * b each) stays below 2^31 *)
Definition heavy : csr Z := {| gn := 5; gm := 10; goff := [0; 3; 5; 8; 9]; gdeg := [3; 2; 3; 1; 1];
  gngh := [(1, 131072%Z); (2, 1%Z); (3, 1%Z); (0, 131072%Z); (2, 32768%Z); (0, 1%Z); (1, 32768%Z); (4, 1%Z); (0, 1%Z); (2, 1%Z)] |}.
Lemma heavy_loopless : loopless heavy.
Proof.
  constructor; [| | |reflexivity]; intros u.
  - intros Hu. destruct u as [|[|[|[|[|u]]]]]; [| | | | |cbn in Hu; lia]; unfold increasing, nbrs, neighbors; cbn; repeat constructor.
  - intros v Hu. destruct u as [|[|[|[|[|u]]]]]; [| | | | |cbn in Hu; lia]; unfold nbrs, neighbors; cbn; intros H; repeat (destruct H as [<-|H]; [lia|]); destruct H.
  - intros v w Hu. destruct u as [|[|[|[|[|u]]]]]; [| | | | |cbn in Hu; lia]; unfold neighbors; cbn; intros H; repeat (destruct H as [E|H]; [injection E as <- <-; cbn; auto|]); destruct H.
Qed.
Theorem C70_weights_refuted : exists G : csr Z, loopless G /\ shared Z.mul G 0 2 = (2 ^ 32)%Z /\
  forall base thresh cos rank sh0 junk sh1 sh2, 2 <= base -> (forall a b c, cos a b c = cos a c b) -> degree_ranks G rank -> reorders sh0 -> reorders sh1 -> reorders sh2 ->
  (forall u v x a b c, u < gn G -> v < gn G -> In (v, c) (neighbors G u) -> In (x, a) (neighbors G u) -> In (x, b) (neighbors G v) ->
     nth u rank 0 < nth v rank 0 -> nth v rank 0 < nth x rank 0 -> (0 <= a * b < 2 ^ 31)%Z) /\
  exists sims, edge_sims base thresh (2 ^ 32)%Z Z.mul (weighted_measure cos G) sh0 junk sh1 sh2 rank G = Some sims /\
    In {| source := 0; neighbor := 2; similarity := cos 2%Z (sq_norm G 0) (sq_norm G 2) |} sims.
Proof.
  exists heavy. split; [exact heavy_loopless|]. split; [vm_compute; reflexivity|]. intros base thresh cos rank sh0 junk sh1 sh2 Hb Hcos Hr H0 H1 H2. split.
  { assert (X : nth 1 rank 0 < nth 0 rank 0) by (apply (@degree_ranks_lt _ heavy rank 1 0 Hr); cbn; lia).
    assert (Y : nth 1 rank 0 < nth 2 rank 0) by (apply (@degree_ranks_lt _ heavy rank 1 2 Hr); cbn; lia).
    intros u v x a b c Hu Hv Hc Ha Hbx L1 L2. change (In (v, c) (neighbors heavy u)) in Hc. change (In (x, a) (neighbors heavy u)) in Ha. change (In (x, b) (neighbors heavy v)) in Hbx.
    change (u < 5) in Hu. clear Hv. change (2 ^ 31)%Z with 2147483648%Z.
    destruct u as [|[|[|[|[|u]]]]]; [| | | | |lia]; unfold neighbors in Hc, Ha; cbn in Hc, Ha;
      repeat (destruct Hc as [E|Hc]; [injection E as <- <-|]); try (now destruct Hc); unfold neighbors in Hbx; cbn in Hbx;
      repeat (destruct Ha as [E|Ha]; [injection E as <- <-|]); try (now destruct Ha); try lia;
      repeat (destruct Hbx as [E|Hbx]; [try discriminate E; injection E as <-; try lia|]); try (now destruct Hbx). }
  destruct (@C70_similarities Z Z.mul base thresh (2 ^ 32)%Z (weighted_measure cos heavy) heavy rank sh0 junk sh1 sh2) as (sims & E & Hp); auto.
  - apply Z.mul_comm.
  - vm_compute; reflexivity.
  - intros. unfold weighted_measure. apply Hcos.
  - exact heavy_loopless.
  - exists sims. split; auto. apply (Permutation_in _ Hp). apply in_flat_map. exists 0. split; [cbn; auto|]. apply in_map_iff. exists (2, 1%Z). split; [|unfold neighbors; cbn; auto].
    cbn [fst snd]. f_equal.
Qed.
(* a self loop: the directed graph drops it, and the last entries keep their initial zeros.  0 - 1 with a
   loop at 1: the result claims that 0 is its own neighbour, and has only one entry for 1 *)
Definition with_loop : csr unit := {| gn := 2; gm := 3; goff := [0; 1]; gdeg := [1; 2]; gngh := [(1, tt); (0, tt); (1, tt)] |}.
Theorem C70_self_loop_refuted : exists (G : csr unit) rank, (forall u, u < gn G -> increasing (nbrs G u)) /\ (forall u v, u < gn G -> In v (nbrs G u) -> v < gn G /\ In u (nbrs G v)) /\
  gm G = total_degree G /\ degree_ranks G rank /\
  exists sims, edge_sims 32 2048 (2 ^ 32)%Z one (jaccard_measure (2 ^ 32)%Z (fun a b => a * b)%Z G) (fun l => l) (0, tt) (fun l => l) (fun l => l) rank G = Some sims /\
    In {| source := 0; neighbor := 0; similarity := 0%Z |} sims /\ ~ In 0 (nbrs G 0) /\ forall sim, ~ edge_similarities (gn G) (nbrs G) sim sims.
Proof.
  exists with_loop, [0; 1]. split; [|split; [|split; [reflexivity|split]]].
  - intros u Hu. destruct u as [|[|u]]; [| |cbn in Hu; lia]; unfold increasing, nbrs, neighbors; cbn; repeat constructor.
  - intros u v Hu. destruct u as [|[|u]]; [| |cbn in Hu; lia]; unfold nbrs, neighbors; cbn; intros H; repeat (destruct H as [<-|H]; [cbn; auto|]); destruct H.
  - exists [0; 1]. split; [reflexivity|]. split.
    + intros i j [H1 H2]. cbn in H2. destruct i as [|[|i]], j as [|[|j]]; cbn; lia.
    + exists [(0, 0); (1, 1)], 0. split; reflexivity.
  - eexists. split; [vm_compute; reflexivity|]. split; [cbn; auto|]. split; [unfold nbrs, neighbors; cbn; intros [E|[]]; discriminate|].
    intros sim H. unfold edge_similarities in H. apply Permutation_sym in H.
    assert (X : In {| source := 0; neighbor := 0; similarity := 0%Z |} (flat_map (fun u => map (fun v => {| source := u; neighbor := v; similarity := sim u v |}) (nbrs with_loop u)) (seq 0 (gn with_loop)))).
    { apply (Permutation_in _ H). cbn. auto. }
    cbn in X. destruct X as [E|[E|[E|[]]]]; discriminate.
Qed.

(* two triangles that share the edge 1 - 2 *)
Definition diamond : csr unit := {| gn := 4; gm := 10; goff := [0; 2; 5; 8]; gdeg := [2; 3; 3; 2]; gngh := map (fun v => (v, tt)) [1; 2; 0; 2; 3; 0; 1; 3; 1; 2] |}.
Example C70_diamond : loopless diamond /\ degree_ranks diamond [0; 2; 3; 1] /\ jaccard (fun a b => 100 * a / b)%Z diamond 1 2 = 100%Z /\ jaccard (fun a b => 100 * a / b)%Z diamond 0 1 = 75%Z /\
  exists sims, edge_sims 32 2048 (2 ^ 32)%Z one (jaccard_measure (2 ^ 32)%Z (fun a b => 100 * a / b)%Z diamond) (@rev _) (0, tt) (@rev _) (@rev _) [0; 2; 3; 1] diamond = Some sims /\
    map (fun e => (source e, neighbor e, similarity e)) sims
    = [(0, 1, 75%Z); (1, 0, 75%Z); (0, 2, 75%Z); (2, 0, 75%Z); (1, 2, 100%Z); (2, 1, 100%Z); (3, 1, 75%Z); (1, 3, 75%Z); (3, 2, 75%Z); (2, 3, 75%Z)].
Proof.
  split; [|split; [|split; [reflexivity|split; [reflexivity|]]]].
  - constructor; [| | |reflexivity]; intros u.
    + intros Hu. destruct u as [|[|[|[|u]]]]; [| | | |cbn in Hu; lia]; unfold increasing, nbrs, neighbors; cbn; repeat constructor.
    + intros v Hu. destruct u as [|[|[|[|u]]]]; [| | | |cbn in Hu; lia]; unfold nbrs, neighbors; cbn; intros H; repeat (destruct H as [<-|H]; [lia|]); destruct H.
    + intros v w Hu. destruct w. destruct u as [|[|[|[|u]]]]; [| | | |cbn in Hu; lia]; unfold neighbors; cbn; intros H; repeat (destruct H as [E|H]; [injection E as <-; cbn; auto|]); destruct H.
  - exists [0; 3; 1; 2]. split; [|split].
    + apply NoDup_Permutation; [repeat constructor; cbn; intuition lia|apply seq_NoDup|]. intros x. cbn. intuition.
    + intros i j [H1 H2]. cbn in H2. destruct i as [|[|[|[|i]]]], j as [|[|[|[|j]]]]; cbn; lia.
    + exists [(0, 0); (3, 1); (1, 2); (2, 3)], 0. split; reflexivity.
  - eexists. split; vm_compute; reflexivity.
Qed.
Print Assumptions C70_intersect.
Print Assumptions C70_ranks.
Print Assumptions C70_similarities.
Print Assumptions C70_jaccard.
Print Assumptions C70_cosine.
Print Assumptions C70_scan.
Print Assumptions C70_weights_refuted.
Print Assumptions C70_self_loop_refuted.
